(** C33, continued: the covariance between different observations. *)
From Coq Require Import Reals Lra List Bool Arith ZArith Lia.
From Verif Require Import Py KexModel KexSpec SemModel SemSpec ParModel ParSpec ParProofs ParOff ParWit.
Import ListNotations.
Local Open Scope R_scope.

(** C33: the canonical form of every fit of an expression, none of whose terms has SE twice and no WN, has the covariance function of the fitted kernel between
    any two different observations, also if there are terms with WN and LIN; so only variances can be wrong in expressions without SE. *)
Theorem C33_different : forall offset fixed e k p s cts, fit_of offset fixed e k p ->
  (forall m, In m (expansion e) -> In bWN m \/ (times bSE m <= 1)%nat) ->
  sum_of_prods_form offset p = Ok s -> sum_of_products s cts -> forall x i j, i <> j -> terms_cov cts x i j = kernel_cov k x i j.
Proof. exact sum_of_products_off. Qed.
Print Assumptions C33_different.
(** LIN * (WN + C), whose variances are wrong by C33_refuted. *)
Example C33_different_example : fit_of true true wn_lin (wn_lin_fit 1 0 1 1) (wn_lin_pars 1 0 1 1) /\ ~ well_mixed wn_lin
  /\ (forall m, In m (expansion wn_lin) -> In bWN m \/ (times bSE m <= 1)%nat)
  /\ sum_of_prods_form true (wn_lin_pars 1 0 1 1) = Ok (PComm KSum [] [] (wn_lin_terms 1 0 1 1))
  /\ terms_cov (wn_lin_terms 1 0 1 1) (fun n => INR n + 1) 1%nat 2%nat = 6.
Proof.
  split; [apply wn_lin_fits; lra|]. split; [|split; [|split; [apply wn_lin_form|]]].
  - intros H. destruct (H [bLIN; bWN]) as [N _]; [vm_compute; tauto|]. apply N. cbn. tauto.
  - intros m I. vm_compute in I. destruct I as [<-|[<-|[]]]; vm_compute; (left; tauto) || (right; lia).
  - rewrite (sum_of_products_off true true wn_lin (wn_lin_fit 1 0 1 1) (wn_lin_pars 1 0 1 1) (PComm KSum [] [] (wn_lin_terms 1 0 1 1)) (wn_lin_terms 1 0 1 1)).
    + cbn. ring.
    + apply wn_lin_fits; lra.
    + intros m I. vm_compute in I. destruct I as [<-|[<-|[]]]; vm_compute; (left; tauto) || (right; lia).
    + apply wn_lin_form.
    + split; [reflexivity|apply wn_lin_shape].
    + discriminate.
Qed.
