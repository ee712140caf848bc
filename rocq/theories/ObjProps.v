(** Parameters of kernel objects: C54. *)
From Coq Require Import Reals Lra List Bool Arith ZArith.
From Verif Require Import Py KexModel KernModel KernSpec SemModel ObjModel ObjSpec ObjProofs ObjWit.
Import ListNotations.
Local Open Scope R_scope.

(** C54: false of kernels with a change operator: after an assignment the kernel lists the values assigned, and its covariance is not
    the one at those values. *)
Theorem C54_refuted : exists e k o vs o' K X,
  to_kernel e = Ok k /\ new_object k = Ok o /\ assign true true o vs = Ok o' /\ map pv (listed true true o') = vs
  /\ at_values true true k vs K /\ kK (kernel_of true o') X None <> kK K X None.
Proof. exact frozen_witness. Qed.
Print Assumptions C54_refuted.
(** What holds: without change operators, after any sequence of assignments and gradient computations, the covariance is the one at
    the listed values.  Missing: kernels with a change operator. *)
Theorem C54_change_free_partial : forall offset fixed k o l o',
  change_free k -> new_object k = Ok o -> optimise offset fixed o l = Ok o' ->
  exists K, at_values offset fixed k (map pv (listed offset fixed o')) K /\ same_covariance (kernel_of offset o') K.
Proof. exact optimise_change_free. Qed.
Print Assumptions C54_change_free_partial.
(** For all kernels: the covariance is the one at the listed values, except for the parameters of the operands of change operators,
    which keep the values they were constructed with. *)
Theorem C54_operands_partial : forall offset fixed k o l o',
  new_object k = Ok o -> optimise offset fixed o l = Ok o' ->
  exists r K, mixed (in_operand offset fixed k) (map pv (listed offset fixed o)) (map pv (listed offset fixed o')) r
    /\ at_values offset fixed k r K /\ same_covariance (kernel_of offset o') K.
Proof. exact optimise_covariance. Qed.
Print Assumptions C54_operands_partial.
(** The gradients that an optimiser reads for those parameters are never written. *)
Theorem C54_operand_gradients : forall offset fixed k o l o' i,
  new_object k = Ok o -> optimise offset fixed o l = Ok o' -> nth_error (in_operand offset fixed k) i = Some true ->
  nth_error (map pg (listed offset fixed o')) i = nth_error (map pg (listed offset fixed o)) i.
Proof. exact optimise_gradients. Qed.
Print Assumptions C54_operand_gradients.
(** At any time, any array of the right length can be assigned, and the values assigned are listed. *)
Theorem C54_assign : forall offset fixed k o l o' vs,
  new_object k = Ok o -> optimise offset fixed o l = Ok o' -> length vs = length (listed offset fixed o) ->
  exists o'', assign offset fixed o' vs = Ok o'' /\ map pv (listed offset fixed o'') = vs.
Proof. exact optimise_assignable. Qed.
Print Assumptions C54_assign.
(** SE + (PER * LIN) and C + CW(LIN, C): both can be assigned to (C55_partial: and differentiated). *)
Definition ex_actions (vs : list R) : list action := [Assign (map (Rplus 1) vs); Assign vs].
Example C54_example :
  (exists k o o', to_kernel (Comm KSum [(bSE, 1%Z)] [Comm KProd [(bPER, 1%Z); (bLIN, 1%Z)] []]) = Ok k /\ change_free k /\ new_object k = Ok o
     /\ optimise true true o (ex_actions [2; 3; 4; 5; 6; 7]) = Ok o' /\ map pv (listed true true o') = [2; 3; 4; 5; 6; 7])
  /\ (exists k o o', to_kernel (Comm KSum [(bC, 1%Z)] [Change CW (inl bLIN) (inl bC)]) = Ok k /\ new_object k = Ok o
     /\ optimise true true o (ex_actions [2; 3; 4; 5; 6; 7]) = Ok o' /\ map pv (listed true true o') = [2; 3; 4; 5; 6; 7]
     /\ map pv (listed true true o) = [1; 1; 0; 1; 0; 1] /\ in_operand true true k = [false; true; true; true; false; false]).
Proof.
  split; (eexists; eexists; eexists; (split; [reflexivity|])).
  - split; [repeat split|]. split; [reflexivity|]. split; reflexivity.
  - split; [reflexivity|]. repeat split.
Qed.
