(** Property theorem: what a fit that raises leaves (C52). *)
From Coq Require Import String List ZArith.
From Verif Require Import Py KexModel GpModel GpProofs GpFail.
Import ListNotations.

(** C52: a fit that raises keeps the regression of the previous one exactly if it raises before the optimisation; otherwise what the
    failed optimisation left replaces it, while the score, and the canonical form, are still those of the previous fit. *)
Theorem C52_failures : forall W P C Sc (build : W -> kex -> W * res P) optimise w (m : gpmodel P C Sc) r w' m' e,
  fit build optimise w m r = (w', m', Raise e) ->
  kernel_expression m' = kernel_expression m /\ cached_utility m' = cached_utility m /\ sum_of_prods_cache m' = sum_of_prods_cache m
  /\ ((r = None /\ restarts m = None /\ e = EValueError /\ w' = w /\ m' = m)
      \/ (build w (kernel_expression m) = (w', Raise e) /\ model m' = model m)
      \/ exists w1 p p' n, build w (kernel_expression m) = (w1, Ok p) /\ (r = Some n \/ (r = None /\ restarts m = Some n))
           /\ optimise w1 p n = (w', (p', Raise e)) /\ model m' = Some p').
Proof. exact @failed_fit. Qed.
Print Assumptions C52_failures.
(** Scored after the first fit, then a second fit whose optimisation fails: the score is that of the first. *)
Example C52_failures_example :
  let (w, m) := after (C := nat) (Sc := nat) count_build failing_optimise count_canonical count_describe 0 (Comm KSum [(bWN, 1%Z)] [])
                  [CFit (Some 4%Z); CUtility (fun p => Ok p) "BIC"] in
  cached_utility m = Some (0, "BIC"%string)
  /\ exists w' m' e, fit count_build failing_optimise w m None = (w', m', Raise e)
     /\ cached_utility m' = Some (0, "BIC"%string) /\ model m' <> model m.
Proof. vm_compute. split; [reflexivity|]. do 3 eexists. split; [reflexivity|]. split; [reflexivity|discriminate]. Qed.
