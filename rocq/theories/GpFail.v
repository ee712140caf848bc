(** Proofs: what a fit that raises leaves (C52). *)
From Coq Require Import String List Bool ZArith.
From Verif Require Import Py KexModel GpModel.
Import ListNotations.

Section GPModel.
  Context {W P C Sc : Type} (build : W -> kex -> W * res P) (optimise : W -> P -> Z -> W * (P * res unit)).
  Lemma failed_fit w (m : gpmodel P C Sc) r w' m' e : fit build optimise w m r = (w', m', Raise e) ->
    kernel_expression m' = kernel_expression m /\ cached_utility m' = cached_utility m /\ sum_of_prods_cache m' = sum_of_prods_cache m
    /\ ((r = None /\ restarts m = None /\ e = EValueError /\ w' = w /\ m' = m)
        \/ (build w (kernel_expression m) = (w', Raise e) /\ model m' = model m)
        \/ exists w1 p p' n, build w (kernel_expression m) = (w1, Ok p) /\ (r = Some n \/ (r = None /\ restarts m = Some n))
             /\ optimise w1 p n = (w', (p', Raise e)) /\ model m' = Some p').
  Proof.
    unfold fit. destruct r as [n|].
    - cbn [kernel_expression with_restarts]. destruct (build w (kernel_expression m)) as [w1 [p|e1]] eqn:B.
      + destruct (optimise w1 p n) as [w2 [p' o]] eqn:O. intros [= <- <- ->]. repeat (split; [reflexivity|]). right; right.
        exists w1, p, p', n. auto.
      + intros [= <- <- ->]. repeat (split; [reflexivity|]). right; left. auto.
    - destruct (restarts m) as [n|] eqn:Er; cbn [option_map].
      + destruct (build w (kernel_expression m)) as [w1 [p|e1]] eqn:B.
        * destruct (optimise w1 p n) as [w2 [p' o]] eqn:O. intros [= <- <- ->]. repeat (split; [reflexivity|]). right; right.
          exists w1, p, p', n. auto.
        * intros [= <- <- ->]. repeat (split; [reflexivity|]). right; left. auto.
      + intros [= <- <- <-]. repeat (split; [reflexivity|]). left. auto.
  Qed.
End GPModel.
