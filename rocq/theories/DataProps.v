(** Properties of the scores and of the synthetic change data: C43, C47. *)
From Coq Require Import Reals List Bool Arith Lra Lia.
From Verif Require Import Py KernModel DataModel DataProofs.
Local Open Scope R_scope.

(** C43 is false: AICc can be below AIC, and decrease when parameters are added (when there are at most k + 1 data points). *)
Theorem C43_refuted : exists ll n k a, AICc ll n k = Ok a /\ a < AIC ll n k.
Proof. exact AICc_below_AIC. Qed.
Print Assumptions C43_refuted.
Theorem C43_parameters_refuted : exists ll n k1 k2 a1 a2, (k1 < k2)%nat /\ AICc ll n k1 = Ok a1 /\ AICc ll n k2 = Ok a2 /\ a2 < a1.
Proof. exact AICc_decreases. Qed.
Print Assumptions C43_parameters_refuted.
(** All scores decrease when the likelihood increases, *)
Theorem C43_likelihood : forall n k l1 l2, l1 < l2 ->
  BIC l2 n k < BIC l1 n k /\ AIC l2 n k < AIC l1 n k
  /\ (n <> (k + 1)%nat -> exists a1 a2, AICc l1 n k = Ok a1 /\ AICc l2 n k = Ok a2 /\ a2 < a1).
Proof. exact scores_ll. Qed.
Print Assumptions C43_likelihood.
(** and increase with the number of parameters (AICc only with more than k + 1 data points), *)
Theorem C43_parameters_partial : forall ll n k1 k2, (k1 < k2)%nat ->
  ((1 < n)%nat -> BIC ll n k1 < BIC ll n k2) /\ AIC ll n k1 < AIC ll n k2
  /\ ((k2 + 1 < n)%nat -> exists a1 a2, AICc ll n k1 = Ok a1 /\ AICc ll n k2 = Ok a2 /\ a1 < a2).
Proof. exact scores_k. Qed.
Print Assumptions C43_parameters_partial.
(** and AICc is at least AIC with more than k + 1 data points. *)
Theorem C43_partial : forall ll n k, (k + 1 < n)%nat -> exists a, AICc ll n k = Ok a /\ AIC ll n k <= a.
Proof. exact AICc_AIC. Qed.
Print Assumptions C43_partial.
Example C43_example : AICc 1 10 3 = Ok (2 * (- 1 + 3 + (3 ^ 2 + 3) / (10 - 3 - 1))) /\ 2 * (- 1 + 3 + (3 ^ 2 + 3) / (10 - 3 - 1)) = 8.
Proof. split; [unfold AICc; simpl; repeat f_equal; ring|field]. Qed.

(** C47: lined-up change data are continuous if the two functions are; *)
Theorem C47_continuous : forall f1 f2, continuity f1 -> continuity f2 ->
  (forall cp, continuity (cp_f_maker f1 f2 cp true)) /\ (forall s e, continuity (cw_f_maker f1 f2 s e true)).
Proof. intros f1 f2 H1 H2. split; [intros cp; exact (cp_continuous f1 f2 cp H1 H2)|intros s e; exact (cw_continuous f1 f2 s e H1 H2)]. Qed.
Print Assumptions C47_continuous.
(** before the change point they are the first function, after it the second one shifted by a constant. *)
Theorem C47_values : forall f1 f2 cp x, (x < cp -> cp_f_maker f1 f2 cp false x = f1 x /\ cp_f_maker f1 f2 cp true x = f1 x)
  /\ (cp <= x -> cp_f_maker f1 f2 cp false x = f2 x /\ cp_f_maker f1 f2 cp true x - f2 x = f1 cp - f2 cp).
Proof. exact cp_values. Qed.
Print Assumptions C47_values.
(** Before the window they are the first function, in it the second one and after it the first one again, each shifted by a constant. *)
Theorem C47_window_values : forall f1 f2 s e x, s <= e ->
  (x < s -> cw_f_maker f1 f2 s e false x = f1 x /\ cw_f_maker f1 f2 s e true x = f1 x)
  /\ (s <= x <= e -> cw_f_maker f1 f2 s e false x = f2 x /\ cw_f_maker f1 f2 s e true x - f2 x = f1 s - f2 s)
  /\ (e < x -> cw_f_maker f1 f2 s e false x = f1 x /\ cw_f_maker f1 f2 s e true x - f1 x = f1 s - f2 s + f2 e - f1 e).
Proof. exact cw_values. Qed.
Print Assumptions C47_window_values.
Example C47_example : cw_f_maker (fun x => x) (fun x => x * x) 2 3 true 2 = 2 /\ cw_f_maker (fun x => x) (fun x => x * x) 2 3 true 3 = 7 /\ cw_f_maker (fun x => x) (fun x => x * x) 2 3 true 4 = 8
  /\ cw_f_maker (fun x => x) (fun x => x * x) 2 3 false 4 = 4.
Proof. unfold cw_f_maker, Rltb. repeat split; repeat (match goal with |- context [Rlt_dec ?a ?b] => destruct (Rlt_dec a b); try (exfalso; lra) end); simpl; try (exfalso; lra); lra. Qed.
