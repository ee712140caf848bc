(** C65: the number of parameters that models are scored with. *)
From Coq Require Import Reals List Bool Arith ZArith.
From Verif Require Import Py KexModel KexSpec OpsModel SemModel SemSpec SemOps KexCheck ObjModel DataModel CountModel CountSpec CountProofs.
Import ListNotations.

(** The noise variance and: a variance for each base kernel that is a term of a sum or a branch of a change, one variance for all base kernels
    of a product together, the other parameters of every base kernel, and those of every change. *)
Theorem C65_count : forall offset fixed e, wf e -> non_empty e -> sigmoid_free e ->
  number_of_parameters offset fixed e = Ok (S (free_parameters offset fixed e)).
Proof. exact number_total. Qed.
Print Assumptions C65_count.
Example C65_count_example : wf ex_count /\ non_empty ex_count /\ sigmoid_free ex_count /\ number_of_parameters true true ex_count = Ok 21.
Proof. destruct (okb_sound ex_count eq_refl) as (A & B & C). exact (conj A (conj B (conj C eq_refl))). Qed.

(** Equal expressions have the same number of parameters, so the same score for the same likelihood and data. *)
Theorem C65_equal : forall offset fixed a b n, wf a -> wf b -> keq a b = true -> number_of_parameters offset fixed a = Ok n ->
  number_of_parameters offset fixed b = Ok n /\
  (forall score ll d s, scored offset fixed score a ll d = Ok s -> scored offset fixed score b ll d = Ok s).
Proof. exact count_equal. Qed.
Print Assumptions C65_equal.
Example C65_equal_example : wf ex_count /\ wf ex_count' /\ keq ex_count ex_count' = true /\ ex_count <> ex_count'
  /\ number_of_parameters true true ex_count' = Ok 21.
Proof.
  destruct (okb_sound ex_count eq_refl) as (A & _). destruct (okb_sound ex_count' eq_refl) as (B & _).
  split; [exact A|split; [exact B|split; [reflexivity|split; [discriminate|reflexivity]]]].
Qed.

(** Simplifying never adds parameters. *)
Theorem C65_simplify : forall offset fixed e m n, wf e ->
  number_of_parameters offset fixed e = Ok n -> number_of_parameters offset fixed (simplify offset e) = Ok m -> m <= n.
Proof. exact simplify_parameters. Qed.
Print Assumptions C65_simplify.
Example C65_simplify_example : number_of_parameters true true ex_count = Ok 21 /\ number_of_parameters true true (simplify true ex_count) = Ok 19.
Proof. split; reflexivity. Qed.

(** So at the same likelihood the simplified expression scores at least as well (lower is better). *)
Theorem C65_score : forall offset fixed e ll n s s', wf e -> 0 < n ->
  (scored offset fixed BIC_score e ll n = Ok s -> scored offset fixed BIC_score (simplify offset e) ll n = Ok s' -> (s' <= s)%R) /\
  (scored offset fixed AIC_score e ll n = Ok s -> scored offset fixed AIC_score (simplify offset e) ll n = Ok s' -> (s' <= s)%R).
Proof. exact simplify_scores. Qed.
Print Assumptions C65_score.
Example C65_score_example : scored true true AIC_score ex_count 0 7 = Ok (AIC 0 7 21) /\ scored true true AIC_score (simplify true ex_count) 0 7 = Ok (AIC 0 7 19).
Proof. split; reflexivity. Qed.

(** Sums and products of two expressions have no more parameters than the two together; the noise variance is counted once. *)
Theorem C65_operations : forall offset fixed a b p q n, wf a -> wf b ->
  number_of_parameters offset fixed a = Ok p -> number_of_parameters offset fixed b = Ok q ->
  number_of_parameters offset fixed (add offset (inr a) (inr b)) = Ok n \/ number_of_parameters offset fixed (multiply offset (inr a) (inr b)) = Ok n ->
  n + 1 <= p + q.
Proof. exact sum_and_product_parameters. Qed.
Print Assumptions C65_operations.
Example C65_operations_example : let a := Comm KSum [(bLIN, 1%Z); (bPER, 1%Z)] [] in let b := Comm KProd [(bPER, 1%Z); (bLIN, 1%Z)] [] in
  number_of_parameters true true a = Ok 6 /\ number_of_parameters true true b = Ok 5
  /\ number_of_parameters true true (add true (inr a) (inr b)) = Ok 10 /\ number_of_parameters true true (multiply true (inr b) (inr b)) = Ok 8.
Proof. repeat split. Qed.
