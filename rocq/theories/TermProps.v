(** The number of terms of a Sum or Product (C77). *)
From Coq Require Import List Bool Arith ZArith Lia.
From Verif Require Import Py KexModel KexSpec KexProofs KexCheck OpsModel OpsSpec SemSpec TermProofs.
Import ListNotations.
Local Open Scope list_scope.
Local Open Scope Z_scope.

(** C77: term_count is the number of base terms, repetitions included, plus the number of composites; *)
Theorem C77_counts : forall k bts cts, wf_counter bts -> term_count (Comm k bts cts) = Some (Z.of_nat (length (bases_in bts) + length cts)).
Proof. exact term_count_counts. Qed.
Print Assumptions C77_counts.
(** equal expressions have equally many terms; *)
Theorem C77_equal : forall a b, wf a -> wf b -> keq a b = true -> term_count a = term_count b.
Proof. exact term_count_keq. Qed.
Print Assumptions C77_equal.
(** a term can be removed exactly when there are several, and the expressions with one term are the singletons. *)
Theorem C77_removable : forall offset k bts cts, wf_counter bts -> (forall x, In x cts -> wf x) ->
  (remove_a_term offset (Comm k bts cts) = [] <-> exists n, term_count (Comm k bts cts) = Some n /\ n <= 1).
Proof. exact remove_iff. Qed.
Print Assumptions C77_removable.
Theorem C77_singleton : forall e, wf e -> (singleton e <-> term_count e = Some 1).
Proof. exact single_iff. Qed.
Print Assumptions C77_singleton.
Example C77_example : wf (Comm KSum [(bLIN, 2); (bPER, 1)] [Comm KProd [(bSE, 1); (bPER, 1)] []])
  /\ term_count (Comm KSum [(bLIN, 2); (bPER, 1)] [Comm KProd [(bSE, 1); (bPER, 1)] []]) = Some 4
  /\ keq (Comm KSum [(bLIN, 2); (bPER, 1)] []) (Comm KSum [(bPER, 1); (bLIN, 2)] []) = true
  /\ singleton (Comm KProd [] [Comm KSum [(bSE, 2)] []]) /\ term_count (Change CP (inl bPER) (inl bLIN)) = None.
Proof. split; [apply okb_sound; reflexivity|]. repeat (split; [reflexivity|]). split; [|reflexivity]. do 3 eexists. split; reflexivity. Qed.
