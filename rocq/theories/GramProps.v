(** C81: the production rules do what is documented. *)
From Coq Require Import List Bool Arith ZArith Lia.
From Verif Require Import Py KexModel KexSpec KexProofs KexCheck OpsModel OpsSpec OpsProofs GramSpec GramProofs GramWit.
Import ListNotations.
Local Open Scope list_scope.
Local Open Scope Z_scope.

(** C81: the results of the rules of a group on a node are, up to ==, what the documented rewritings of the group make of it, and none of these is missing. *)
Theorem C81_rules : forall offset G ds bases noC n,
  In (G, ds) [(rules_all offset, all_rewritings); (rules_default offset, default_rewritings); (rules_original offset, original_rewritings); (rules_minimal offset, minimal_rewritings)] ->
  without_C bases noC -> wf n ->
  (forall new, produced (G bases noC) n new -> exists d, In d ds /\ documented offset bases d n new) /\
  (forall d x, In d ds -> documented offset bases d n x -> exists new, produced (G bases noC) n new /\ keq new x = true).
Proof. exact groups_documented. Qed.
Print Assumptions C81_rules.
(** An expansion lists the expression with any one node rewritten in any of these ways (the place written to being that of C17), and nothing else. *)
Theorem C81_expansion : forall offset G ds bases noC e,
  In (G, ds) [(rules_all offset, all_rewritings); (rules_default offset, default_rewritings); (rules_original offset, original_rewritings); (rules_minimal offset, minimal_rewritings)] ->
  without_C bases noC -> wf e ->
  (forall x, In x (expand offset (G bases noC) e) -> exists p n d new t,
     at_addr e p = Some n /\ In d ds /\ documented offset bases d n new /\ replace_addr e (target e p) new = Some t /\ keq x (standardise offset t) = true) /\
  (forall p n d new, at_addr e p = Some n -> In d ds -> documented offset bases d n new -> exists x t,
     In x (expand offset (G bases noC) e) /\ replace_addr e (target e p) new = Some t /\ keq x (standardise offset t) = true).
Proof. exact expansion_documented. Qed.
Print Assumptions C81_expansion.
(** WN + LIN * PER: the original rules also try LIN * PER, and the minimal ones do not. *)
Example C81_example : without_C [bWN; bC; bLIN; bPER] [bWN; bLIN; bPER] /\ wf ex_gram
  /\ documented true [bWN; bC; bLIN; bPER] DropTerm ex_gram (Comm KSum [] [Comm KProd [(bLIN, 1); (bPER, 1)] []])
  /\ existsb (keq (Comm KProd [(bLIN, 1); (bPER, 1)] [])) (expand true (rules_original true [bWN; bC; bLIN; bPER] [bWN; bLIN; bPER]) ex_gram) = true
  /\ existsb (keq (Comm KSum [(bPER, 1)] [Comm KProd [(bLIN, 1); (bPER, 1)] []])) (expand true (rules_minimal true [bWN; bC; bLIN; bPER] [bWN; bLIN; bPER]) ex_gram) = true
  /\ existsb (keq (Comm KProd [(bLIN, 1); (bPER, 1)] [])) (expand true (rules_minimal true [bWN; bC; bLIN; bPER] [bWN; bLIN; bPER]) ex_gram) = false.
Proof. exact ex_gram_ok. Qed.
