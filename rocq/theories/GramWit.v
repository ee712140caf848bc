(** An expression and its expansions (C81). *)
From Coq Require Import List Bool Arith ZArith Lia.
From Verif Require Import Py KexModel KexSpec KexProofs KexCheck OpsModel OpsSpec OpsProofs GramSpec GramProofs.
Import ListNotations.
Local Open Scope list_scope.
Local Open Scope Z_scope.

Definition ex_gram : kex := Comm KSum [(bWN, 1)] [Comm KProd [(bLIN, 1); (bPER, 1)] []].
Lemma ex_gram_ok : without_C [bWN; bC; bLIN; bPER] [bWN; bLIN; bPER] /\ wf ex_gram
  /\ documented true [bWN; bC; bLIN; bPER] DropTerm ex_gram (Comm KSum [] [Comm KProd [(bLIN, 1); (bPER, 1)] []])
  /\ existsb (keq (Comm KProd [(bLIN, 1); (bPER, 1)] [])) (expand true (rules_original true [bWN; bC; bLIN; bPER] [bWN; bLIN; bPER]) ex_gram) = true
  /\ existsb (keq (Comm KSum [(bPER, 1)] [Comm KProd [(bLIN, 1); (bPER, 1)] []])) (expand true (rules_minimal true [bWN; bC; bLIN; bPER] [bWN; bLIN; bPER]) ex_gram) = true
  /\ existsb (keq (Comm KProd [(bLIN, 1); (bPER, 1)] [])) (expand true (rules_minimal true [bWN; bC; bLIN; bPER] [bWN; bLIN; bPER]) ex_gram) = false.
Proof.
  split; [|split; [apply okb_sound; reflexivity|]]; [intro b; destruct b; cbn; intuition discriminate|]. split; [|split; [vm_compute; reflexivity|split; vm_compute; reflexivity]].
  change (Comm KSum [] [Comm KProd [(bLIN, 1); (bPER, 1)] []]) with (mk true KSum [] [Comm KProd [(bLIN, 1); (bPER, 1)] []]). apply (drop_base true _ KSum bWN); [vm_compute; reflexivity|].
  split; [split; [constructor|intros b n []]|]. intro x. destruct x; reflexivity.
Qed.
