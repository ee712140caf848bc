(** Textual forms of expressions: C13, C14. *)
From Coq Require Import String List Bool Arith ZArith Reals.
From Verif Require Import Py KexModel KexSpec KexCheck KexMore SemModel SemSpec PySpec PyProofs StrModel StrSpec StrProofs.
Import ListNotations.
Local Open Scope list_scope.

(** The grammar of PySpec gives every line at most one reading. *)
Theorem C14_unambiguous : forall s p q, reads s p -> reads s q -> q = p.
Proof. exact reads_unambiguous. Qed.
Print Assumptions C14_unambiguous.

(** C13: evaluating the repr of an initialised expression gives that expression, and nothing else. *)
Theorem C13_round_trip : forall offset e, built offset e ->
  forall k, evaluates offset (repr (initialise offset e)) k <-> k = initialise offset e.
Proof. exact (fun offset e B => repr_round_trip offset _ (proj1 (initialise_normal offset e B))). Qed.
Print Assumptions C13_round_trip.
Definition ex_text : kex :=
  Comm KProd [(bPER, 2); (bWN, 1)]%Z [Comm KSum [(bLIN, 1); (bC, 1)]%Z [Comm KProd [(bSE, 1); (bPER, 1)]%Z []]; Change CW (inl bC) (inr (Comm KSum [(bLIN, 1); (bPER, 1)]%Z []))].
Example C13_example :
  let e := initialise false ex_text in
  e = Comm KProd [(bWN, 1)]%Z [Comm KSum [(bLIN, 1); (bC, 1)]%Z [Comm KProd [(bSE, 1); (bPER, 1)]%Z []]; Change CW (inl bC) (inr (Comm KSum [(bLIN, 1); (bPER, 1)]%Z []))]
  /\ built false e
  /\ repr e = "ProductKE(['WN'], [SumKE(['LIN', 'C'], [ProductKE(['SE', 'PER'])]), ChangeKE('CW', 'C', SumKE(['LIN', 'PER']))])"%string.
Proof. split; [reflexivity|]. split; [apply normalb_built; reflexivity|reflexivity]. Qed.

(** C14: the str of a non-empty expression has exactly one reading, whose covariance functions are those of the expression. *)
Theorem C14_str : forall e, wf e -> non_empty e ->
  exists p, (forall q, reads (str e) q <-> q = p) /\ forall offset, same_family (formula_covariances offset p) (covariances offset e).
Proof. exact str_formula. Qed.
Print Assumptions C14_str.
(** to_kernel_unrefined, which evaluates that reading, builds the kernel object of to_kernel except that no variance is fixed. *)
Theorem C14_unrefined : forall offset e, normal offset e -> non_empty e -> sigmoid_free e ->
  exists g, to_kernel e = Ok g /\ forall h, to_kernel_unrefined e h <-> h = all_free g.
Proof. exact unrefined_kernel. Qed.
Print Assumptions C14_unrefined.
Example C14_example : wf ex_text /\ non_empty ex_text /\ str ex_text = "PER * PER * WN * (C + LIN + PER * SE) * CW(C, PER + LIN)"%string
  /\ str (Comm KSum [(bLIN, 1)]%Z [Comm KSum [(bSE, 1)]%Z [ex_text]]) = "LIN + SE + PER * PER * WN * (C + LIN + PER * SE) * CW(C, PER + LIN)"%string.
Proof. destruct (okb_sound ex_text eq_refl) as (W & N & _). split; [exact W|]. split; [exact N|]. split; reflexivity. Qed.
Example C14_unrefined_example : let e := initialise false ex_text in normal false e /\ non_empty e /\ sigmoid_free e
  /\ call_names (str e) = "WN() * (C() + LIN() + PER() * SE()) * CW(C(), PER() + LIN())"%string.
Proof.
  destruct (okb_sound (initialise false ex_text) eq_refl) as (W & N & S). split; [apply normalb_sound; reflexivity|]. split; [exact N|]. split; [exact S|reflexivity].
Qed.
