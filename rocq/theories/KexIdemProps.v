(** Property theorems: when a second simplification changes something (C05), and which results of expand are in normal form (C18). *)
From Coq Require Import List ZArith.
From Verif Require Import Py KexModel KexSpec KexCheck KexMore OpsModel OpsSpec OpsProofs KexIdemSpec KexIdem.
Import ListNotations.
Local Open Scope list_scope.
Local Open Scope Z_scope.

(** C05: simplifying what was built changes nothing exactly if no Sum has a Sum, and no Product a Product, among its composites. *)
Theorem C05_exactly : forall offset e, built offset e -> (keq (simplify offset e) e = true <-> ~ nested e).
Proof. exact fixed_iff_nested. Qed.
Print Assumptions C05_exactly.
(** C05: which calls of SumKE and ProductKE give something that a second simplification changes: exactly those with a composite that
    simplifies to an expression holding, and holding only, an expression of the kind being made. *)
Theorem C05_constructor : forall offset k bts cts, wf_counter bts -> (forall c, In c cts -> built offset c) ->
  (keq (simplify offset (mk offset k bts cts)) (mk offset k bts cts) = true
   <-> ~ exists c k' b' c', In c cts /\ simplify offset c = Comm k' [] [Comm k b' c']).
Proof. exact mk_fixed_iff. Qed.
Print Assumptions C05_constructor.
(** C05 for change points and windows: the claim holds as it stands. *)
Theorem C05_change : forall offset o l r, (forall x, l = inr x \/ r = inr x -> built offset x) ->
  simplify offset (mk_change offset o l r) = mk_change offset o l r.
Proof. exact mk_change_fixed. Qed.
Print Assumptions C05_change.
Example C05_exactly_example :
  let s := mkl true KSum [bLIN; bPER] [] in let w := mkl true KProd [] [s] in
  built true (mkl true KSum [bWN] [w]) /\ nested (mkl true KSum [bWN] [w]) /\ simplify true w = Comm KProd [] [s]
  /\ built true (mkl true KProd [bWN] [w]) /\ keq (simplify true (mkl true KProd [bWN] [w])) (mkl true KProd [bWN] [w]) = true
  /\ mk_change true CP (inr w) (inl bWN) = Change CP (inr s) (inl bWN).
Proof.
  assert (B : built true (mkl true KProd [] [mkl true KSum [bLIN; bPER] []])).
  { apply built_list. intros c [<-|[]]. apply built_list. intros c []. }
  cbv zeta. split; [apply built_list; intros c [<-|[]]; exact B|]. split.
  - exists KSum, [(bWN, 1)], [Comm KSum [(bLIN, 1); (bPER, 1)] []], [(bLIN, 1); (bPER, 1)], []. split; [apply node_self|left; reflexivity].
  - split; [reflexivity|]. split; [apply built_list; intros c [<-|[]]; exact B|]. split; reflexivity.
Qed.

(** C18: a result of expand is in normal form exactly if it has no Sum in a Sum and no Product in a Product: nothing else can be wrong. *)
Theorem C18_exactly : forall offset G bases noC e x,
  In G [rules_all offset; rules_default offset; rules_original offset; rules_minimal offset] ->
  normal offset e -> In x (expand offset (G bases noC) e) -> (normal offset x <-> ~ nested x).
Proof. exact expand_nested. Qed.
Print Assumptions C18_exactly.
(** C18: results are in normal form unless, on the way to what was replaced, a composite of a Sum simplifies to something holding only
    a Sum, or one of a Product to something holding only a Product.  Missing: the other results. *)
Theorem C18_own_kind_partial : forall offset G bases noC e x,
  In G [rules_all offset; rules_default offset; rules_original offset; rules_minimal offset] ->
  normal offset e -> In x (expand offset (G bases noC) e) ->
  exists p n new t, at_addr e p = Some n /\ produced (G bases noC) n new /\ replace_addr e (target e p) new = Some t
    /\ keq x (standardise offset t) = true /\ (no_own_kind offset t (target e p) -> normal offset x).
Proof. exact expand_normal'. Qed.
Print Assumptions C18_own_kind_partial.
(** PER + WN * CP(LIN, PER) without the WN: the product is left with the change point only, which is not a Sum. *)
Example C18_own_kind_example :
  let cp := Change CP (inl bLIN) (inl bPER) in
  let e := Comm KSum [(bPER, 1)] [Comm KProd [(bWN, 1)] [cp]] in
  let t := Comm KSum [(bPER, 1)] [Comm KProd [] [cp]] in
  normal true e /\ replace_addr e [0%nat] (Comm KProd [] [cp]) = Some t /\ no_own_kind true t [0%nat]
  /\ ~ no_lone_composite true t [0%nat]
  /\ In (Comm KSum [(bPER, 1)] [cp]) (expand true (rules_default true [bLIN; bPER] []) e).
Proof.
  cbv zeta. split; [apply normalb_sound; reflexivity|]. split; [reflexivity|]. split; [|split].
  - intros q i r k bts cts s k' b' c' E Hq Hs. destruct q as [|j q]; [|destruct q; discriminate].
    injection E as <- _. injection Hq as <- <- <-. injection Hs as <-. discriminate.
  - intros H. apply (H [0%nat] [] (Comm KProd [] [Change CP (inl bLIN) (inl bPER)])); [reflexivity|discriminate|reflexivity|].
    exists KProd, (Change CP (inl bLIN) (inl bPER)). reflexivity.
  - vm_compute. tauto.
Qed.
