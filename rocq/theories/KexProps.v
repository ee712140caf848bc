(** Properties of kernel expressions: C01, C03-C06, C10, C11. *)
From Coq Require Import List Bool Arith ZArith Lia Permutation Sorted.
From Verif Require Import Py UtilModel UtilSpec UtilProofs KexModel KexSpec KexProofs KexSimp KexMore.
Import ListNotations.
Local Open Scope Z_scope.

(** C01: == is equality up to reordering, hence an equivalence. *)
Theorem C01_eq_is_reordering : forall a b, keq a b = true <-> reord a b.
Proof. exact keq_spec. Qed.
Print Assumptions C01_eq_is_reordering.
Theorem C01_eq_equivalence :
  (forall a, keq a a = true) /\ (forall a b, keq a b = keq b a)
  /\ (forall a b c, keq a b = true -> keq b c = true -> keq a c = true).
Proof. exact (conj keq_refl (conj keq_sym keq_trans)). Qed.
Print Assumptions C01_eq_equivalence.
Definition ex_a := Comm KSum [(bLIN, 2); (bPER, 1)] [Comm KProd [(bSE, 1); (bPER, 1)] []; Change CP (inl bWN) (inl bLIN)].
Definition ex_b := Comm KSum [(bPER, 1); (bLIN, 2)] [Change CP (inl bWN) (inl bLIN); Comm KProd [(bPER, 1); (bSE, 1)] []].
Definition ex_c := Comm KSum [(bPER, 1); (bLIN, 2)] [Change CP (inl bLIN) (inl bWN); Comm KProd [(bPER, 1); (bSE, 1)] []].
Example C01_example : keq ex_a ex_b = true /\ ex_a <> ex_b /\ keq ex_a ex_c = false.
Proof. repeat split; discriminate. Qed.

(** C03: false in general: a product of the product of one C is an empty product. *)
Theorem C03_refuted :
  exists cts, (forall c, In c cts -> built true c /\ non_empty c) /\ 0 < terms [] cts
              /\ ~ non_empty (mkl true KProd [] cts).
Proof.
  exists [mkl true KProd [bC] []]. split; [|split].
  - intros c [<-|[]]. split; [apply built_list; intros ? []|]. intros k bts cts Hn.
    apply node_comm_inv in Hn as [[= -> -> ->]|(x & [] & _)]. reflexivity.
  - reflexivity.
  - intros H. specialize (H _ _ _ (node_self _)). compute in H. discriminate.
Qed.
Print Assumptions C03_refuted.
(** What holds: it is only the product nested in a product that can lose a C.  Missing for the full claim: products whose
    composites are themselves products with a factor C. *)
Theorem C03_partial :
  forall offset k bts cts,
    wf_counter bts -> 0 < terms bts cts -> (forall c, In c cts -> built offset c /\ non_empty c /\ no_c_product k c) ->
    non_empty (mk offset k bts cts).
Proof. exact mk_non_empty. Qed.
Print Assumptions C03_partial.
Theorem C03_change : forall offset c l r,
  (forall x, l = inr x \/ r = inr x -> built offset x /\ non_empty x) -> non_empty (mk_change offset c l r).
Proof. exact mk_change_non_empty. Qed.
Print Assumptions C03_change.
Theorem C03_initialise : forall offset e, built offset e -> non_empty e -> non_empty (initialise offset e).
Proof. exact initialise_non_empty. Qed.
Print Assumptions C03_initialise.
Example C03_example : (forall c, In c [mkl true KProd [bLIN; bPER] []] -> built true c /\ non_empty c /\ no_c_product KProd c)
  /\ wf_counter [(bC, 1)] /\ 0 < terms [(bC, 1)] [mkl true KProd [bLIN; bPER] []]
  /\ mk true KProd [(bC, 1)] [mkl true KProd [bLIN; bPER] []] = Comm KProd [(bLIN, 1); (bPER, 1)] [].
Proof.
  split; [|split; [|split; reflexivity]].
  - intros c [<-|[]]. split; [apply built_list; intros ? []|]. split; [|intros _; reflexivity]. intros k bts cts Hn.
    apply node_comm_inv in Hn as [[= -> -> ->]|(x & [] & _)]. reflexivity.
  - split; [repeat constructor; intros []|]. intros b n [[= <- <-]|[]]. reflexivity.
Qed.

(** C04: initialised expressions are in normal form, and simplifying them changes nothing. *)
Theorem C04_initialise_normal_form : forall offset e, built offset e ->
  normal offset (initialise offset e) /\ simplify offset (initialise offset e) = initialise offset e.
Proof. exact initialise_normal. Qed.
Print Assumptions C04_initialise_normal_form.
(** C(PER + (LIN * (WN + LIN))) with redundant wrapping. *)
Definition ex_built := mkl true KSum [bWN] [mkl true KProd [] [mkl true KSum [bLIN; bPER] []]].
Example ex_built_built : built true ex_built.
Proof.
  apply built_list; intros c [<-|[]]; apply built_list; intros c [<-|[]]; apply built_list; intros c [].
Qed.
Example C04_example : ex_built = Comm KSum [(bWN, 1)] [Comm KSum [(bLIN, 1); (bPER, 1)] []]
  /\ initialise true ex_built = Comm KSum [(bWN, 1); (bLIN, 1); (bPER, 1)] [].
Proof. split; reflexivity. Qed.

(** C05: false as stated: one constructor pass can leave a sum inside a sum, which the next pass removes. *)
Theorem C05_refuted : exists e, built true e /\ keq (simplify true e) e = false.
Proof. exists ex_built. split; [exact ex_built_built|reflexivity]. Qed.
Print Assumptions C05_refuted.
(** What holds: one further pass always reaches a fixed point.  Missing: the pass made by the constructor itself. *)
Theorem C05_partial : forall offset e, built offset e -> simplify offset (simplify offset e) = simplify offset e.
Proof. exact (fun offset e H => proj2 (initialise_normal offset e H)). Qed.
Print Assumptions C05_partial.

(** C06: the cardinality rules hold at every node of every simplified expression. *)
Theorem C06_cardinality : forall offset e k bts cts,
  wf e -> node (Comm k bts cts) (simplify offset e) -> wf_counter bts /\ cardinality offset k bts (length cts).
Proof. exact (fun offset e k bts cts W H => proj2 (simplify_card offset e W) (Comm k bts cts) H). Qed.
Print Assumptions C06_cardinality.
Example C06_example :
  simplify true (Comm KSum [(bWN, 3); (bC, 2); (bLIN, 2)] [Comm KProd [(bWN, 2); (bSE, 1); (bLIN, 2)] []; Comm KProd [(bSE, 3); (bC, 1)] []])
  = Comm KSum [(bWN, 1); (bLIN, 2); (bSE, 1)] [Comm KProd [(bWN, 1); (bLIN, 2)] []].
Proof. reflexivity. Qed.

(** C10: traverse lists the nodes by increasing address, each once; reduce folds over that list. *)
Theorem C10_traverse : forall offset e,
  exists ps, StronglySorted before ps /\ (forall p, In p ps <-> at_addr e p <> None)
             /\ map (at_addr e) ps = map Some (traverse offset e).
Proof. exact traverse_spec. Qed.
Print Assumptions C10_traverse.
Theorem C10_reduce : forall offset (A : Type) (f : kex -> A -> A) e acc,
  kreduce offset f e acc = fold_left (fun a n => f n a) (traverse offset e) acc.
Proof. exact (fun offset A f e acc => kreduce_spec offset f e acc). Qed.
Print Assumptions C10_reduce.
Example C10_example : traverse true ex_a =
  [ex_a; Comm KProd [(bSE, 1); (bPER, 1)] []; Change CP (inl bWN) (inl bLIN); Comm KSum [(bWN, 1)] []; Comm KSum [(bLIN, 1)] []].
Proof. reflexivity. Qed.

(** C11: contains_base is exact. *)
Theorem C11_contains_base : forall bs e, wf e -> (contains_base bs e = true <-> exists b, In b bs /\ occurs b e).
Proof. exact contains_base_spec. Qed.
Print Assumptions C11_contains_base.
Theorem C11_wf_of_built : forall offset e, built offset e -> wf e.
Proof. exact built_wf. Qed.
Print Assumptions C11_wf_of_built.
Example C11_example : contains_base [bC; bSE] ex_a = true /\ contains_base [bC; bS] ex_a = false /\ contains_base [bWN] ex_a = true.
Proof. repeat split. Qed.
