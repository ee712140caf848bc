(** Properties of the expression operations and of expansion: C08, C09, C15-C18, C20. *)
From Coq Require Import String List Bool Arith ZArith Lia Permutation.
From Verif Require Import Py UtilModel KexModel KexSpec KexProofs KexSimp KexMore OpsModel OpsSpec KexCong OpsProofs.
Import ListNotations.
Local Open Scope list_scope.
Local Open Scope Z_scope.

(** C08: false when the new base is the old one (the dictionary literal {bt: -1, B: 1} then has one key): LIN + PER with LIN for LIN gives
    LIN + LIN + PER, which is no replacement of one base of LIN + PER with LIN. *)
Theorem C08_refuted : exists k bts cts B x, wf (Comm k bts cts) /\ In x (swap_base true (Comm k bts cts) B)
  /\ forall bt c', replace_one bts c' bt B -> keq x (mk true k c' cts) = false.
Proof. exact swap_base_adds. Qed.
Print Assumptions C08_refuted.
(** What holds: one result per distinct base, and those for bases other than B replace one occurrence of that base.  Missing: the result
    for B itself. *)
Theorem C08_partial : forall offset k bts cts B, wf_counter bts -> exists bs,
  distinct_bases bts bs /\ length (swap_base offset (Comm k bts cts) B) = length bs
  /\ forall i bt, nth_error bs i = Some bt -> bt <> B ->
       exists c', replace_one bts c' bt B /\ nth_error (swap_base offset (Comm k bts cts) B) i = Some (mk offset k c' cts).
Proof. exact swap_base_comm. Qed.
Print Assumptions C08_partial.
(** What happens whenever B is already a term: some result has one B more. *)
Theorem C08_adds_base : forall offset k bts cts B, wf_counter bts -> 0 < cget bts B ->
  exists c', wf_counter c' /\ (forall x, cget c' x = cget bts x + delta B x) /\ In (mk offset k c' cts) (swap_base offset (Comm k bts cts) B).
Proof. exact swap_base_same. Qed.
Print Assumptions C08_adds_base.
(** On a Change: the bare branches other than B are replaced, one at a time. *)
Theorem C08_change : forall offset o l r B x,
  In x (swap_base offset (Change o l r) B) <->
  (exists b, l = inl b /\ b <> B /\ x = mk_change offset o (inl B) r) \/ (exists b, r = inl b /\ b <> B /\ x = mk_change offset o l (inl B)).
Proof. exact swap_base_change. Qed.
Print Assumptions C08_change.
Example C08_example : wf_counter [(bLIN, 2); (bPER, 1)]
  /\ swap_base true (Comm KProd [(bLIN, 2); (bPER, 1)] []) bSE
     = [Comm KProd [(bLIN, 1); (bPER, 1); (bSE, 1)] []; Comm KProd [(bLIN, 2); (bSE, 1)] []].
Proof.
  split; [|reflexivity]. split; [repeat constructor; simpl; intuition discriminate|].
  intros b n [[= <- <-]|[[= <- <-]|[]]]; reflexivity.
Qed.

(** C09: one candidate per distinct base and per composite, each lacking exactly one occurrence of it. *)
Theorem C09_remove_one : forall offset k bts cts, wf_counter bts -> 1 < terms bts cts -> exists bs,
  distinct_bases bts bs
  /\ length (remove_a_term offset (Comm k bts cts)) = (length bs + length cts)%nat
  /\ (forall i b, nth_error bs i = Some b ->
        exists c', minus_one bts c' b /\ nth_error (remove_a_term offset (Comm k bts cts)) i = Some (mk offset k c' cts))
  /\ (forall i l1 c l2, cts = l1 ++ c :: l2 -> length l1 = i ->
        nth_error (remove_a_term offset (Comm k bts cts)) (length bs + i) = Some (mk offset k bts (l1 ++ l2))).
Proof. exact remove_a_term_comm. Qed.
Print Assumptions C09_remove_one.
Theorem C09_single_term : forall offset k bts cts, wf_counter bts -> terms bts cts <= 1 -> remove_a_term offset (Comm k bts cts) = [].
Proof. exact remove_a_term_single. Qed.
Print Assumptions C09_single_term.
Theorem C09_change : forall offset o l r,
  remove_a_term offset (Change o l r)
  = [match l with inl b => Comm KSum [(b, 1)] [] | inr x => x end; match r with inl b => Comm KSum [(b, 1)] [] | inr x => x end].
Proof. exact remove_a_term_change. Qed.
Print Assumptions C09_change.
Example C09_example : remove_a_term true (Comm KSum [(bLIN, 2); (bPER, 1)] [Comm KProd [(bSE, 1); (bPER, 1)] []])
  = [Comm KSum [(bLIN, 1); (bPER, 1)] [Comm KProd [(bSE, 1); (bPER, 1)] []];
     Comm KSum [(bLIN, 2)] [Comm KProd [(bSE, 1); (bPER, 1)] []];
     Comm KSum [(bLIN, 2); (bPER, 1)] []]
  /\ 1 < terms [(bLIN, 2); (bPER, 1)] [Comm KProd [(bSE, 1); (bPER, 1)] []]
  /\ remove_a_term true (Comm KSum [(bLIN, 1)] []) = [] /\ terms [(bLIN, 1)] [] <= 1.
Proof. repeat split; discriminate. Qed.

(** C15 *)
Theorem C15_expand_different : forall offset rules e, pairwise_different (expand offset rules e).
Proof. exact expand_different. Qed.
Print Assumptions C15_expand_different.
Example C15_example : length (expand true (rules_default true [bPER; bWN; bC; bLIN] [bPER; bWN; bLIN]) ex_lone) = 59%nat.
Proof. vm_compute. reflexivity. Qed.

(** C16: for each built-in group of rules, the order in which the sets base_kerns_for_prod and its difference with {'C'} are iterated
    does not matter. *)
Theorem C16_order_independent : forall offset e G bases bases' noC noC', wf e ->
  In G [rules_all offset; rules_default offset; rules_original offset; rules_minimal offset] ->
  Permutation bases bases' -> Permutation noC noC' ->
  same_up_to_eq (expand offset (G bases noC) e) (expand offset (G bases' noC') e).
Proof. exact expand_order. Qed.
Print Assumptions C16_order_independent.
(** A case in which the two lists are not the same lists. *)
Example C16_example : expand true (rules_default true [bPER; bWN; bC; bLIN] [bPER; bWN; bLIN]) ex_lone
  <> expand true (rules_default true [bLIN; bPER; bWN; bC] [bLIN; bPER; bWN]) ex_lone.
Proof. vm_compute. discriminate. Qed.

(** C17: false for a bare left branch of a Change: its replacement is written over the right branch.  CP(WN, LIN) gives CP(WN, WN + PER). *)
Theorem C17_refuted : exists rules e x, wf e /\ wf_rules rules /\ In x (expand true rules e)
  /\ forall p n new t, at_addr e p = Some n -> produced rules n new -> replace_addr e p new = Some t -> keq x (standardise true t) = false.
Proof. exact expand_left_leaf. Qed.
Print Assumptions C17_refuted.
(** What holds: the claim for trees without such branches, in both directions (every replacement is also listed).  Missing: expressions
    with a Change whose left branch is a base kernel. *)
Theorem C17_partial : forall offset rules e, wf e -> wf_rules rules -> no_left_string e ->
  (forall x, In x (expand offset rules e) -> exists p n new t,
     at_addr e p = Some n /\ produced rules n new /\ replace_addr e p new = Some t /\ keq x (standardise offset t) = true)
  /\ (forall p n new, at_addr e p = Some n -> produced rules n new -> exists x t,
     In x (expand offset rules e) /\ replace_addr e p new = Some t /\ keq x (standardise offset t) = true).
Proof. exact expand_only_node. Qed.
Print Assumptions C17_partial.
(** For all trees, with the address written to instead of that of the node. *)
Theorem C17_actual : forall offset rules e, wf e -> wf_rules rules ->
  (forall x, In x (expand offset rules e) -> exists p n new t,
     at_addr e p = Some n /\ produced rules n new /\ replace_addr e (target e p) new = Some t /\ keq x (standardise offset t) = true)
  /\ (forall p n new, at_addr e p = Some n -> produced rules n new -> exists x t,
     In x (expand offset rules e) /\ replace_addr e (target e p) new = Some t /\ keq x (standardise offset t) = true).
Proof. exact expand_actual. Qed.
Print Assumptions C17_actual.
Theorem C17_builtin_rules : forall offset G bases noC,
  In G [rules_all offset; rules_default offset; rules_original offset; rules_minimal offset] -> wf_rules (G bases noC).
Proof. exact groups_wf. Qed.
Print Assumptions C17_builtin_rules.
Example C17_example :
  let e := Comm KSum [(bWN, 1)] [Comm KProd [(bLIN, 1); (bPER, 1)] []; Change CP (inr (Comm KProd [(bLIN, 2)] [])) (inl bWN)] in
  no_left_string e
  /\ at_addr e [1%nat; 1%nat] = Some (Comm KSum [(bWN, 1)] [])
  /\ replace_addr e [1%nat; 1%nat] (Comm KSum [(bPER, 1)] [])
     = Some (Comm KSum [(bWN, 1)] [Comm KProd [(bLIN, 1); (bPER, 1)] []; Change CP (inr (Comm KProd [(bLIN, 2)] [])) (inr (Comm KSum [(bPER, 1)] []))])
  /\ In (Comm KSum [(bWN, 1)] [Comm KProd [(bLIN, 1); (bPER, 1)] []; Change CP (inr (Comm KProd [(bLIN, 2)] [])) (inl bPER)])
        (expand true [replace_with_singleton true [bPER]] e).
Proof.
  split; [|split; [reflexivity|split; [reflexivity|]]].
  - intros o b r H. apply node_comm_inv in H as [H|(x & [<-|[<-|[]]] & H)]; [discriminate| |].
    + apply node_comm_inv in H as [H|(x & [] & _)]; discriminate.
    + apply node_change_inv in H as [H|[(x & [= <-] & H)|(x & H & _)]]; try discriminate.
      apply node_comm_inv in H as [H|(x & [] & _)]; discriminate.
  - vm_compute. auto 6.
Qed.

(** C18: false: PER * (WN + LIN * PER), in normal form, expands (dropping WN) to PER * (LIN * PER), a Product in a Product. *)
Theorem C18_refuted : exists bases noC e x, built true e /\ e = initialise true e /\ normal true e
  /\ In x (expand true (rules_default true bases noC) e) /\ ~ normal true x.
Proof. exact expand_not_normal. Qed.
Print Assumptions C18_refuted.
(** What holds: the claim for every result whose replaced node (or an ancestor of it other than the root) does not simplify to a Sum or
    Product of one composite.  Missing: the other results. *)
Theorem C18_partial : forall offset G bases noC e x,
  In G [rules_all offset; rules_default offset; rules_original offset; rules_minimal offset] ->
  normal offset e -> In x (expand offset (G bases noC) e) ->
  exists p n new t, at_addr e p = Some n /\ produced (G bases noC) n new /\ replace_addr e (target e p) new = Some t
    /\ keq x (standardise offset t) = true /\ (no_lone_composite offset t (target e p) -> normal offset x).
Proof. exact expand_normal. Qed.
Print Assumptions C18_partial.
Example C18_example : normal true ex_lone
  /\ replace_addr ex_lone [0%nat] (Comm KSum [(bWN, 1); (bPER, 1)] [Comm KProd [(bLIN, 1); (bPER, 1)] []])
     = Some (Comm KProd [(bPER, 1)] [Comm KSum [(bWN, 1); (bPER, 1)] [Comm KProd [(bLIN, 1); (bPER, 1)] []]])
  /\ no_lone_composite true (Comm KProd [(bPER, 1)] [Comm KSum [(bWN, 1); (bPER, 1)] [Comm KProd [(bLIN, 1); (bPER, 1)] []]]) [0%nat].
Proof.
  split; [change ex_lone with (initialise true ex_lone); apply initialise_normal, ex_lone_built|split; [reflexivity|]].
  intros q r s E Hq Hs (k & c & H). destruct q as [|i q]; [congruence|]. injection E as <- E. destruct q; [|discriminate].
  injection Hs as <-. discriminate.
Qed.

(** C20 *)
Theorem C20_accepts : forall offset ps, (forall p, In p ps -> recognised p) ->
  exists l, make_simple_kexs offset ps = Ok l /\ Forall2 (fun p x => exists e, meant p e /\ x = initialise offset e) ps l.
Proof. exact make_simple_kexs_ok. Qed.
Print Assumptions C20_accepts.
Theorem C20_rejects : forall offset ps p, In p ps -> ~ recognised p -> make_simple_kexs offset ps = Raise EValueError.
Proof. exact make_simple_kexs_bad. Qed.
Print Assumptions C20_rejects.
Theorem C20_normal : forall offset ps l, (forall e, In (inr e) ps -> built offset e) -> make_simple_kexs offset ps = Ok l ->
  forall x, In x l -> normal offset x.
Proof. exact make_simple_kexs_normal. Qed.
Print Assumptions C20_normal.
(** The built-in start lists, for every iteration order of the set of names. *)
Theorem C20_start_default : forall offset names, Permutation ["WN"; "C"; "LIN"; "PER"]%string names ->
  exists l, start_default offset names = Ok l /\ pairwise_different l /\ forall x, In x l -> normal offset x.
Proof. exact start_default_ok. Qed.
Print Assumptions C20_start_default.
Theorem C20_start_extended : forall offset names, Permutation ["WN"; "C"; "LIN"; "PER"]%string names ->
  exists l, start_extended offset names = Ok l /\ pairwise_different l /\ forall x, In x l -> normal offset x.
Proof. exact start_extended_ok. Qed.
Print Assumptions C20_start_extended.
Theorem C20_start_original : forall offset,
  exists l, start_original offset = Ok l /\ pairwise_different l /\ forall x, In x l -> normal offset x.
Proof. exact start_original_ok. Qed.
Print Assumptions C20_start_original.
Example C20_example : recognised (inl "PER"%string) /\ ~ recognised (inl "RBF"%string) /\ recognised (inr ex_lone)
  /\ make_simple_kexs true [inl "PER"%string; inr ex_lone] = Ok [Comm KSum [(bPER, 1)] []; ex_lone]
  /\ make_simple_kexs true [inl "PER"%string; inl "RBF"%string] = Raise EValueError.
Proof.
  split; [exists bPER; simpl; auto 6|split; [|split; [exact I|split; reflexivity]]].
  intros (b & H). simpl in H. intuition congruence.
Qed.
