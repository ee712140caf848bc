(** Proofs of C13 and C14. *)
From Coq Require Import String Ascii List Bool Arith ZArith Lia Permutation Reals.
From Verif Require Import Py UtilModel UtilSpec UtilProofs KexModel KexSpec KexProofs KexSimp KexMore KernModel KernSpec SemModel SemSpec SemProofs SemSimp SemMore SemOps SemKernel PySpec PyProofs StrModel StrSpec StrLex.
Import ListNotations.
Local Open Scope string_scope.
Local Open Scope list_scope.

Lemma name_letters b : all_letters (base_name b) /\ base_name b <> "".
Proof. destruct b; split; (reflexivity || discriminate). Qed.
Lemma change_letters c : all_letters (change_name c) /\ change_name c <> "".
Proof. destruct c; split; (reflexivity || discriminate). Qed.
Lemma name_of_name b : name_of (base_name b) = Some b.
Proof. destruct b; reflexivity. Qed.
Lemma change_of_name c : change_of (change_name c) = Some c.
Proof. destruct c; reflexivity. Qed.

(** * C13 *)
Definition quote_exp (b : branch) (rec : kex -> pyexp) : pyexp := match b with inl x => PStr (base_name x) | inr e => rec e end.
Fixpoint call_exp (e : kex) : pyexp :=
  match e with
  | Comm k bts cts =>
      PCall (class_name k) (PList (map (fun b => PStr (base_name b)) (celements bts)) :: match cts with [] => [] | _ => [PList (map call_exp cts)] end)
  | Change c l r => PCall "ChangeKE" [PStr (change_name c); quote_exp l call_exp; quote_exp r call_exp]
  end.
Lemma d_quote b : d_sum (quoted (base_name b)) (PStr (base_name b)).
Proof. apply product_sum, atom_product, d_string, name_letters. Qed.
Lemma forall2_map {A B C : Type} (R : B -> C -> Prop) (f : A -> B) (g : A -> C) l : (forall x, In x l -> R (f x) (g x)) -> Forall2 R (map f l) (map g l).
Proof. induction l as [|x l IH]; intros H; constructor; [apply H; now left|]. apply IH. intros y Hy. apply H. now right. Qed.

Lemma repr_reads e : d_sum (repr e) (call_exp e).
Proof.
  induction e as [k bts cts IH|c l r IHl IHr] using kex_ind'.
  - cbn [repr call_exp]. apply product_sum, atom_product.
    assert (L : d_sum ("[" ++ (String.concat ", " (map (fun b => quoted (base_name b)) (celements bts)) ++ "]")) (PList (map (fun b => PStr (base_name b)) (celements bts)))).
    { apply product_sum, atom_product, d_list, d_args_join, forall2_map. intros b _. apply d_quote. }
    assert (F : all_letters (class_name k) /\ class_name k <> "") by (destruct k; split; (reflexivity || discriminate)). destruct F as (F1 & F2).
    destruct cts as [|c cts].
    + match goal with |- d_atom ?s _ => replace s with (class_name k ++ ("(" ++ (("[" ++ (String.concat ", " (map (fun b => quoted (base_name b)) (celements bts)) ++ "]")) ++ ")")))%string end.
      { apply d_call; [exact F1|exact F2|]. apply d_args1_args, d_args1_one, L. }
      rewrite !sapp_assoc. reflexivity.
    + match goal with |- d_atom ?s _ => replace s with (class_name k ++ ("(" ++ ((("[" ++ (String.concat ", " (map (fun b => quoted (base_name b)) (celements bts)) ++ "]")) ++ (", " ++ ("[" ++ (String.concat ", " (map repr (c :: cts)) ++ "]")))) ++ ")")))%string end.
      { apply d_call; [exact F1|exact F2|]. apply d_args1_args, d_args1_more; [exact L|]. apply d_args1_one, product_sum, atom_product, d_list, d_args_join, forall2_map.
        exact IH. }
      rewrite !sapp_assoc. reflexivity.
  - cbn [repr call_exp]. apply product_sum, atom_product.
    assert (Q : forall b, (forall x, b = inr x -> d_sum (repr x) (call_exp x)) ->
      d_sum (match b with inl b => quoted (base_name b) | inr x => repr x end) (quote_exp b call_exp)).
    { intros [b|x] H; [apply d_quote|]. now apply H. }
    specialize (Q l IHl) as QL. specialize (Q r IHr) as QR.
    match goal with |- d_atom (_ ++ _ ++ _ ++ ?a ++ _ ++ ?b ++ _) _ => set (sl := a) in *; set (sr := b) in * end.
    match goal with |- d_atom ?s _ => replace s with ("ChangeKE" ++ ("(" ++ ((quoted (change_name c) ++ (", " ++ (sl ++ (", " ++ sr)))) ++ ")")))%string end.
    + apply d_call; [reflexivity|discriminate|]. apply d_args1_args, d_args1_more; [apply product_sum, atom_product, d_string, change_letters|].
      apply d_args1_more; [exact QL|]. now apply d_args1_one.
    + unfold quoted. rewrite !sapp_assoc. reflexivity.
Qed.

Lemma all_some_map {A B : Type} (f : A -> option B) (g : A -> B) l : (forall x, In x l -> f x = Some (g x)) -> all_some (map f l) = Some (map g l).
Proof.
  induction l as [|x l IH]; intros H; [reflexivity|]. cbn [map all_some]. rewrite (H x) by (now left). rewrite IH; [reflexivity|]. intros y Hy. apply H. now right.
Qed.
Lemma all_some_id {A B : Type} (f : B -> option A) (g : A -> B) l : (forall x, f (g x) = Some x) -> all_some (map f (map g l)) = Some l.
Proof. intros H. rewrite map_map. rewrite (all_some_map _ (fun x => x)); [now rewrite map_id|]. intros x _. apply H. Qed.

Lemma cset_snoc c b n : ~ In b (map fst c) -> cset c b n = c ++ [(b, n)].
Proof.
  unfold cset. induction c as [|[b' m] c IH]; intros N; [reflexivity|]. cbn [dict_set app]. destruct (base_eqb b' b) eqn:E.
  - apply base_eqb_spec in E. subst. destruct N. now left.
  - rewrite IH; [reflexivity|]. intros I. apply N. now right.
Qed.
Lemma cget_snoc c b n : ~ In b (map fst c) -> cget (c ++ [(b, n)]) b = n.
Proof.
  unfold cget. induction c as [|[b' m] c IH]; intros N; cbn [app dict_get].
  - replace (base_eqb b b) with true by (symmetry; now apply base_eqb_spec). reflexivity.
  - destruct (base_eqb b' b) eqn:E; [apply base_eqb_spec in E; subst; destruct N; now left|]. apply IH. intros I. apply N. now right.
Qed.
Lemma cset_last c b n m : ~ In b (map fst c) -> cset (c ++ [(b, n)]) b m = c ++ [(b, m)].
Proof.
  unfold cset. induction c as [|[b' m'] c IH]; intros N; cbn [app dict_set].
  - replace (base_eqb b b) with true by (symmetry; now apply base_eqb_spec). reflexivity.
  - destruct (base_eqb b' b) eqn:E; [apply base_eqb_spec in E; subst; destruct N; now left|]. rewrite IH; [reflexivity|]. intros I. apply N. now right.
Qed.
Lemma cupdate_repeat n : forall c b m, ~ In b (map fst c) -> (cupdate_list (c ++ [(b, m)]) (repeat b n) = c ++ [(b, m + Z.of_nat n)])%Z.
Proof.
  induction n as [|n IH]; intros c b m N; [cbn; now rewrite Z.add_0_r|]. cbn [repeat]. unfold cupdate_list. cbn [fold_left]. rewrite cget_snoc, cset_last by exact N.
  fold (cupdate_list (c ++ [(b, (m + 1)%Z)]) (repeat b n)). rewrite IH by exact N. do 3 f_equal. lia.
Qed.
Lemma cupdate_app c l m : cupdate_list c (l ++ m) = cupdate_list (cupdate_list c l) m.
Proof. apply fold_left_app. Qed.
Lemma cget_absent c b : ~ In b (map fst c) -> cget c b = 0%Z.
Proof.
  unfold cget. induction c as [|[b' m] c IH]; intros N; cbn [dict_get]; [reflexivity|].
  destruct (base_eqb b' b) eqn:E; [apply base_eqb_spec in E; subst; destruct N; now left|]. apply IH. intros I. apply N. now right.
Qed.
Lemma cupdate_elements c : forall a, (forall b, In b (map fst a) -> ~ In b (map fst c)) -> wf_counter c -> cupdate_list a (celements c) = a ++ c.
Proof.
  induction c as [|[b n] c IH]; intros a D (N & P); [cbn; now rewrite app_nil_r|]. cbn in N. apply NoDup_cons_iff in N as (N1 & N2).
  unfold celements. cbn [map concat fst snd]. fold (celements c). rewrite cupdate_app.
  assert (Hn : (0 < n)%Z) by (apply (P b n); now left).
  assert (Ha : ~ In b (map fst a)). { intros I. apply (D b I). now left. }
  assert (E : cupdate_list a (repeat b (Z.to_nat n)) = a ++ [(b, n)]).
  { destruct (Z.to_nat n) as [|m] eqn:M; [lia|]. cbn [repeat]. unfold cupdate_list. cbn [fold_left]. rewrite cget_absent, cset_snoc by exact Ha.
    fold (cupdate_list (a ++ [(b, (0 + 1)%Z)]) (repeat b m)). rewrite cupdate_repeat by exact Ha. do 3 f_equal. lia. }
  rewrite E. rewrite IH; [now rewrite <- app_assoc| |].
  - intros b' I. rewrite map_app in I. apply in_app_or in I as [I|[I|[]]]; [|cbn in I; subst; exact N1]. intros J. apply (D b' I). now right.
  - split; [exact N2|]. intros b' n' I. apply (P b' n'). now right.
Qed.
Lemma counter_of_elements c : wf_counter c -> counter_of (celements c) = c.
Proof. intros W. apply (cupdate_elements c []); [intros b []|exact W]. Qed.

Lemma evaluate_call offset e : normal offset e -> evaluate offset (call_exp e) = Some (VKex e).
Proof.
  induction e as [k bts cts IH|c l r IHl IHr] using kex_ind'; intros N; pose proof (normal_fix offset _ N) as F.
  - assert (W : wf_counter bts) by (exact (proj1 (N _ (node_self _)))).
    assert (B : all_some (map (evaluate offset) (map (fun b => PStr (base_name b)) (celements bts))) = Some (map (fun b => VStr (base_name b)) (celements bts))).
    { rewrite map_map. apply all_some_map. intros b _. reflexivity. }
    assert (B' : all_some (map as_base (map (fun b => VStr (base_name b)) (celements bts))) = Some (celements bts)).
    { apply all_some_id. intros b. cbn. apply name_of_name. }
    assert (K : kind_of (class_name k) = Some k) by (now destruct k).
    assert (M : mkl offset k (celements bts) cts = Comm k bts cts). { unfold mkl, mk. rewrite counter_of_elements by exact W. exact F. }
    destruct cts as [|c cts].
    + cbn [call_exp evaluate map]. rewrite B. cbn [all_some construct]. rewrite K, B', M. reflexivity.
    + assert (C : all_some (map (evaluate offset) (map call_exp (c :: cts))) = Some (map VKex (c :: cts))).
      { rewrite map_map. apply all_some_map. intros x Hx. apply IH; [exact Hx|]. intros n Hn. apply N. now apply node_comm with x. }
      cbn [call_exp evaluate map]. rewrite B. change (evaluate offset (call_exp c) :: map (evaluate offset) (map call_exp cts)) with (map (evaluate offset) (map call_exp (c :: cts))).
      rewrite C. cbn [all_some construct]. rewrite K, B'. rewrite all_some_id by reflexivity. rewrite M. reflexivity.
  - assert (Q : forall b, (forall x, b = inr x -> normal offset x -> evaluate offset (call_exp x) = Some (VKex x)) -> (forall x, b = inr x -> normal offset x) ->
      exists v, evaluate offset (quote_exp b call_exp) = Some v /\ as_branch v = Some b).
    { intros [b|x] H1 H2; cbn [quote_exp evaluate]; [exists (VStr (base_name b)); split; [reflexivity|]; cbn; now rewrite name_of_name|].
      exists (VKex x). split; [now apply H1, H2|reflexivity]. }
    destruct (Q l IHl) as (vl & L1 & L2). { intros x -> n Hn. apply N. now apply node_left. }
    destruct (Q r IHr) as (vr & R1 & R2). { intros x -> n Hn. apply N. now apply node_right. }
    cbn [call_exp evaluate map]. rewrite L1, R1. cbn [all_some construct]. rewrite change_of_name, L2, R2. change ("ChangeKE" =? "ChangeKE") with true. cbv iota. unfold mk_change. rewrite F. reflexivity.
Qed.
Lemma repr_round_trip offset e : normal offset e -> forall k, evaluates offset (repr e) k <-> k = e.
Proof.
  intros N k. pose proof (d_sum_reads _ _ (repr_reads e)) as R. split.
  - intros (p & H & V). rewrite (reads_unambiguous _ _ _ R H) in V. rewrite evaluate_call in V by exact N. congruence.
  - intros ->. exists (call_exp e). split; [exact R|now apply evaluate_call].
Qed.

(** * C14 *)
(** __str__ with other texts for the base kernels. *)
Section Print.
  Context (nm : base -> string).
  Fixpoint str_with (e : kex) : string :=
    match e with
    | Comm k bts cts =>
        String.concat (" " ++ symbol k ++ " ")
          (map nm (order_base_kerns (celements bts)) ++ map (fun f => bracket_if_needed k f (str_with f)) cts)%list
    | Change c l r =>
        change_name c ++ bs ((match l with inl b => nm b | inr x => str_with x end) ++ ", " ++
                             (match r with inl b => nm b | inr x => str_with x end))
    end%string.
End Print.
Lemma str_with_name e : str e = str_with base_name e.
Proof. reflexivity. Qed.

Section Formula.
  Context (nm : base -> string) (leaf : base -> pyexp).
  Definition py_op (k : kind) : pyexp -> pyexp -> pyexp := match k with KSum => PAdd | KProd => PMul end.
  Definition join1 (k : kind) (l : list pyexp) : pyexp := match l with [] => PName "" | p :: t => fold_left (py_op k) t p end.
  Definition kind_or (e : kex) : kind := match e with Comm k _ _ => k | Change _ _ _ => KSum end.
  (** The operands of the formula of an expression, and the formula. *)
  Fixpoint operands (e : kex) : list pyexp :=
    match e with
    | Comm k bts cts =>
        map leaf (order_base_kerns (celements bts)) ++
        concat (map (fun c => if is_kind k c then operands c else [join1 (kind_or c) (operands c)]) cts)
    | Change c l r =>
        [PCall (change_name c) [match l with inl b => leaf b | inr x => join1 (kind_or x) (operands x) end;
                                match r with inl b => leaf b | inr x => join1 (kind_or x) (operands x) end]]
    end.
  Definition formula (e : kex) : pyexp := join1 (kind_or e) (operands e).

  Context (Leaf : forall b, d_atom (nm b) (leaf b)).
  (** The level of the operands. *)
  Definition d_operand (e : kex) : string -> pyexp -> Prop := match e with Comm KSum _ _ => d_product | _ => d_atom end.
  Definition separator (e : kex) : string := match e with Comm k _ _ => (" " ++ symbol k ++ " ")%string | _ => "" end.
  (** The text is a join of the texts of the operands. *)
  Definition joined (e : kex) : Prop :=
    exists l, l <> [] /\ str_with nm e = String.concat (separator e) l /\ Forall2 (d_operand e) l (operands e).
  Lemma joined_comm k bts cts l ps : l <> [] -> str_with nm (Comm k bts cts) = String.concat (" " ++ symbol k ++ " ") l ->
    Forall2 (d_operand (Comm k bts cts)) l ps -> match k with KSum => d_sum | KProd => d_product end (str_with nm (Comm k bts cts)) (join1 k ps).
  Proof.
    intros N E H. rewrite E. destruct H as [|x p l ps Hx H]; [easy|]. rewrite concat_tail. destruct k; cbn [d_operand join1 py_op symbol] in *.
    - apply (d_sum_join l ps H). now apply product_sum.
    - apply (d_product_join l ps H). now apply atom_product.
  Qed.
  Lemma joined_level e : joined e -> match e with Comm KSum _ _ => d_sum | Comm KProd _ _ => d_product | _ => d_atom end (str_with nm e) (formula e).
  Proof.
    intros (l & N & E & H). destruct e as [k bts cts|c x y].
    - pose proof (joined_comm k bts cts l _ N E H) as J. destruct k; exact J.
    - cbn [formula kind_or operands join1 d_operand separator] in *. inversion H as [|t p ls ps Hx H1]; subst. inversion H1; subst. cbn [String.concat] in E.
      rewrite E. exact Hx.
  Qed.
  Lemma joined_sum e : joined e -> d_sum (str_with nm e) (formula e).
  Proof. intros J. apply joined_level in J. destruct e as [[|] bts cts|c x y]; [exact J|now apply product_sum|now apply product_sum, atom_product]. Qed.
  Lemma joined_item k bts cts c : joined c -> exists l, l <> [] /\ bracket_if_needed k c (str_with nm c) = String.concat (" " ++ symbol k ++ " ") l
    /\ Forall2 (d_operand (Comm k bts cts)) l (if is_kind k c then operands c else [join1 (kind_or c) (operands c)]).
  Proof.
    intros J. pose proof (joined_level c J) as L. pose proof (joined_sum c J) as S. fold (formula c). destruct k, c as [[|] b cs|ch x y]; cbn [is_kind kind_eqb bracket_if_needed d_operand] in *.
    - destruct J as (l & N & E & H). exists l. split; [exact N|]. split; [exact E|exact H].
    - eexists [_]. split; [discriminate|]. split; [reflexivity|]. now constructor.
    - eexists [_]. split; [discriminate|]. split; [reflexivity|]. constructor; [now apply atom_product|constructor].
    - eexists [_]. split; [discriminate|]. split; [reflexivity|]. constructor; [now apply d_brackets|constructor].
    - destruct J as (l & N & E & H). exists l. split; [exact N|]. split; [exact E|exact H].
    - eexists [_]. split; [discriminate|]. split; [reflexivity|]. now constructor.
  Qed.
  Lemma joined_items k bts cts l : (forall c, In c l -> joined c) -> exists ls, Forall (fun m => m <> []) ls
    /\ map (fun f => bracket_if_needed k f (str_with nm f)) l = map (String.concat (" " ++ symbol k ++ " ")) ls
    /\ Forall2 (d_operand (Comm k bts cts)) (concat ls) (concat (map (fun c => if is_kind k c then operands c else [join1 (kind_or c) (operands c)]) l)) /\ length ls = length l.
  Proof.
    induction l as [|c l IH]; intros H; [exists []; repeat split; constructor|]. destruct IH as (ls & A & B & C & D); [intros x Hx; apply H; now right|].
    destruct (joined_item k bts cts c (H c (or_introl eq_refl))) as (m & M1 & M2 & M3). exists (m :: ls). split; [now constructor|]. cbn [map concat length].
    split; [now rewrite M2, B|]. split; [now apply Forall2_app|]. now rewrite D.
  Qed.
  Lemma sorted_length b : length (order_base_kerns (celements b)) = length (celements b).
  Proof. apply Permutation_length, py_sorted_perm. Qed.
  Lemma non_empty_items bts cts : wf_counter bts -> (0 < terms bts cts)%Z -> celements bts <> [] \/ cts <> [].
  Proof.
    intros W T. destruct cts as [|c cts]; [left|right; discriminate]. intros E. unfold terms in T. cbn [length] in T.
    assert (Z : forall b, cget bts b = 0%Z).
    { intros b. pose proof (wf_nonneg bts b W) as P. destruct (Z.eq_dec (cget bts b) 0) as [Q|Q]; [exact Q|].
      assert (I : In b (bases_in bts)) by (apply in_bases_in; lia). apply (Permutation_in b (bases_in_elements bts (wf_nodup _ W))) in I. rewrite E in I. destruct I. }
    cbn [fold_right all_bases] in T. rewrite !Z in T. lia.
  Qed.
  Lemma joined_all e : wf e -> non_empty e -> joined e.
  Proof.
    induction e as [k bts cts IH|c l r IHl IHr] using kex_ind'; intros W N.
    - destruct (joined_items k bts cts cts) as (ls & A & B & C & D).
      { intros c Hc. apply IH; [exact Hc| |]; intros k' b' c' Hn; [apply (W k' b' c')|apply (N k' b' c')]; now apply node_comm with c. }
      assert (WB : wf_counter bts) by (exact (W _ _ _ (node_self _))). pose proof (N _ _ _ (node_self _)) as T.
      exists (map nm (order_base_kerns (celements bts)) ++ concat ls). split; [|split].
      + intros E. apply app_eq_nil in E as (E1 & E2). destruct (non_empty_items bts cts WB T) as [H|H].
        * apply H. apply map_eq_nil in E1. apply length_zero_iff_nil. rewrite <- sorted_length, E1. reflexivity.
        * apply H. destruct ls as [|m ls]; [now apply length_zero_iff_nil|]. inversion A; subst. cbn in E2. now apply app_eq_nil in E2.
      + cbn [str_with separator]. rewrite B.
        replace (map nm (order_base_kerns (celements bts))) with (map (String.concat (" " ++ symbol k ++ " ")) (map (fun x => [nm x]) (order_base_kerns (celements bts)))) at 1
          by (rewrite map_map; reflexivity).
        rewrite <- map_app, concat_concat. 2:{ apply Forall_app. split; [|exact A]. apply Forall_map, Forall_forall. intros x _. discriminate. }
        rewrite List.concat_app. do 2 f_equal. induction (order_base_kerns (celements bts)) as [|b t IHt]; [reflexivity|]. cbn [map concat app]. now rewrite IHt.
      + cbn [operands]. apply Forall2_app; [|exact C]. apply forall2_map. intros b _. destruct k; cbn [d_operand]; [apply atom_product, Leaf|apply Leaf].
    - assert (Q : forall b, (forall x, b = inr x -> wf x -> non_empty x -> joined x) -> (forall x, b = inr x -> wf x /\ non_empty x) ->
        d_sum (match b with inl b => nm b | inr x => str_with nm x end) (match b with inl b => leaf b | inr x => join1 (kind_or x) (operands x) end)).
      { intros [b|x] H1 H2; [apply product_sum, atom_product, Leaf|]. destruct (H2 x eq_refl). now apply joined_sum, H1. }
      specialize (Q l IHl) as QL. specialize (Q r IHr) as QR. clear Q.
      eexists [_]. split; [discriminate|]. split; [reflexivity|]. cbn [operands d_operand]. constructor; [|constructor].
      assert (AL : forall x, l = inr x -> wf x /\ non_empty x). { intros x ->. split; intros k' b' c' Hn; [apply (W k' b' c')|apply (N k' b' c')]; now apply node_left. }
      assert (AR : forall x, r = inr x -> wf x /\ non_empty x). { intros x ->. split; intros k' b' c' Hn; [apply (W k' b' c')|apply (N k' b' c')]; now apply node_right. }
      apply (d_call (change_name c)); [apply change_letters|apply change_letters|]. apply d_args1_args, d_args1_more; [now apply QL|]. now apply d_args1_one, QR.
  Qed.
End Formula.

Lemma str_reads e : wf e -> non_empty e -> reads (str e) (formula (fun b => PName (base_name b)) e).
Proof.
  intros W N. apply d_sum_reads. rewrite str_with_name. apply joined_sum. apply joined_all; [|exact W|exact N]. intros b. apply d_name; apply name_letters.
Qed.

Section Families.
  Context (offset : bool).
  Let fc := formula_covariances offset.
  Lemma fc_closed p : closed (fc p).
  Proof.
    assert (Z : closed (fun _ => False)) by (intros K K' _ []).
    destruct p as [f|s|f args|args|a b|a b]; cbn; try exact Z; try apply combine2_closed.
    - destruct (name_of f); [apply base_closed|exact Z].
    - destruct args as [|a [|b [|]]]; try exact Z. destruct (change_of f); [apply change_family_closed|exact Z].
  Qed.
  Lemma fc_join k l : l <> [] -> same_family (fc (join1 k l)) (combine_all k (map fc l)).
  Proof.
    destruct l as [|p l]; [easy|]. intros _. cbn [join1]. revert p. induction l as [|q l IH]; intros p.
    - cbn [fold_left map]. symmetry; apply combine_all_one, fc_closed.
    - cbn [fold_left]. etransitivity; [apply IH|]. cbn [map combine_all fold_right]. 
      assert (E : fc (py_op k p q) = combine2 k (fc p) (fc q)) by (destruct k; reflexivity). rewrite E. symmetry; apply combine2_assoc.
  Qed.
  Let leaf (b : base) : pyexp := PName (base_name b).
  Lemma fc_leaf b : fc (leaf b) = base_family offset b.
  Proof. unfold fc, leaf. cbn. now rewrite name_of_name. Qed.
  Lemma operands_some e : wf e -> non_empty e -> operands leaf e <> [].
  Proof.
    intros W N. destruct (joined_all base_name leaf (fun b => d_name _ (proj1 (name_letters b)) (proj2 (name_letters b))) e W N) as (l & L & _ & H).
    intros E. rewrite E in H. inversion H. now subst.
  Qed.
  Lemma operands_family e : wf e -> non_empty e ->
    same_family (fc (formula leaf e)) (covariances offset e)
    /\ forall k bts cts, e = Comm k bts cts -> same_family (combine_all k (map fc (operands leaf e))) (covariances offset e).
  Proof.
    induction e as [k bts cts IH|c l r IHl IHr] using kex_ind'; intros W N.
    - assert (A : same_family (combine_all k (map fc (operands leaf (Comm k bts cts)))) (covariances offset (Comm k bts cts))).
      { cbn [operands covariances]. rewrite map_app, !combine_all_app. apply combine2_proper.
        - apply combine_all_perm. rewrite map_map. rewrite (map_ext (fun b => fc (leaf b)) (base_family offset) fc_leaf). apply Permutation_map.
          unfold order_base_kerns. rewrite py_sorted_perm. symmetry. apply bases_in_elements, wf_nodup. exact (W _ _ _ (node_self _)).
        - rewrite concat_map, combine_all_concat, !map_map. apply combine_all_proper, forall2_map. intros c Hc.
          assert (WC : wf c) by (intros k' b' c' Hn; apply (W k' b' c'); now apply node_comm with c).
          assert (NC : non_empty c) by (intros k' b' c' Hn; apply (N k' b' c'); now apply node_comm with c).
          destruct (IH c Hc WC NC) as (F & O). destruct (is_kind k c) eqn:K.
          + destruct c as [k' b' c'|]; [|discriminate]. assert (k' = k) by (destruct k, k'; (reflexivity || discriminate)). subst. now apply (O k b' c').
          + cbn [map]. rewrite combine_all_one by apply fc_closed. exact F. }
      split.
      + etransitivity; [|exact A]. apply (fc_join k). now apply operands_some.
      + intros k' b' c' [= <- <- <-]. exact A.
    - split; [|intros k' b' c' E; discriminate E]. cbn [formula kind_or operands join1 fold_left]. unfold fc. cbn [formula_covariances]. rewrite change_of_name.
      cbn [covariances]. apply change_family_proper.
      + destruct l as [b|x]; [now rewrite fc_leaf|]. apply IHl; [reflexivity| |]; intros k' b' c' Hn; [apply (W k' b' c')|apply (N k' b' c')]; now apply node_left.
      + destruct r as [b|x]; [now rewrite fc_leaf|]. apply IHr; [reflexivity| |]; intros k' b' c' Hn; [apply (W k' b' c')|apply (N k' b' c')]; now apply node_right.
  Qed.
End Families.
Lemma str_formula e : wf e -> non_empty e -> exists p, (forall q, reads (str e) q <-> q = p) /\ forall offset, same_family (formula_covariances offset p) (covariances offset e).
Proof.
  intros W N. exists (formula (fun b => PName (base_name b)) e). pose proof (str_reads e W N) as R. split.
  - intros q. split; [intros H; exact (reads_unambiguous _ _ _ R H)|intros ->; exact R].
  - intros offset. exact (proj1 (operands_family offset e W N)).
Qed.

(** ** to_kernel_unrefined *)
Definition no_name (rest : string) : Prop := match rest with EmptyString => True | String d _ => Ascii.eqb d "(" = false /\ is_capital d = false end.
Definition called (s t : string) : Prop := forall rest, no_name rest -> call_names (s ++ rest) = (t ++ call_names rest)%string.
Definition called_any (s t : string) : Prop := forall rest, call_names (s ++ rest) = (t ++ call_names rest)%string.
Definition called_base (b : base) : string := (base_name b ++ "()")%string.
Lemma called_name b : is_sigmoid b = false -> called (base_name b) (called_base b).
Proof.
  intros S rest R. destruct b; try discriminate S; (destruct rest as [|d rest]; [reflexivity|]; destruct R as (R1 & R2); cbn; rewrite R1, R2; reflexivity).
Qed.
Lemma called_app s t s' t' : called s s' -> called t t' -> (forall rest, no_name rest -> no_name (t ++ rest)) -> called (s ++ t) (s' ++ t').
Proof. intros A B E rest R. rewrite sapp_assoc, A by (now apply E). rewrite B by exact R. now rewrite sapp_assoc. Qed.
Lemma called_any_app s t s' t' : called_any s s' -> called t t' -> called (s ++ t) (s' ++ t').
Proof. intros A B rest R. now rewrite sapp_assoc, A, B, sapp_assoc. Qed.
Lemma called_brackets s s' : called s s' -> called (bs s) (bs s').
Proof.
  intros A. unfold bs. apply called_any_app; [intros rest; reflexivity|]. apply called_app; [exact A|intros rest _; reflexivity|intros rest _; split; reflexivity].
Qed.
Lemma called_join k l l' : Forall2 called l l' -> called (String.concat (" " ++ symbol k ++ " ") l) (String.concat (" " ++ symbol k ++ " ") l').
Proof.
  intros H. destruct H as [|x y l l' Hx H]; [intros rest _; reflexivity|]. revert x y Hx. induction H as [|u v l l' Hu H IH]; intros x y Hx; [exact Hx|].
  rewrite !concat_cons. apply called_app; [exact Hx| |intros rest _; split; reflexivity]. apply called_any_app; [|now apply IH]. destruct k; intros rest; reflexivity.
Qed.
Lemma free_sub e n : sigmoid_free e -> node n e -> sigmoid_free n.
Proof.
  intros S H b B [(k & bts & cts & Hn & P)|(c & l & r & Hn & P)]; apply (S b B).
  - left. exists k, bts, cts. split; [|exact P]. now apply node_trans with n.
  - right. exists c, l, r. split; [|exact P]. now apply node_trans with n.
Qed.
Lemma called_str e : wf e -> sigmoid_free e -> called (str_with base_name e) (str_with called_base e).
Proof.
  induction e as [k bts cts IH|c l r IHl IHr] using kex_ind'; intros W S.
  - cbn [str_with]. apply called_join. apply Forall2_app.
    + apply forall2_map. intros b Hb. apply called_name. destruct (is_sigmoid b) eqn:E; [|reflexivity]. destruct (S b E). left. exists k, bts, cts. split; [constructor|].
      apply in_bases_in. apply (Permutation_in b (Permutation_sym (bases_in_elements bts (wf_nodup _ (W _ _ _ (node_self _)))))).
      exact (Permutation_in b (py_sorted_perm _ _) Hb).
    + apply forall2_map. intros c Hc. assert (CC : called (str_with base_name c) (str_with called_base c)).
      { apply IH; [exact Hc| |]. { intros k' b' c' Hn. apply (W k' b' c'). now apply node_comm with c. } apply (free_sub _ c S). apply node_comm with c; [exact Hc|constructor]. }
      destruct k; [exact CC|]. destruct c as [[|] b cs|ch x y]; try exact CC. now apply called_brackets.
  - assert (Q : forall b, (forall x, b = inr x -> wf x -> sigmoid_free x -> called (str_with base_name x) (str_with called_base x)) ->
      (forall x, b = inr x -> wf x /\ sigmoid_free x) -> (forall x, b = inl x -> is_sigmoid x = false) ->
      called (match b with inl b => base_name b | inr x => str_with base_name x end) (match b with inl b => called_base b | inr x => str_with called_base x end)).
    { intros [b|x] H1 H2 H3; [now apply called_name, H3|]. destruct (H2 x eq_refl). now apply H1. }
    assert (QL := Q l IHl). assert (QR := Q r IHr). clear Q. cbn [str_with].
    assert (C : called (bs ((match l with inl b => base_name b | inr x => str_with base_name x end) ++ ", " ++ (match r with inl b => base_name b | inr x => str_with base_name x end)))
                       (bs ((match l with inl b => called_base b | inr x => str_with called_base x end) ++ ", " ++ (match r with inl b => called_base b | inr x => str_with called_base x end)))).
    { apply called_brackets, called_app; [apply QL| |intros rest _; split; reflexivity].
      - intros x ->. split; [intros k' b' c' Hn; apply (W k' b' c'); now apply node_left|]. apply (free_sub _ x S). apply node_left. constructor.
      - intros b ->. destruct (is_sigmoid b) eqn:E; [|reflexivity]. destruct (S b E). right. exists c, (inl b), r. split; [constructor|now left].
      - apply called_any_app; [intros rest; reflexivity|]. apply QR.
        + intros x ->. split; [intros k' b' c' Hn; apply (W k' b' c'); now apply node_right|]. apply (free_sub _ x S). apply node_right. constructor.
        + intros b ->. destruct (is_sigmoid b) eqn:E; [|reflexivity]. destruct (S b E). right. exists c, l, (inl b). split; [constructor|now right]. }
    intros rest R. rewrite !sapp_assoc. rewrite <- C by exact R. destruct c; unfold bs; rewrite !sapp_assoc; reflexivity.
Qed.

Definition called_leaf (b : base) : pyexp := PCall (base_name b) [].
Lemma called_reads e : wf e -> non_empty e -> sigmoid_free e -> reads (call_names (str e)) (formula called_leaf e).
Proof.
  intros W N S. rewrite str_with_name. rewrite <- (sapp_nil (str_with base_name e)). rewrite called_str; [|exact W|exact S|exact I]. cbn [call_names]. rewrite sapp_nil.
  apply d_sum_reads, joined_sum, joined_all; [|exact W|exact N]. intros b. apply d_call0; apply name_letters.
Qed.
Lemma eval_leaf b : is_sigmoid b = false -> eval_kernel (called_leaf b) = Some (GBase b true).
Proof. destruct b; intros E; try discriminate E; reflexivity. Qed.
Definition g_op (k : kind) : gkern -> gkern -> gkern := match k with KSum => GAdd | KProd => GMul end.
Lemma eval_op k p q g h : eval_kernel p = Some g -> eval_kernel q = Some h -> eval_kernel (py_op k p q) = Some (g_op k g h).
Proof. intros A B. destruct k; cbn; now rewrite A, B. Qed.
Lemma eval_join k ps gs : Forall2 (fun p g => eval_kernel p = Some g) ps gs -> forall p g, eval_kernel p = Some g ->
  eval_kernel (fold_left (py_op k) ps p) = Some (fold_left (g_op k) gs g).
Proof. induction 1 as [|q h ps gs Hq H IH]; intros p g Hp; [exact Hp|]. cbn [fold_left]. apply IH. now apply eval_op. Qed.
Lemma all_free_join k gs : forall g, all_free (fold_left (g_op k) gs g) = fold_left (g_op k) (map all_free gs) (all_free g).
Proof. induction gs as [|h gs IH]; intros g; [reflexivity|]. cbn [fold_left map]. rewrite IH. destruct k; reflexivity. Qed.
Lemma all_free_keep l : map all_free (keep_first_variance l) = map all_free l.
Proof.
  destruct l as [|g l]; [reflexivity|]. cbn [keep_first_variance map]. f_equal. rewrite map_map. apply map_ext. intros h. destruct h; reflexivity.
Qed.
Lemma all_free_bases l : map all_free (map (fun b => GBase b true) l) = map (fun b => GBase b true) l.
Proof. rewrite map_map. reflexivity. Qed.

Lemma eval_formula offset e : forall g, wf e -> normal offset e -> sigmoid_free e -> to_kernel e = Ok g -> eval_kernel (formula called_leaf e) = Some (all_free g).
Proof.
  induction e as [k bts cts IH|c l r IHl IHr] using kex_ind'; intros g W N S E.
  - set (L := order_base_kerns (celements bts)) in *.
    assert (SL : forall b, In b L -> is_sigmoid b = false).
    { intros b Hb. destruct (is_sigmoid b) eqn:B; [|reflexivity]. destruct (S b B). left. exists k, bts, cts. split; [constructor|].
      apply in_bases_in. apply (Permutation_in b (Permutation_sym (bases_in_elements bts (wf_nodup _ (W _ _ _ (node_self _)))))).
      exact (Permutation_in b (py_sorted_perm _ _) Hb). }
    rewrite to_kernel_comm in E. fold L in E. rewrite (mapM_base L SL) in E. cbn [bind] in E. destruct (seqM (map to_kernel cts)) as [cs|] eqn:Es; [|discriminate E]. cbn [bind] in E.
    apply seqM_inv in Es.
    assert (O : operands called_leaf (Comm k bts cts) = map called_leaf L ++ map (formula called_leaf) cts).
    { cbn [operands]. fold L. f_equal. pose proof (proj2 (proj2 (N _ (node_self _)))) as H. clear - H. induction cts as [|c cts IHc]; [reflexivity|]. cbn [map concat].
      rewrite (proj2 (H c (or_introl eq_refl))). cbn [app]. f_equal. apply IHc. intros x Hx. apply H. now right. }
    assert (V : Forall2 (fun p g => eval_kernel p = Some g) (map called_leaf L ++ map (formula called_leaf) cts) (map all_free (map (fun b => GBase b true) L ++ cs))).
    { rewrite map_app, all_free_bases. apply Forall2_app; [apply forall2_map; intros b Hb; now apply eval_leaf, SL|].
      assert (X : forall c gc, In c cts -> to_kernel c = Ok gc -> eval_kernel (formula called_leaf c) = Some (all_free gc)).
      { intros c gc Hc. apply IH; [exact Hc| | |].
        - intros k' b' c' Hn. apply (W k' b' c'). now apply node_comm with c.
        - intros n Hn. apply N. now apply node_comm with c.
        - apply (free_sub _ c S). apply node_comm with c; [exact Hc|constructor]. }
      clear - Es X. induction Es as [|c gc cts cs Hc Es IHs]; constructor; [apply X; [now left|exact Hc]|]. apply IHs. intros c' g' Hc'. apply X. now right. }
    unfold formula. rewrite O. cbn [kind_or].
    assert (E' : match map all_free (map (fun b => GBase b true) L ++ cs) with [] => False | g0 :: gs => all_free g = fold_left (g_op k) gs g0 end).
    { destruct k.
      - destruct (map (fun b => GBase b true) L ++ cs) as [|g0 gs]; [discriminate E|]. cbn [reduce1] in E. injection E as <-. exact (all_free_join KSum gs g0).
      - rewrite map_app, <- all_free_keep, <- map_app. destruct (keep_first_variance (map (fun b => GBase b true) L) ++ cs) as [|g0 gs]; [discriminate E|].
        cbn [reduce1] in E. injection E as <-. exact (all_free_join KProd gs g0). }
    destruct V as [|p g0 ps gs Hp V]; [destruct E'|]. cbn [join1]. rewrite E'. now apply eval_join.
  - cbn [to_kernel] in E.
    assert (Q : forall b gb, (forall x, b = inr x -> forall g, wf x -> normal offset x -> sigmoid_free x -> to_kernel x = Ok g -> eval_kernel (formula called_leaf x) = Some (all_free g)) ->
      (forall x, b = inr x -> wf x /\ normal offset x /\ sigmoid_free x) ->
      match b with inl b => base_str_to_ker b | inr x => to_kernel x end = Ok gb ->
      eval_kernel (match b with inl b => called_leaf b | inr x => join1 (kind_or x) (operands called_leaf x) end) = Some (all_free gb)).
    { intros [b|x] gb H1 H2 H3.
      - unfold base_str_to_ker in H3. destruct (is_sigmoid b) eqn:B; [discriminate H3|]. injection H3 as <-. now apply eval_leaf.
      - destruct (H2 x eq_refl) as (A1 & A2 & A3). now apply (H1 x eq_refl). }
    destruct (match l with inl b => base_str_to_ker b | inr x => to_kernel x end) as [gl|] eqn:El; [|discriminate E]. cbn [bind] in E.
    destruct (match r with inl b => base_str_to_ker b | inr x => to_kernel x end) as [gr|] eqn:Er; [|discriminate E]. cbn [bind] in E. injection E as <-.
    unfold formula. cbn [operands kind_or join1 fold_left eval_kernel].
    rewrite (Q l gl IHl); [|intros x ->|exact El].
    2:{ split; [intros k' b' c' Hn; apply (W k' b' c'); now apply node_left|]. split; [intros n Hn; apply N; now apply node_left|]. apply (free_sub _ x S). apply node_left, node_self. }
    rewrite (Q r gr IHr); [|intros x ->|exact Er].
    2:{ split; [intros k' b' c' Hn; apply (W k' b' c'); now apply node_right|]. split; [intros n Hn; apply N; now apply node_right|]. apply (free_sub _ x S). apply node_right, node_self. }
    destruct c; reflexivity.
Qed.
Lemma unrefined_kernel offset e : normal offset e -> non_empty e -> sigmoid_free e ->
  exists g, to_kernel e = Ok g /\ forall h, to_kernel_unrefined e h <-> h = all_free g.
Proof.
  intros N E S. assert (W : wf e) by (intros k b c Hn; exact (proj1 (N _ Hn))). destruct (to_kernel_family offset e W E S) as (g & G & _). exists g. split; [exact G|].
  pose proof (called_reads e W E S) as R. pose proof (eval_formula offset e g W N S G) as V. intros h. split.
  - intros (p & P & H). rewrite (reads_unambiguous _ _ _ R P) in H. congruence.
  - intros ->. exists (formula called_leaf e). split; [exact R|exact V].
Qed.
