(** What the expansion grammar can reach (C58), and in how many expansions (C74). *)
From Coq Require Import List Bool Arith ZArith Lia Permutation.
From Verif Require Import Py UtilModel KexModel KexSpec KexProofs KexSimp KexCong KexMore OpsModel OpsSpec OpsProofs ReachSpec SemSpec CountSpec CostSpec.
Import ListNotations.
Local Open Scope list_scope.
Local Open Scope Z_scope.

(** The rules all built-in groups have. *)
Definition basic_rules (offset : bool) (bases noC : list base) (rules : list rule) : Prop :=
  In (plus_base offset bases) rules /\ In (times_base offset noC) rules /\ In (replace_base offset bases) rules.

(** ** Contexts, innermost frame first; the order of composites is immaterial *)
Inductive frame : Type :=
| FComm (k : kind) (bts : counter) (cts : list kex)
| FLeft (o : cpcw) (r : branch)
| FRight (o : cpcw) (l : branch).
Definition fill (f : frame) (n : kex) : kex :=
  match f with
  | FComm k bts cts => Comm k bts (n :: cts)
  | FLeft o r => Change o (inr n) r
  | FRight o l => Change o l (inr n)
  end.
Fixpoint plug (C : list frame) (n : kex) : kex := match C with [] => n | f :: C' => plug C' (fill f n) end.

Lemma at_addr_app p : forall e x q, at_addr e p = Some x -> at_addr e (p ++ q) = at_addr x q.
Proof.
  induction p as [|i p IH]; intros e x q H; cbn [at_addr app] in *; [injection H as ->; reflexivity|].
  destruct (child e i) as [c|]; [|discriminate]. apply IH, H.
Qed.
Lemma replace_addr_app p : forall e x q m y, at_addr e p = Some x -> replace_addr x q m = Some y ->
  replace_addr e (p ++ q) m = replace_addr e p y.
Proof.
  induction p as [|i p IH]; intros e x q m y H Hr; cbn [at_addr app replace_addr] in *; [injection H as ->; exact Hr|].
  destruct (child e i) as [c|]; [|discriminate]. rewrite (IH c x q m y H Hr). reflexivity.
Qed.
Lemma target_app p : forall e x q, at_addr e p = Some x -> target e p = p -> target x q = q -> target e (p ++ q) = p ++ q.
Proof.
  induction p as [|i p IH]; intros e x q H T Tq; cbn [at_addr app target] in *; [injection H as ->; exact Tq|].
  destruct (child e i) as [c|] eqn:E; [|discriminate].
  assert (G : i :: target c p = i :: p -> i :: target c (p ++ q) = i :: p ++ q).
  { intros [= T']. f_equal. eapply IH; eauto. }
  destruct e as [k b cts|o [b|y] r]; try (apply G; exact T). destruct i as [|i]; [discriminate T|apply G; exact T].
Qed.

Definition located (e : kex) (p : addr) (n' : kex) (C : list frame) (n : kex) : Prop :=
  at_addr e p = Some n' /\ target e p = p /\ reord n' n
  /\ forall m', exists t, replace_addr e p m' = Some t /\ forall m, reord m' m -> reord t (plug C m).
Lemma lreord_cons_inv l x m : lreord l (x :: m) -> exists a x' b, l = a ++ x' :: b /\ reord x' x /\ lreord (a ++ b) m.
Proof.
  intros (m' & P & F). assert (Hin : In x m') by (eapply Permutation_in; [exact P|left; reflexivity]).
  apply in_split in Hin as (m1 & m2 & ->). apply Forall2_app_inv_r in F as (a & b' & Fa & Fb & ->).
  inversion Fb as [|x' ? b ? Rx Fb' E1 E2]; subst. exists a, x', b. split; [reflexivity|]. split; [exact Rx|].
  exists (m1 ++ m2). split; [eapply Permutation_cons_app_inv; exact P|]. apply Forall2_app; assumption.
Qed.
Lemma lreord_mid a x b : lreord (a ++ x :: b) (x :: a ++ b).
Proof. apply lreord_perm. symmetry. apply Permutation_middle. Qed.
Lemma locate C : forall n e, reord e (plug C n) -> exists p n', located e p n' C n.
Proof.
  induction C as [|f C IH]; intros n e R; cbn [plug] in R.
  - exists [], e. split; [reflexivity|]. split; [reflexivity|]. split; [exact R|]. intros m'. exists m'. split; [reflexivity|auto].
  - destruct (IH (fill f n) e R) as (p & x & Ha & Ht & Rx & Hr). destruct f as [k b c|o r|o l]; cbn [fill] in *.
    + apply reord_sym in Rx. apply reord_comm_inv in Rx as (b' & c' & c'' & -> & Eb & P & F).
      assert (L : lreord c' (n :: c)) by (apply lreord_sym; exists c''; auto).
      apply lreord_cons_inv in L as (a1 & n' & a2 & -> & Rn & L).
      assert (Hn : nth_error (a1 ++ n' :: a2) (length a1) = Some n').
      { rewrite nth_error_app2, Nat.sub_diag by lia. reflexivity. }
      exists (p ++ [length a1]), n'. split.
      { rewrite (at_addr_app _ _ _ _ Ha). cbn [at_addr child]. rewrite Hn. reflexivity. }
      split. { eapply target_app; [exact Ha|exact Ht|]. cbn [target child]. rewrite Hn. reflexivity. }
      split; [exact Rn|]. intros m'.
      assert (Hm : replace_addr (Comm k b' (a1 ++ n' :: a2)) [length a1] m' = Some (Comm k b' (a1 ++ m' :: a2))).
      { cbn [replace_addr child]. rewrite Hn. f_equal. f_equal. rewrite firstn_app, Nat.sub_diag, firstn_O, firstn_all, app_nil_r. f_equal. f_equal.
        rewrite skipn_app, skipn_all2 by lia. replace (S (length a1) - length a1)%nat with 1%nat by lia. reflexivity. }
      destruct (Hr (Comm k b' (a1 ++ m' :: a2))) as (t & Hrt & Hrr). exists t. split; [rewrite (replace_addr_app _ _ _ _ _ _ Ha Hm); exact Hrt|].
      intros m Rm. cbn [plug fill]. apply Hrr. apply reord_comm_iff. split; [intros y; symmetry; apply Eb|].
      eapply lreord_trans; [apply lreord_mid|]. apply lreord_cons; assumption.
    + apply reord_sym in Rx. apply reord_change_inv in Rx as (l' & r' & -> & Rl & Rr). apply reord_branch_inv in Rl.
      destruct l' as [|n']; [contradiction|]. exists (p ++ [0%nat]), n'.
      split; [rewrite (at_addr_app _ _ _ _ Ha); reflexivity|]. split; [eapply target_app; [exact Ha|exact Ht|reflexivity]|].
      split; [apply reord_sym, Rl|]. intros m'. destruct (Hr (Change o (inr m') r')) as (t & Hrt & Hrr).
      exists t. split; [erewrite replace_addr_app; [exact Hrt|exact Ha|reflexivity]|]. intros m Rm. cbn [plug fill]. apply Hrr.
      apply reord_sym. apply reord_change_inv. exists (inr m'), r'. split; [reflexivity|]. split; [constructor; apply reord_sym, Rm|exact Rr].
    + apply reord_sym in Rx. apply reord_change_inv in Rx as (l' & r' & -> & Rl & Rr). apply reord_branch_inv in Rr.
      destruct r' as [|n']; [contradiction|]. exists (p ++ [1%nat]), n'.
      split; [rewrite (at_addr_app _ _ _ _ Ha); reflexivity|].
      split; [eapply target_app; [exact Ha|exact Ht|destruct l'; reflexivity]|].
      split; [apply reord_sym, Rr|]. intros m'. destruct (Hr (Change o l' (inr m'))) as (t & Hrt & Hrr).
      exists t. split; [erewrite replace_addr_app; [exact Hrt|exact Ha|reflexivity]|]. intros m Rm. cbn [plug fill]. apply Hrr.
      apply reord_sym. apply reord_change_inv. exists l', (inr m'). split; [reflexivity|]. split; [exact Rl|constructor; apply reord_sym, Rm].
Qed.

Lemma cget_csub a b x : nodup a -> nodup b -> (forall y, 0 <= cget b y) -> cget (csub a b) x = Z.max 0 (cget a x - cget b x).
Proof.
  intros Na Nb Pb. unfold csub.
  replace (filter (fun kv => negb (chas a (fst kv)) && (snd kv <? 0)) b) with (@nil (base * Z)).
  2:{ symmetry. apply filter_nil_iff. intros [y n] Hy. cbn [fst snd]. apply andb_false_iff. right. apply Z.ltb_ge.
      rewrite <- (cget_in b y n Nb Hy). apply Pb. }
  cbn [map]. rewrite app_nil_r.
  set (m := map (fun kv => (fst kv, snd kv - cget b (fst kv))) a).
  assert (Nm : nodup m) by (apply (nodup_map_val a (fun kv => snd kv - cget b (fst kv))), Na).
  assert (Em : cget m x = if chas a x then cget a x - cget b x else 0) by (apply (cget_map_val a (fun kv => snd kv - cget b (fst kv)))).
  rewrite cget_filter by exact Nm. cbn [snd]. rewrite Em. destruct (chas a x) eqn:E.
  - destruct (Z.ltb_spec 0 (cget a x - cget b x)); lia.
  - rewrite (chas_false a x E). specialize (Pb x). cbn. lia.
Qed.

Section WithRules.
  Context (offset : bool) (bases noC : list base) (rules : list rule) (e0 : kex).
  Context (GB : grammar_bases bases noC) (ER : basic_rules offset bases noC rules) (WR : wf_rules rules) (W0 : wf e0).

  (** Within i expansions, up to the order of composites. *)
  Definition Reach (i : nat) (a : kex) : Prop := exists j e, (j <= i)%nat /\ reaches_in offset rules e0 j e /\ wf e /\ reord e a.
  Lemma reach_le i j a : (i <= j)%nat -> Reach i a -> Reach j a.
  Proof. intros L (n & e & H0 & H1 & H2 & H3). exists n, e. split; [lia|auto]. Qed.
  Lemma reach_reord i a b : reord a b -> Reach i a -> Reach i b.
  Proof. intros R (j & e & H0 & H1 & H2 & H3). exists j, e. split; [exact H0|]. split; [exact H1|]. split; [exact H2|]. eapply reord_trans; eauto. Qed.
  Lemma reach_from i j e p n new t : (j <= i)%nat -> reaches_in offset rules e0 j e -> wf e -> at_addr e p = Some n -> target e p = p -> produced rules n new ->
    replace_addr e p new = Some t -> Reach (S i) (standardise offset t).
  Proof.
    intros Hj Hr W Ha Ht Hp Hrep. destruct (expand_covers offset rules e W WR p n new Ha Hp) as (x & t' & Hx & Ht' & R).
    rewrite Ht, Hrep in Ht'. injection Ht' as <-. exists (S j), x. split; [lia|]. split; [eapply reaches_more; eauto|]. split; [|exact R].
    destruct (expand_sound offset rules e W WR x Hx) as (? & ? & ? & ? & _ & _ & _ & _ & _ & _ & Wx). exact Wx.
  Qed.

  (** A move on the node in the hole; the whole expression is then standardised. *)
  Lemma move i C n m : Reach i (plug C n) ->
    (forall n', wf n' -> reord n' n -> exists m', produced rules n' m' /\ reord m' m) -> wf (plug C m) -> Reach (S i) (standardise offset (plug C m)).
  Proof.
    intros (j & e & Hj & Hr & W & R) H Wm. destruct (locate C n e R) as (p & n' & Ha & Ht & Rn & Hrep).
    destruct (H n' (at_addr_wf _ _ _ W Ha) Rn) as (m' & Hp & Rm). destruct (Hrep m') as (t & Hrt & Hrr).
    pose proof (reach_from i j e p n' m' t Hj Hr W Ha Ht Hp Hrt) as G. eapply reach_reord; [|exact G].
    apply standardise_reord; [|exact Wm|apply Hrr, Rm]. eapply replace_wf; [exact W| |exact Hrt].
    eapply WR; [|exact Hp]. exact (at_addr_wf _ _ _ W Ha).
  Qed.
  (** A move on the bare right branch of a Change in the hole. *)
  Lemma move_leaf i C o l b m : Reach i (plug C (Change o l (inl b))) -> produced rules (Comm KSum [(b, 1)] []) m ->
    wf (plug C (Change o l (inr m))) -> Reach (S i) (standardise offset (plug C (Change o l (inr m)))).
  Proof.
    intros (j & e & Hj & Hr & W & R) Hp Wm. destruct (locate C _ e R) as (p & n' & Ha & Ht & Rn & Hrep).
    apply reord_sym in Rn. apply reord_change_inv in Rn as (l' & r' & -> & Rl & Rr). apply reord_branch_inv in Rr.
    destruct r' as [b'|]; [subst b'|contradiction]. destruct (Hrep (Change o l' (inr m))) as (t & Hrt & Hrr).
    assert (Ha' : at_addr e (p ++ [1%nat]) = Some (Comm KSum [(b, 1)] [])) by (rewrite (at_addr_app _ _ _ _ Ha); reflexivity).
    assert (Ht' : target e (p ++ [1%nat]) = p ++ [1%nat]) by (eapply target_app; [exact Ha|exact Ht|destruct l'; reflexivity]).
    assert (Hrt' : replace_addr e (p ++ [1%nat]) m = Some t).
    { erewrite replace_addr_app; [exact Hrt|exact Ha|reflexivity]. }
    pose proof (reach_from i j e _ _ m t Hj Hr W Ha' Ht' Hp Hrt') as G. eapply reach_reord; [|exact G].
    apply standardise_reord; [|exact Wm|]. { eapply replace_wf; [exact W| |exact Hrt']. eapply WR; [apply wf_leaf|exact Hp]. }
    apply Hrr. apply reord_sym. apply reord_change_inv. exists l', (inr m). split; [reflexivity|]. split; [exact Rl|constructor; apply reord_refl].
  Qed.

  (** ** Contexts keep normal forms *)
  Definition okC (C : list frame) (n : kex) : Prop := normal offset (plug C n) /\ ~ singleton (plug C n).
  Lemma node_fill f n : node n (fill f n).
  Proof. destruct f; cbn [fill]; [eapply node_comm; [left; reflexivity|constructor]|apply node_left; constructor|apply node_right; constructor]. Qed.
  Lemma node_plug C : forall n, node n (plug C n).
  Proof. induction C as [|f C IH]; intros n; cbn [plug]; [constructor|]. eapply node_trans; [apply (node_fill f)|apply IH]. Qed.
  Lemma normal_fill f n : normal offset (fill f n) -> normal offset n /\ ~ singleton n.
  Proof.
    intros N. split; [eapply normal_node_of; [exact N|apply node_fill]|]. specialize (N _ (node_self _)).
    destruct f as [k b c|o r|o l]; cbn [fill normal_node] in N.
    - destruct N as (_ & _ & H). apply (H n). left; reflexivity.
    - apply (N n). auto.
    - apply (N n). auto.
  Qed.
  Lemma okC_hole C n : okC C n -> normal offset n /\ ~ singleton n.
  Proof.
    destruct C as [|f C]; [intros H; exact H|]. intros [N _]. cbn [plug] in N. apply (normal_fill f).
    eapply normal_node_of; [exact N|apply node_plug].
  Qed.
  Lemma okC_swap C : forall n m, okC C n -> normal offset m -> ~ singleton m -> (forall k, is_kind k m = true -> is_kind k n = true) -> okC C m.
  Proof.
    induction C as [|f C IH]; intros n m H Nm Sm K; [split; assumption|].
    unfold okC in *. cbn [plug] in *. destruct (okC_hole C (fill f n) H) as [N S].
    apply (IH (fill f n)); [exact H| | |].
    - apply normal_iff. apply normal_iff in N. destruct f as [k b c|o r|o l]; cbn [fill normal'] in *.
      + destruct N as (W & Hc & Hk). split; [exact W|]. split; [exact Hc|]. intros x [<-|Hx]; [|apply Hk; right; exact Hx].
        split; [exact Nm|]. split; [exact Sm|]. destruct (is_kind k m) eqn:E; [|reflexivity]. apply K in E.
        destruct (Hk n (or_introl eq_refl)) as (_ & _ & E'). congruence.
      + intros x [[= <-]|Hx]; [auto|]. apply N. auto.
      + intros x [Hx|[= <-]]; [|auto]. apply N. auto.
    - destruct f as [k b c|o r|o l]; cbn [fill] in *; try apply not_singleton_change.
      rewrite singleton_comm in *. unfold terms in *. cbn [length] in *. exact S.
    - intros k. destruct f; cbn [fill is_kind]; auto.
  Qed.
  Lemma simplify_fill f x y : simplify offset x = simplify offset y -> simplify offset (fill f x) = simplify offset (fill f y).
  Proof. intros E. destruct f; cbn [fill simplify map]; rewrite E; reflexivity. Qed.
  Lemma simplify_plug C : forall x y, simplify offset x = simplify offset y -> simplify offset (plug C x) = simplify offset (plug C y).
  Proof. induction C as [|f C IH]; intros x y E; cbn [plug]; [exact E|]. apply IH, simplify_fill, E. Qed.
  Lemma standardise_ok t a : wf t -> simplify offset t = a -> normal offset a -> ~ singleton a -> standardise offset t = a.
  Proof.
    intros W E N S. rewrite (standardise_unfold offset t W), E. destruct a as [k b c|]; [|reflexivity].
    pose proof (normal_wf_top offset _ N) as Wt. rewrite (extract_self _ Wt S).
    destruct (OpsModel.is_singleton b c) eqn:E1; [|reflexivity].
    apply is_singleton_spec in E1; [|exact Wt]. exfalso. apply S, singleton_comm, E1.
  Qed.
  Lemma wf_plug C : forall x y, wf (plug C x) -> wf y -> wf (plug C y).
  Proof.
    induction C as [|f C IH]; intros x y W Wy; cbn [plug] in *; [exact Wy|]. eapply IH; [exact W|].
    assert (Wf : wf (fill f x)) by (eapply wf_sub; [exact W|apply node_plug]).
    destruct f as [k b c|o r|o l]; cbn [fill] in *.
    - apply wf_comm in Wf as [Wb Wc]. apply wf_comm. split; [exact Wb|]. intros z [<-|Hz]; [exact Wy|apply Wc; right; exact Hz].
    - rewrite wf_change in *. intros z [[= <-]|Hz]; [exact Wy|apply Wf; auto].
    - rewrite wf_change in *. intros z [Hz|[= <-]]; [apply Wf; auto|exact Wy].
  Qed.
  (** The move lemma in the form used below: the new node simplifies to [a], which fits the context. *)
  Lemma step i C n m a : Reach i (plug C n) ->
    (forall n', wf n' -> reord n' n -> exists m', produced rules n' m' /\ reord m' m) ->
    wf m -> simplify offset m = a -> okC C a -> Reach (S i) (plug C a).
  Proof.
    intros R H W E O. assert (Wm : wf (plug C m)) by (eapply wf_plug; [apply (normal_wf offset), O|exact W]).
    rewrite <- (standardise_ok (plug C m) (plug C a) Wm); [apply (move i C n m); assumption| |apply O|apply O].
    rewrite <- (normal_fix offset (plug C a)) by apply O. apply simplify_plug. rewrite E. symmetry. apply normal_fix.
    apply (okC_hole C a O).
  Qed.
  Lemma step_same i C n a : Reach i (plug C n) ->
    (forall n', wf n' -> reord n' n -> exists m', produced rules n' m' /\ reord m' a) -> okC C a -> Reach (S i) (plug C a).
  Proof.
    intros R H O. pose proof (okC_hole C a O) as [N _]. eapply step; [exact R|exact H| | |exact O]; [apply (normal_wf offset), N|].
    apply normal_fix, N.
  Qed.

  (** ** Results of the constructors, up to reordering *)
  Lemma mk_reord k b1 b2 c1 c2 : wf_counter b1 -> (forall c, In c c1 -> wf c) -> normal offset (Comm k b2 c2) ->
    ceq b1 b2 -> lreord c1 c2 -> reord (mk offset k b1 c1) (Comm k b2 c2).
  Proof.
    intros W1 Wc N E L. unfold mk. rewrite <- (normal_fix offset (Comm k b2 c2)) by exact N. apply simplify_reord.
    - apply wf_comm; auto.
    - apply (normal_wf offset), N.
    - apply reord_comm_iff; auto.
  Qed.
  Lemma mk_change_reord o l1 r1 l2 r2 : (forall x, l1 = inr x \/ r1 = inr x -> wf x) -> normal offset (Change o l2 r2) ->
    reord_branch l1 l2 -> reord_branch r1 r2 -> reord (mk_change offset o l1 r1) (Change o l2 r2).
  Proof.
    intros W N Rl Rr. unfold mk_change. rewrite <- (normal_fix offset (Change o l2 r2)) by exact N. apply simplify_reord.
    - apply wf_change, W.
    - apply (normal_wf offset), N.
    - constructor; assumption.
  Qed.

  (** ** Which results the rules give *)
  Lemma by_plus B n g : In B bases -> In g (add_nested offset (inr n) (inl B)) -> produced rules n g.
  Proof. intros HB Hg. exists (plus_base offset bases). eexists. split; [apply ER|]. split; [apply in_map_iff; exists B; split; [reflexivity|exact HB]|exact Hg]. Qed.
  Lemma by_times B n g : In B noC -> In g (multiply_nested offset (inr n) (inl B)) -> produced rules n g.
  Proof. intros HB Hg. exists (times_base offset noC). eexists. split; [apply ER|]. split; [apply in_map_iff; exists B; split; [reflexivity|exact HB]|exact Hg]. Qed.
  Lemma by_swap B n g : In B bases -> In g (swap_base offset n B) -> produced rules n g.
  Proof. intros HB Hg. exists (replace_base offset bases). eexists. split; [apply ER|]. split; [apply in_map_iff; exists B; split; [reflexivity|exact HB]|exact Hg]. Qed.
  Definition singles : Prop := In (replace_with_singleton offset bases) rules.
  Lemma by_single B n : singles -> In B bases -> produced rules n (Comm KSum [(B, 1)] []).
  Proof.
    intros HS HB. exists (replace_with_singleton offset bases). eexists. split; [exact HS|]. split; [apply in_map_iff; exists B; split; [reflexivity|exact HB]|].
    cbn [replace_node]. left. apply mkl_leaf.
  Qed.
  Lemma per_in : In bPER bases. Proof. apply GB. Qed.
  Lemma per_noC : In bPER noC. Proof. apply GB; [apply per_in|discriminate]. Qed.
  Lemma lin_in : In bLIN bases. Proof. apply GB. Qed.

  Definition other (k : kind) : kind := match k with KSum => KProd | KProd => KSum end.
  Definition PER2 : counter := [(bPER, 2)].
  Definition seed (k : kind) : kex := Comm k PER2 [].

  (** One more base term of the node's own type. *)
  Lemma grow_base i C k b c b2 : Reach i (plug C (Comm k b c)) -> okC C (Comm k b2 c) ->
    (forall x, cget b2 x = cget b x + delta bPER x) -> Reach (S i) (plug C (Comm k b2 c)).
  Proof.
    intros R O E. apply (step_same _ C (Comm k b c)); [exact R| |exact O]. intros n' Wn Rn.
    apply reord_sym in Rn. apply reord_comm_inv in Rn as (b' & c' & c'' & -> & Eb & P & F).
    pose proof (proj1 (wf_comm k b' c') Wn) as [Wb Wc]. pose proof (wf_nodup _ Wb) as Nb.
    exists (mk offset k (cadd (cpos b') (counter_of [bPER])) c'). split.
    - destruct k; [apply (by_plus bPER); [apply per_in|]|apply (by_times bPER); [apply per_noC|]]; left; reflexivity.
    - apply mk_reord.
      + apply cadd_wf; [apply cpos_nodup, Nb|apply counter_of_nodup].
      + exact Wc.
      + apply (okC_hole C), O.
      + intros x. rewrite (wf_cpos _ Wb), cget_cadd by (exact Nb || apply counter_of_nodup). rewrite E, Eb, cget_counter_of.
        cbn [count_occ]. unfold delta. pose proof (wf_nonneg b' x Wb). destruct (base_eq_dec bPER x) as [<-|D].
        * rewrite base_eqb_refl. lia.
        * apply base_eqb_false in D. rewrite D. lia.
      + apply lreord_sym. exists c''. auto.
  Qed.
  Lemma seed_built k : mkl offset k [bPER; bPER] [] = seed k.
  Proof. destruct k, offset; reflexivity. Qed.
  (** One PER becomes a composite of the other type. *)
  Lemma nest i C k b c b2 : Reach i (plug C (Comm k b c)) -> 0 < cget b bPER -> okC C (Comm k b2 (seed (other k) :: c)) ->
    (forall x, cget b2 x = cget b x - delta bPER x) -> Reach (S i) (plug C (Comm k b2 (seed (other k) :: c))).
  Proof.
    intros R Hp O E. apply (step_same _ C (Comm k b c)); [exact R| |exact O]. intros n' Wn Rn.
    apply reord_sym in Rn. apply reord_comm_inv in Rn as (b' & c' & c'' & -> & Eb & P & F).
    pose proof (proj1 (wf_comm k b' c') Wn) as [Wb Wc]. pose proof (wf_nodup _ Wb) as Nb.
    assert (Hin : In bPER (celements b')) by (apply in_celements; [exact Nb|rewrite <- Eb; exact Hp]).
    exists (mk offset k (csub (cpos b') (counter_of [bPER])) (c' ++ [seed (other k)])). split.
    - destruct k; cbn [other] in *; rewrite <- seed_built.
      + apply (by_times bPER); [apply per_noC|]. right. apply in_map_iff. exists bPER. split; [reflexivity|exact Hin].
      + apply (by_plus bPER); [apply per_in|]. right. apply in_map_iff. exists bPER. split; [reflexivity|exact Hin].
    - assert (Ns : normal offset (Comm k b2 (seed (other k) :: c))) by apply (okC_hole C), O.
      apply mk_reord.
      + apply csub_wf; [apply cpos_nodup, Nb|apply counter_of_nodup].
      + intros x Hx. apply in_app_iff in Hx as [Hx|[<-|[]]]; [apply Wc, Hx|]. rewrite <- seed_built. apply mk_wf; [apply counter_of_wf|intros ? []].
      + exact Ns.
      + assert (W1 : wf_counter (counter_of [bPER])) by apply counter_of_wf.
        intros x. rewrite (wf_cpos _ Wb). rewrite cget_csub by (exact Nb || apply counter_of_nodup || (intros y; apply wf_nonneg, W1)). rewrite E, Eb, cget_counter_of.
        cbn [count_occ]. unfold delta. pose proof (wf_nonneg b' x Wb). destruct (base_eq_dec bPER x) as [<-|D].
        * rewrite base_eqb_refl. rewrite Eb in Hp. lia.
        * apply base_eqb_false in D. rewrite D. lia.
      + eapply lreord_trans; [apply lreord_perm, Permutation_app_comm|]. apply lreord_cons; [apply reord_refl|].
        apply lreord_sym. exists c''. auto.
  Qed.

  (** One base is exchanged for another. *)
  Lemma swap_any i C k b c A B b2 : Reach i (plug C (Comm k b c)) -> 0 < cget b A -> B <> A -> In B bases -> okC C (Comm k b2 c) ->
    (forall x, cget b2 x = cget b x - delta A x + delta B x) -> Reach (S i) (plug C (Comm k b2 c)).
  Proof.
    intros R Hp HB IB O E. apply (step_same _ C (Comm k b c)); [exact R| |exact O]. intros n' Wn Rn.
    apply reord_sym in Rn. apply reord_comm_inv in Rn as (b' & c' & c'' & -> & Eb & P & F).
    pose proof (proj1 (wf_comm k b' c') Wn) as [Wb Wc].
    set (d := cadd (cpos b') (swap_counter A B)).
    assert (D : replace_one b' d A B) by (eapply swap_args_spec; [exact Wb|congruence|rewrite <- Eb; exact Hp|reflexivity]).
    exists (mk offset k d c'). split.
    - apply (by_swap B); [exact IB|]. cbn [swap_base]. apply in_map_iff. exists d. split; [reflexivity|]. unfold swap_args.
      apply in_map_iff. exists A. split; [reflexivity|]. apply (distinct_cpos b' Wb). rewrite <- Eb. exact Hp.
    - apply mk_reord; [apply D|exact Wc|apply (okC_hole C), O| |].
      + intros x. rewrite (proj2 D x), E, Eb. reflexivity.
      + apply lreord_sym. exists c''. auto.
  Qed.
  Lemma swap_one i C k b c B b2 : Reach i (plug C (Comm k b c)) -> 0 < cget b bPER -> B <> bPER -> In B bases -> okC C (Comm k b2 c) ->
    (forall x, cget b2 x = cget b x - delta bPER x + delta B x) -> Reach (S i) (plug C (Comm k b2 c)).
  Proof. apply swap_any. Qed.
  (** A bare branch of a Change is exchanged for another base. *)
  Lemma swap_left i C o b r B : Reach i (plug C (Change o (inl b) r)) -> In B bases -> okC C (Change o (inl B) r) -> Reach (S i) (plug C (Change o (inl B) r)).
  Proof.
    intros R IB O. destruct (base_eq_dec b B) as [<-|D]; [apply (reach_le i); [lia|exact R]|].
    apply (step_same _ C (Change o (inl b) r)); [exact R| |exact O]. intros n' Wn Rn.
    apply reord_sym in Rn. apply reord_change_inv in Rn as (l' & r' & -> & Rl & Rr). apply reord_branch_inv in Rl.
    destruct l' as [b'|]; [subst b'|contradiction]. exists (mk_change offset o (inl B) r'). split.
    - apply (by_swap B); [exact IB|]. apply swap_base_change. left. exists b. auto.
    - apply mk_change_reord; [|apply (okC_hole C), O|constructor|].
      + intros x [E|E]; [discriminate|]. apply (proj1 (wf_change o (inl b) r') Wn). auto.
      + apply reord_branch_inv. apply reord_branch_inv in Rr. destruct r as [y|y], r' as [z|z]; try contradiction; [symmetry; exact Rr|apply reord_sym, Rr].
  Qed.
  Lemma swap_right i C o l b B : Reach i (plug C (Change o l (inl b))) -> In B bases -> okC C (Change o l (inl B)) -> Reach (S i) (plug C (Change o l (inl B))).
  Proof.
    intros R IB O. destruct (base_eq_dec b B) as [<-|D]; [apply (reach_le i); [lia|exact R]|].
    apply (step_same _ C (Change o l (inl b))); [exact R| |exact O]. intros n' Wn Rn.
    apply reord_sym in Rn. apply reord_change_inv in Rn as (l' & r' & -> & Rl & Rr). apply reord_branch_inv in Rr.
    destruct r' as [b'|]; [subst b'|contradiction]. exists (mk_change offset o l' (inl B)). split.
    - apply (by_swap B); [exact IB|]. apply swap_base_change. right. exists b. auto.
    - apply mk_change_reord; [|apply (okC_hole C), O| |constructor].
      + intros x [E|E]; [|discriminate]. apply (proj1 (wf_change o l' (inl b)) Wn). auto.
      + apply reord_branch_inv. apply reord_branch_inv in Rl. destruct l as [y|y], l' as [z|z]; try contradiction; [symmetry; exact Rl|apply reord_sym, Rl].
  Qed.

  (** A node is replaced by a base, which its surroundings absorb. *)
  Definition leaf (b : base) : kex := Comm KSum [(b, 1)] [].
  Lemma to_single i C f n B a : singles -> Reach i (plug (f :: C) n) -> In B bases -> wf (fill f (leaf B)) -> simplify offset (fill f (leaf B)) = a ->
    okC C a -> Reach (S i) (plug C a).
  Proof.
    intros HS R IB Wl E O. pose proof (okC_hole C a O) as [N _].
    assert (Wp : wf (plug C (fill f (leaf B)))) by (eapply wf_plug; [apply (normal_wf offset), O|exact Wl]).
    rewrite <- (standardise_ok (plug (f :: C) (leaf B)) (plug C a)); [|exact Wp| |apply O|apply O].
    - apply (move i (f :: C) n (leaf B) R); [|exact Wp]. intros n' _ _. exists (leaf B). split; [apply (by_single B n' HS IB)|apply reord_refl].
    - cbn [plug]. rewrite <- (normal_fix offset (plug C a)) by apply O. apply simplify_plug. rewrite E. symmetry. apply normal_fix, N.
  Qed.
  Lemma extract_leaf b : extract (simplify offset (leaf b)) = inl b.
  Proof. unfold leaf. destruct b, offset; reflexivity. Qed.
  Lemma branch_fix (br : branch) : (forall x, br = inr x -> normal offset x /\ ~ singleton x) ->
    match br with inl b => inl b | inr x => extract (simplify offset x) end = br.
  Proof.
    destruct br as [b|x]; [reflexivity|]. intros H. destruct (H x eq_refl) as [N S]. rewrite (normal_fix offset x N).
    apply extract_self; [apply (normal_wf_top offset), N|exact S].
  Qed.
  Lemma change_inv o l r : normal offset (Change o l r) -> forall x, l = inr x \/ r = inr x -> normal offset x /\ ~ singleton x.
  Proof. intros N x H. apply normal_iff in N. cbn [normal'] in N. apply N, H. Qed.
  Lemma change_normal o l r : (forall x, l = inr x \/ r = inr x -> normal offset x /\ ~ singleton x) -> normal offset (Change o l r).
  Proof. intros H. apply normal_iff. exact H. Qed.
  Lemma left_leaf i C o n r B : singles -> Reach i (plug C (Change o (inr n) r)) -> In B bases -> okC C (Change o (inl B) r) -> Reach (S i) (plug C (Change o (inl B) r)).
  Proof.
    intros HS R IB O. pose proof (okC_hole C _ O) as [N _]. pose proof (change_inv _ _ _ N) as HI.
    eapply (to_single i C (FLeft o r) n B); [exact HS|exact R|exact IB| | |exact O]; cbn [fill].
    - apply wf_change. intros x [[= <-]|E]; [apply wf_leaf|]. apply (normal_wf offset), (HI x). auto.
    - cbn [simplify]. rewrite extract_leaf. f_equal. apply branch_fix. intros x E. apply HI. auto.
  Qed.
  Lemma right_leaf i C o l n B : singles -> Reach i (plug C (Change o l (inr n))) -> In B bases -> okC C (Change o l (inl B)) -> Reach (S i) (plug C (Change o l (inl B))).
  Proof.
    intros HS R IB O. pose proof (okC_hole C _ O) as [N _]. pose proof (change_inv _ _ _ N) as HI.
    eapply (to_single i C (FRight o l) n B); [exact HS|exact R|exact IB| | |exact O]; cbn [fill].
    - apply wf_change. intros x [E|[= <-]]; [|apply wf_leaf]. apply (normal_wf offset), (HI x). auto.
    - cbn [simplify]. rewrite extract_leaf. f_equal. apply branch_fix. intros x E. apply HI. auto.
  Qed.
  (** A bare right branch PER becomes a composite. *)
  Lemma leaf_seed k : exists m, produced rules (leaf bPER) m /\ simplify offset m = seed k /\ wf m /\ m = seed k.
  Proof.
    exists (seed k). assert (W : wf (seed k)) by (rewrite <- seed_built; apply mk_wf; [apply counter_of_wf|intros ? []]).
    split; [|split; [destruct k, offset; reflexivity|split; [exact W|reflexivity]]].
    destruct k; [apply (by_plus bPER); [apply per_in|]|apply (by_times bPER); [apply per_noC|]]; left; destruct offset; reflexivity.
  Qed.
  Lemma seed_normal k : normal offset (seed k) /\ ~ singleton (seed k).
  Proof.
    assert (W : wf_counter PER2). { split; [repeat constructor; intros []|]. intros b n [[= <- <-]|[]]. lia. }
    split; [|intros H; apply singleton_comm in H; discriminate H].
    apply normal_iff. split; [exact W|]. split; [|intros ? []]. destruct k; cbn; repeat split; intros; try discriminate; lia.
  Qed.
  Lemma right_seed i C o l k : Reach i (plug C (Change o l (inl bPER))) -> okC C (Change o l (inr (seed k))) -> Reach (S i) (plug C (Change o l (inr (seed k)))).
  Proof.
    intros R O. destruct (leaf_seed k) as (m & Hm & _ & Wm & ->). pose proof (normal_wf offset _ (proj1 O)) as Wp.
    pose proof (move_leaf i C o l bPER (seed k) R Hm Wp) as G.
    rewrite (standardise_ok _ _ Wp (normal_fix offset _ (proj1 O)) (proj1 O) (proj2 O)) in G. exact G.
  Qed.

  (** A composite becomes a branch of a Change. *)
  Lemma change_ok C n o l r : okC C n -> (forall x, l = inr x \/ r = inr x -> normal offset x /\ ~ singleton x) -> okC C (Change o l r).
  Proof. intros O H. apply (okC_swap C n); [exact O|apply change_normal, H|apply not_singleton_change|discriminate]. Qed.
  Lemma wrap i C n o : singles -> (In (change_point_linear offset) rules /\ In (change_window_linear offset) rules) \/ In (change_same offset) rules -> Reach i (plug C n) -> okC C n ->
    Reach (2 + i) (plug C (Change o (inr n) (inl bLIN))) /\ Reach (2 + i) (plug C (Change o (inl bLIN) (inr n))).
  Proof.
    intros HS HC R O. pose proof (okC_hole C n O) as NS.
    assert (O1 : okC C (Change o (inr n) (inl bLIN))) by (apply (change_ok C n); [exact O|]; intros x [[= <-]|[=]]; exact NS).
    assert (O2 : okC C (Change o (inl bLIN) (inr n))) by (apply (change_ok C n); [exact O|]; intros x [[=]|[= <-]]; exact NS).
    assert (O3 : okC C (Change o (inr n) (inr n))) by (apply (change_ok C n); [exact O|]; intros x [[= <-]|[= <-]]; exact NS).
    destruct HC as [[Hp Hw]|Hs].
    - assert (Hall : forall n', produced rules n' (mk_change offset o (inr n') (inl bLIN)) /\ produced rules n' (mk_change offset o (inl bLIN) (inr n'))).
      { intros n'. destruct o; split.
        1,2: exists (change_point_linear offset); eexists; (split; [exact Hp|]); (split; [left; reflexivity|]); cbn [one_change branch_eqb]; simpl; auto.
        1,2: exists (change_window_linear offset); eexists; (split; [exact Hw|]); (split; [left; reflexivity|]); cbn [one_change branch_eqb]; simpl; auto. }
      split.
      + apply (reach_le (S i)); [lia|]. apply (step_same _ C n); [exact R| |exact O1]. intros n' Wn Rn. exists (mk_change offset o (inr n') (inl bLIN)). split; [apply Hall|].
        apply mk_change_reord; [intros x [[= <-]|[=]]; exact Wn|apply (okC_hole C), O1|constructor; exact Rn|constructor].
      + apply (reach_le (S i)); [lia|]. apply (step_same _ C n); [exact R| |exact O2]. intros n' Wn Rn. exists (mk_change offset o (inl bLIN) (inr n')). split; [apply Hall|].
        apply mk_change_reord; [intros x [[=]|[= <-]]; exact Wn|apply (okC_hole C), O2|constructor|constructor; exact Rn].
    - assert (R3 : Reach (S i) (plug C (Change o (inr n) (inr n)))).
      { apply (step_same _ C n); [exact R| |exact O3]. intros n' Wn Rn. exists (mk_change offset o (inr n') (inr n')). split.
        - exists (change_same offset). eexists. split; [exact Hs|]. split; [left; reflexivity|]. unfold both_changes. destruct o; simpl; auto.
        - apply mk_change_reord; [intros x [[= <-]|[= <-]]; exact Wn|apply (okC_hole C), O3|constructor; exact Rn|constructor; exact Rn]. }
      split.
      + eapply right_leaf; [exact HS|exact R3|apply lin_in|exact O1].
      + eapply left_leaf; [exact HS|exact R3|apply lin_in|exact O2].
  Qed.

  (** The seed of one type becomes that of the other. *)
  Lemma flip i C k : singles -> okC C (seed k) -> okC C (seed (other k)) -> Reach i (plug C (seed k)) -> Reach (2 + i) (plug C (seed (other k))).
  Proof.
    intros HS O1 O2 R. set (mid := Comm (other k) [(bPER, 1)] [seed k]).
    assert (Nm : normal offset mid).
    { apply normal_iff. split; [split; [repeat constructor; intros []|intros b n [[= <- <-]|[]]; lia]|]. split.
      - destruct k; cbn; repeat split; intros; try discriminate; lia.
      - intros c [<-|[]]. split; [apply seed_normal|]. split; [apply seed_normal|]. destruct k; reflexivity. }
    assert (Om : okC C mid).
    { apply (okC_swap C (seed (other k))); [exact O2|exact Nm| |].
      - unfold mid. rewrite singleton_comm. discriminate.
      - intros k' H. exact H. }
    assert (Rm : Reach (S i) (plug C mid)).
    { apply (step_same _ C (seed k)); [exact R| |exact Om]. intros n' Wn Rn.
      exists (mkl offset (other k) [bPER] [n']). split.
      - apply reord_sym in Rn. apply reord_comm_inv in Rn as (b' & c' & c'' & -> & _).
        destruct k; cbn [other]; [apply (by_times bPER); [apply per_noC|]|apply (by_plus bPER); [apply per_in|]]; left; reflexivity.
      - apply mk_reord; [apply counter_of_wf|intros c [<-|[]]; exact Wn|exact Nm| |].
        + intros x. reflexivity.
        + apply lreord_cons; [exact Rn|apply lreord_refl]. }
    eapply (to_single (S i) C (FComm (other k) [(bPER, 1)] []) (seed k) bPER); [exact HS|exact Rm|apply per_in| | |exact O2].
    - cbn [fill]. apply wf_comm. split; [split; [repeat constructor; intros []|intros b n [[= <- <-]|[]]; lia]|]. intros c [<-|[]]. apply wf_leaf.
    - destruct k, offset; reflexivity.
  Qed.

  (** ** Growing a Sum or Product from its seed *)
  Definition pers (n : nat) : counter := match n with O => [] | S _ => [(bPER, Z.of_nat n)] end.
  Lemma cget_pers n x : cget (pers n) x = if base_eqb bPER x then Z.of_nat n else 0.
  Proof. destruct n as [|n]; [destruct x; reflexivity|]. cbn [pers]. rewrite cget_cons. destruct (base_eqb bPER x); reflexivity. Qed.
  Lemma pers_wf n : wf_counter (pers n).
  Proof. destruct n as [|n]; (split; [repeat constructor; intros []|]); cbn [pers]; [intros ? ? []|]. intros b m [[= <- <-]|[]]. lia. Qed.
  Definition good (x : kex) : Prop := normal offset x /\ ~ singleton x.
  Lemma pers_normal k n c : (forall x, In x c -> good x /\ is_kind k x = false) -> normal offset (Comm k (pers n) c).
  Proof.
    intros H. apply normal_iff. split; [apply pers_wf|]. split.
    - destruct k; cbn [cardinality]; rewrite !cget_pers; cbn [base_eqb]; repeat split; intros; lia.
    - intros x Hx. destruct (H x Hx) as [[N S] K]. auto.
  Qed.
  Lemma terms_pers n c : terms (pers n) c = Z.of_nat n + Z.of_nat (length c).
  Proof. rewrite terms_bsum, bsum_expand, !cget_pers. cbn [base_eqb]. lia. Qed.
  Lemma ok_comm C k b c : okC C (seed k) -> normal offset (Comm k b c) -> terms b c <> 1 -> okC C (Comm k b c).
  Proof. intros O N T. apply (okC_swap C (seed k)); [exact O|exact N|rewrite singleton_comm; exact T|]. intros k' H. exact H. Qed.

  Lemma phase_a i C k n : okC C (seed k) -> Reach i (plug C (seed k)) -> Reach (n + i) (plug C (Comm k (pers (S (S n))) [])).
  Proof.
    intros O R. induction n as [|n IH]; [exact R|]. cbn [Nat.add]. eapply grow_base; [exact IH| |].
    - apply ok_comm; [exact O|apply pers_normal; intros ? []|]. rewrite terms_pers. cbn [length]. lia.
    - intros x. rewrite !cget_pers. unfold delta. destruct (base_eqb bPER x); lia.
  Qed.

  (** What else is needed: a seed becomes a branch of a Change, changes its type, and becomes a bare left branch.  With all the rules
      this takes 2, 2 and 1 expansions, with the minimal ones ([slow]) 4, 5 and 3. *)
  Definition may_wrap (n : nat) : Prop := forall i C k o, Reach i (plug C (seed k)) -> okC C (seed k) ->
    Reach (n + i) (plug C (Change o (inr (seed k)) (inl bLIN))) /\ Reach (n + i) (plug C (Change o (inl bLIN) (inr (seed k)))).
  Definition may_flip (n : nat) : Prop := forall i C k, okC C (seed k) -> okC C (seed (other k)) -> Reach i (plug C (seed k)) -> Reach (n + i) (plug C (seed (other k))).
  Definition may_drop (n : nat) : Prop := forall i C o k r B, Reach i (plug C (Change o (inr (seed k)) r)) -> In B bases -> okC C (Change o (inl B) r) ->
    Reach (n + i) (plug C (Change o (inl B) r)).
  Section Grow.
  Context (slow : bool) (Hwrap : may_wrap (if slow then 4 else 2)) (Hflip : may_flip (if slow then 5 else 2)) (Hdrop : may_drop (if slow then 3 else 1)).
  (** A seed becomes x within three (six) expansions per symbol. *)
  Definition cost (x : kex) : nat := if slow then 6 * symbols x - 10 else 3 * symbols x - 5.
  Definition grows (x : kex) : Prop := forall i C k, okC C (seed k) -> (forall k', is_kind k' x = true -> k' = k) ->
    Reach i (plug C (seed k)) -> Reach (cost x + i) (plug C x).
  Definition costs (l : list kex) : nat := fold_right (fun x n => (S (cost x) + n)%nat) 0%nat l.
  Lemma phase_b C k todo : okC C (seed k) -> (forall x, In x todo -> good x /\ is_kind k x = false /\ grows x) ->
    forall i done j, (forall x, In x done -> good x /\ is_kind k x = false) -> (2 <= length todo + j + length done)%nat ->
    Reach i (plug C (Comm k (pers (length todo + j)) done)) -> Reach (costs todo + i) (plug C (Comm k (pers j) (rev_append todo done))).
  Proof.
    intros O. induction todo as [|x todo IH]; intros Ht i done j Hd Hl R; [exact R|]. cbn [rev_append length Nat.add] in *.
    destruct (Ht x (or_introl eq_refl)) as (Gx & Kx & Hx).
    assert (Hs : forall y, In y (seed (other k) :: done) -> good y /\ is_kind k y = false).
    { intros y [<-|Hy]; [split; [apply seed_normal|destruct k; reflexivity]|apply Hd, Hy]. }
    assert (O1 : okC C (Comm k (pers (length todo + j)) (seed (other k) :: done))).
    { apply ok_comm; [exact O|apply pers_normal, Hs|]. rewrite terms_pers. cbn [length]. lia. }
    assert (R1 : Reach (S i) (plug C (Comm k (pers (length todo + j)) (seed (other k) :: done)))).
    { eapply nest; [exact R| |exact O1|].
      - rewrite cget_pers. cbn [base_eqb]. lia.
      - intros y. rewrite !cget_pers. unfold delta. destruct (base_eqb bPER y); lia. }
    assert (R2 : Reach (cost x + S i) (plug C (Comm k (pers (length todo + j)) (x :: done)))).
    { apply (Hx (S i) (FComm k (pers (length todo + j)) done :: C) (other k)); [exact O1| |exact R1].
      intros k' Hk. destruct k, k'; try reflexivity; congruence. }
    apply (reach_le (costs todo + (cost x + S i))); [cbn [costs fold_right]; unfold costs; lia|].
    apply IH; [intros y Hy; apply Ht; right; exact Hy| | |exact R2].
    - intros y [<-|Hy]; [auto|apply Hd, Hy].
    - cbn [length]. lia.
  Qed.

  (** The remaining PERs are exchanged for the bases [l]; the counts so far stay below the final ones. *)
  Lemma card_below k b bts n : cardinality offset k bts n -> (forall x, x <> bPER -> 0 <= cget b x <= cget bts x) -> cget b bWN = 0 ->
    (k = KProd -> cget bts bC = 0) -> cardinality offset k b n.
  Proof.
    intros Hc Hb Hw Hk. pose proof (Hb bC ltac:(discriminate)). pose proof (Hb bSE ltac:(discriminate)). pose proof (Hb bLIN ltac:(discriminate)).
    destruct k; cbn [cardinality] in *.
    - destruct Hc as (H3 & H4 & H5). repeat split; try lia. intros Ho Hl. specialize (H5 Ho). lia.
    - specialize (Hk eq_refl). destruct Hc as (_ & H4 & H5 & _). repeat split; try lia.
  Qed.
  Definition bcount (l : list base) (x : base) : Z := Z.of_nat (count_occ base_eq_dec l x).
  Lemma phase_c C k bts cts l : okC C (seed k) -> (forall x, In x cts -> good x /\ is_kind k x = false) -> cardinality offset k bts (length cts) ->
    (k = KProd -> cget bts bC = 0) -> (forall x, 0 <= cget bts x) ->
    (forall x, In x l -> In x bases /\ x <> bPER /\ x <> bWN) ->
    forall i b, wf_counter b -> cget b bWN = 0 -> (forall x, x <> bPER -> x <> bWN -> cget b x + bcount l x = cget bts x) ->
    cget b bPER + cget b bWN = cget bts bPER + Z.of_nat (length l) + cget bts bWN ->
    terms b cts <> 1 -> Reach i (plug C (Comm k b cts)) ->
    exists b', wf_counter b' /\ cget b' bWN = 0 /\ (forall x, x <> bPER -> x <> bWN -> cget b' x = cget bts x)
      /\ cget b' bPER = cget bts bPER + cget bts bWN /\ Reach (length l + i) (plug C (Comm k b' cts)).
  Proof.
    intros O Hcts Hcard Hk Hnn. induction l as [|B l IH]; intros Hl i b Wb Hw Hb Hp HT R.
    - exists b. split; [exact Wb|]. split; [exact Hw|]. split; [|split; [cbn [length] in Hp; lia|exact R]].
      intros x H1 H2. specialize (Hb x H1 H2). unfold bcount in Hb. cbn [count_occ] in Hb. lia.
    - destruct (Hl B (or_introl eq_refl)) as (HB & NP & NW).
      set (b2 := cadd (cpos b) (swap_counter bPER B)).
      assert (P0 : 0 < cget b bPER). { pose proof (Hnn bPER). pose proof (Hnn bWN). cbn [length] in Hp. lia. }
      assert (D : replace_one b b2 bPER B) by (eapply swap_args_spec; [exact Wb|congruence|exact P0|reflexivity]).
      destruct D as [W2 D].
      assert (Ct : forall x, bcount (B :: l) x = delta B x + bcount l x).
      { intros x. unfold bcount, delta. cbn [count_occ]. destruct (base_eq_dec B x) as [<-|Ne]; [rewrite base_eqb_refl; lia|].
        apply base_eqb_false in Ne. rewrite Ne. lia. }
      assert (DP : forall x, x <> bPER -> delta bPER x = 0).
      { intros x Hx. unfold delta. replace (base_eqb bPER x) with false; [reflexivity|]. symmetry. apply base_eqb_false. congruence. }
      assert (D0 : forall x, 0 <= delta B x) by (intros x; unfold delta; destruct (base_eqb B x); lia).
      assert (W0' : cget b2 bWN = 0).
      { rewrite D, (DP bWN) by discriminate. rewrite Hw. unfold delta. replace (base_eqb B bWN) with false; [reflexivity|].
        symmetry. apply base_eqb_false. exact NW. }
      assert (B2 : forall x, x <> bPER -> x <> bWN -> cget b2 x + bcount l x = cget bts x).
      { intros x H1 H2. rewrite D, (DP x H1). specialize (Hb x H1 H2). rewrite Ct in Hb. lia. }
      assert (P2 : cget b2 bPER = cget b bPER - 1).
      { rewrite D. unfold delta. rewrite base_eqb_refl. replace (base_eqb B bPER) with false; [lia|]. symmetry. apply base_eqb_false. exact NP. }
      assert (T2 : terms b2 cts <> 1).
      { rewrite terms_bsum, bsum_expand in *. rewrite !D. unfold delta. destruct B; try congruence; cbn [base_eqb]; lia. }
      cbn [length Nat.add]. rewrite plus_n_Sm. apply IH with (b := b2).
      + intros x Hx. apply Hl. right. exact Hx.
      + exact W2.
      + exact W0'.
      + exact B2.
      + cbn [length] in Hp. lia.
      + exact T2.
      + eapply swap_one; [exact R|exact P0|exact NP|exact HB| |exact D]. apply ok_comm; [exact O| |].
        * apply normal_iff. split; [exact W2|]. split.
          -- eapply card_below; [exact Hcard| |exact W0'|exact Hk]. intros x Hx. split; [apply wf_nonneg, W2|].
             destruct (base_eq_dec x bWN) as [->|NW']; [rewrite W0'; apply Hnn|]. pose proof (B2 x Hx NW'). unfold bcount in *. lia.
          -- intros x Hx. destruct (Hcts x Hx) as [[G1 G2] G3]. auto.
        * exact T2.
  Qed.
  Lemma reord_fill f x y : reord x y -> reord (fill f x) (fill f y).
  Proof.
    intros R. destruct f as [k b c|o r|o l]; cbn [fill].
    - apply reord_comm_iff. split; [intros z; reflexivity|]. apply lreord_cons; [exact R|apply lreord_refl].
    - constructor; [constructor; exact R|destruct r; constructor; apply reord_refl].
    - constructor; [destruct l; constructor; apply reord_refl|constructor; exact R].
  Qed.
  Lemma reord_plug C : forall x y, reord x y -> reord (plug C x) (plug C y).
  Proof. induction C as [|f C IH]; intros x y R; cbn [plug]; [exact R|]. apply IH, reord_fill, R. Qed.

  Lemma costs_app l m : costs (l ++ m) = (costs l + costs m)%nat.
  Proof. induction l as [|x l IH]; [reflexivity|]. cbn [app costs fold_right]. unfold costs in *. rewrite IH. lia. Qed.
  Lemma costs_rev l : costs (rev l) = costs l.
  Proof. induction l as [|x l IH]; [reflexivity|]. cbn [rev]. rewrite costs_app, IH. cbn [costs fold_right]. unfold costs. lia. Qed.
  Lemma costs_bound l : (forall x, In x l -> (2 <= symbols x)%nat) -> (costs l + (if slow then 9 else 3) * length l <= (if slow then 6 else 3) * total_of symbols l)%nat.
  Proof.
    induction l as [|x l IH]; intros H; [cbn; lia|]. pose proof (H x (or_introl eq_refl)). specialize (IH (fun y Hy => H y (or_intror Hy))).
    unfold costs, total_of, cost in *. cbn [fold_right length] in *. destruct slow; lia.
  Qed.
  Lemma grow_comm k bts cts : good (Comm k bts cts) -> 0 < terms bts cts -> (forall b, 0 < cget bts b -> In b bases) ->
    (forall x, In x cts -> grows x /\ (2 <= symbols x)%nat) -> grows (Comm k bts cts).
  Proof.
    intros [N S] T0 Hb Hg i C k0 O Kk R. assert (k0 = k) as -> by (symmetry; apply Kk; destruct k; reflexivity).
    rewrite singleton_comm in S. pose proof (proj1 (normal_iff offset _) N) as (Wb & Hcard & Hk).
    assert (NN : forall x, 0 <= cget bts x) by (intros x; apply wf_nonneg, Wb).
    assert (Sg : forall x, is_sigmoid x = true -> cget bts x = 0).
    { intros x Hx. pose proof (NN x). destruct (Z.eq_dec (cget bts x) 0) as [E|E]; [exact E|]. exfalso.
      assert (Hin : In x bases) by (apply Hb; lia). pose proof (proj1 GB x Hin). congruence. }
    pose proof (Sg bS eq_refl) as S1. pose proof (Sg bSr eq_refl) as S2. pose proof (Sg bSI eq_refl) as S3. pose proof (Sg bSIr eq_refl) as S4.
    assert (Hcts : forall x, In x cts -> good x /\ is_kind k x = false).
    { intros x Hx. destruct (Hk x Hx) as (A1 & A2 & A3). split; [split|]; assumption. }
    rewrite terms_bsum, bsum_expand, S1, S2, S3, S4 in T0, S.
    pose proof (NN bWN). pose proof (NN bC). pose proof (NN bLIN). pose proof (NN bSE). pose proof (NN bPER).
    assert (HC : k = KProd -> cget bts bC = 0).
    { intros ->. destruct Hcard as (C1 & C2 & C3 & C4). destruct (Z.eq_dec (cget bts bC) 0) as [E|E]; [exact E|]. exfalso.
      destruct C4 as [C4 C5]; [lia|]. pose proof (C5 bWN ltac:(discriminate) eq_refl). pose proof (C5 bLIN ltac:(discriminate) eq_refl).
      pose proof (C5 bSE ltac:(discriminate) eq_refl). pose proof (C5 bPER ltac:(discriminate) eq_refl). rewrite C4 in S. lia. }
    assert (HW : cget bts bWN <= 1).
    { destruct k; cbn [cardinality] in Hcard; [lia|]. destruct Hcard as (C1 & _). destruct (Z.eq_dec (cget bts bWN) 0); [lia|]. destruct C1; lia. }
    set (n := Z.to_nat (cget bts bWN + cget bts bC + cget bts bLIN + cget bts bSE + cget bts bPER)).
    assert (En : Z.of_nat n = cget bts bWN + cget bts bC + cget bts bLIN + cget bts bSE + cget bts bPER) by (unfold n; lia).
    assert (Hlen : (2 <= n + length cts)%nat) by lia.
    assert (HsC : symbols (Comm k bts cts) = (1 + n + total_of symbols cts)%nat).
    { cbn [symbols]. f_equal. f_equal. unfold n, bases_in. cbn [all_bases map concat]. rewrite !app_length, !repeat_length. cbn [length].
      rewrite S1, S2, S3, S4. lia. }
    assert (HcR : (costs (rev cts) + (if slow then 9 else 3) * length cts <= (if slow then 6 else 3) * total_of symbols cts)%nat).
    { rewrite costs_rev. apply costs_bound. intros x Hx. apply Hg, Hx. }
    assert (R1 : Reach (length cts + n - 2 + i) (plug C (Comm k (pers (length (rev cts) + n)) []))).
    { rewrite rev_length. replace (pers (length cts + n)) with (pers (Datatypes.S (Datatypes.S (length cts + n - 2)))) by (f_equal; lia). apply phase_a; assumption. }
    apply phase_b in R1; [|exact O| |intros ? []|rewrite rev_length; cbn [length]; lia].
    2:{ intros x Hx. apply in_rev in Hx. destruct (Hcts x Hx). split; [assumption|]. split; [assumption|]. apply Hg, Hx. }
    rewrite rev_append_rev, rev_involutive, app_nil_r in R1.
    set (l := repeat bC (Z.to_nat (cget bts bC)) ++ repeat bLIN (Z.to_nat (cget bts bLIN)) ++ repeat bSE (Z.to_nat (cget bts bSE))).
    assert (Cl : forall x, bcount l x = match x with bC => cget bts bC | bLIN => cget bts bLIN | bSE => cget bts bSE | _ => 0 end).
    { intros x. unfold bcount, l. rewrite !count_occ_app, !count_repeat. destruct x; cbn [base_eqb]; lia. }
    destruct (phase_c C k bts cts l O Hcts Hcard HC NN) with (i := (costs (rev cts) + (length cts + n - 2 + i))%nat) (b := pers n) as (b' & W' & Hw' & Hx' & Hp' & R2).
    - intros x Hx. assert (Hc : 0 < bcount l x).
      { unfold bcount. apply (count_occ_In base_eq_dec) in Hx. lia. }
      rewrite Cl in Hc. destruct x; try lia; (split; [apply Hb; lia|split; discriminate]).
    - apply pers_wf.
    - apply cget_pers.
    - intros x H4 H5. rewrite Cl, cget_pers. destruct x; cbn [base_eqb]; try congruence; lia.
    - rewrite !cget_pers. cbn [base_eqb]. unfold l. rewrite !app_length, !repeat_length. lia.
    - rewrite terms_pers. lia.
    - exact R1.
    - assert (Hll : Z.of_nat (length l) = cget bts bC + cget bts bLIN + cget bts bSE) by (unfold l; rewrite !app_length, !repeat_length; lia).
      destruct (Z.eq_dec (cget bts bWN) 0) as [E|E].
      + eapply reach_le; [|eapply reach_reord; [|exact R2]]; [unfold cost; rewrite HsC; destruct slow; lia|]. apply reord_plug, reord_comm_iff. split; [|apply lreord_refl]. intros x.
        destruct (base_eq_dec x bPER) as [->|D1]; [lia|]. destruct (base_eq_dec x bWN) as [->|D2]; [lia|]. apply Hx'; assumption.
      + apply (reach_le (Datatypes.S (length l + (costs (rev cts) + (length cts + n - 2 + i))))); [unfold cost; rewrite HsC; destruct slow; lia|].
        eapply (swap_one _ C k b' cts bWN bts); [exact R2|lia|discriminate|apply Hb; lia| |].
        * apply ok_comm; [exact O|exact N|]. rewrite terms_bsum, bsum_expand, S1, S2, S3, S4. lia.
        * intros x. unfold delta. destruct (base_eq_dec x bPER) as [->|D1]; [cbn [base_eqb]; lia|].
          destruct (base_eq_dec x bWN) as [->|D2]; [cbn [base_eqb]; lia|].
          rewrite (Hx' x D1 D2). destruct x; try congruence; cbn [base_eqb]; lia.
  Qed.

  Lemma other_other k : other (other k) = k. Proof. destruct k; reflexivity. Qed.
  Lemma grow_free i C k x : (forall k', okC C (seed k')) -> grows x -> Reach i (plug C (seed k)) -> Reach (cost x + ((if slow then 5 else 2) + i)) (plug C x).
  Proof.
    intros O G R. destruct x as [kx b c|o l r]; [|apply (reach_le (cost (Change o l r) + i)); [lia|]; apply (G i C k); [apply O|discriminate|exact R]].
    assert (K : forall k', is_kind k' (Comm kx b c) = true -> k' = kx) by (intros k' H; apply kind_eqb_spec in H; exact H).
    destruct (kind_eqb k kx) eqn:E; [apply kind_eqb_spec in E; subst k; apply (reach_le (cost (Comm kx b c) + i)); [lia|]; apply (G i C kx); auto|].
    assert (kx = other k) as -> by (destruct k, kx; reflexivity || discriminate). apply (G _ C (other k)); auto.
  Qed.
  Lemma grow_change o l r : good (Change o l r) -> (forall b, l = inl b \/ r = inl b -> In b bases) ->
    (forall x, l = inr x \/ r = inr x -> grows x /\ (2 <= symbols x)%nat) -> grows (Change o l r).
  Proof.
    intros [N _] Hb Hg i C k O _ R. pose proof (change_inv _ _ _ N) as HI.
    assert (OK : forall l' r', (forall x, l' = inr x \/ r' = inr x -> good x) -> okC C (Change o l' r')).
    { intros l' r' H. apply (change_ok C (seed k)); [exact O|exact H]. }
    destruct (Hwrap i C k o R O) as [WL WR']. set (w := (if slow then 4 else 2)%nat) in *. set (f := (if slow then 5 else 2)%nat) in *. set (d := (if slow then 3 else 1)%nat) in *.
    assert (Left : forall x, good x -> grows x -> Reach (cost x + (f + (w + i))) (plug C (Change o (inr x) (inl bLIN)))).
    { intros x Gx Hx. apply (grow_free (w + i) (FLeft o (inl bLIN) :: C) k x); [|exact Hx|exact WL]. intros k'. cbn [okC]. unfold okC. cbn [plug fill].
      apply OK. intros y [[= <-]|[=]]. apply seed_normal. }
    destruct l as [a|x], r as [b|y].
    - assert (R1 : Reach (d + (w + i)) (plug C (Change o (inl a) (inl bLIN)))).
      { eapply Hdrop; [exact WL|apply Hb; auto|apply OK; intros ? [[=]|[=]]]. }
      eapply reach_le; [|eapply swap_right; [exact R1|apply Hb; auto|apply OK; intros ? [[=]|[=]]]].
      unfold cost, w, d. cbn [symbols]. destruct slow; lia.
    - destruct (Hg y (or_intror eq_refl)) as [Gy Sy].
      assert (R1 : Reach (cost y + (f + (w + i))) (plug C (Change o (inl bLIN) (inr y)))).
      { apply (grow_free (w + i) (FRight o (inl bLIN) :: C) k y); [|exact Gy|exact WR']. intros k'. unfold okC. cbn [plug fill].
        apply OK. intros z [[=]|[= <-]]. apply seed_normal. }
      eapply reach_le; [|eapply swap_left; [exact R1|apply Hb; auto|apply OK; intros z Hz; apply HI; exact Hz]].
      unfold cost, w, f. cbn [symbols]. destruct slow; lia.
    - destruct (Hg x (or_introl eq_refl)) as [Hx Sx].
      assert (R1 : Reach (cost x + (f + (w + i))) (plug C (Change o (inr x) (inl bLIN)))) by (apply Left; [apply HI; auto|exact Hx]).
      eapply reach_le; [|eapply swap_right; [exact R1|apply Hb; auto|apply OK; intros z Hz; apply HI; exact Hz]].
      unfold cost, w, f. cbn [symbols]. destruct slow; lia.
    - assert (Gx : good x) by (apply HI; auto). destruct (Hg x (or_introl eq_refl)) as [Hx Sx]. destruct (Hg y (or_intror eq_refl)) as [Hy Sy].
      assert (R1 : Reach (cost x + (f + (w + i))) (plug C (Change o (inr x) (inl bLIN)))) by (apply Left; [exact Gx|exact Hx]).
      assert (R2 : Reach (S (cost x + (f + (w + i)))) (plug C (Change o (inr x) (inl bPER)))).
      { eapply swap_right; [exact R1|apply per_in|apply OK; intros z [[= <-]|[=]]; exact Gx]. }
      assert (O3 : forall k', okC C (Change o (inr x) (inr (seed k')))).
      { intros k'. apply OK. intros z [[= <-]|[= <-]]; [exact Gx|apply seed_normal]. }
      pose proof (right_seed _ C o (inr x) k R2 (O3 k)) as R3.
      eapply reach_le; [|eapply (grow_free _ (FRight o (inr x) :: C) k y); [exact O3|exact Hy|exact R3]].
      unfold cost, w, f. cbn [symbols]. destruct slow; lia.
  Qed.
  Lemma symbols_pos x : (1 <= symbols x)%nat. Proof. destruct x; cbn [symbols]; lia. Qed.
  Lemma symbols_ne x : wf x -> non_empty x -> (2 <= symbols x)%nat.
  Proof.
    intros W NE. destruct x as [k b c|o l r].
    - specialize (NE _ _ _ (node_self _)). apply wf_comm in W as [Wb _]. destruct c as [|y c].
      + rewrite terms_bsum, bsum_expand in NE. cbn [length] in NE. cbn [symbols total_of fold_right]. unfold bases_in. cbn [all_bases map concat].
        rewrite !app_length, !repeat_length. unfold total_of. cbn [length fold_right]. lia.
      + cbn [symbols total_of fold_right]. pose proof (symbols_pos y). lia.
    - cbn [symbols]. destruct l as [|x], r as [|y]; try lia; pose proof (symbols_pos x); lia.
  Qed.
  Lemma grows_all t : normal offset t -> ~ singleton t -> non_empty t -> over bases t -> grows t.
  Proof.
    induction t as [k bts cts IH|o l r IHl IHr] using kex_ind'; intros N S NE OV.
    - pose proof (proj1 (normal_iff offset _) N) as (Wb & Hcard & Hk).
      apply grow_comm; [split; assumption|eapply NE; constructor| |].
      + intros b Hb. apply OV. left. exists k, bts, cts. split; [constructor|exact Hb].
      + intros x Hx. destruct (Hk x Hx) as (A1 & A2 & _). assert (Nx : node x (Comm k bts cts)) by (eapply node_comm; [exact Hx|constructor]).
        assert (NEx : non_empty x) by (intros k' b' c' Hn; eapply NE; eapply node_trans; eauto).
        split; [|apply symbols_ne; [apply (normal_wf offset), A1|exact NEx]].
        eapply IH; [exact Hx|exact A1|exact A2|exact NEx|].
        intros b Hb. apply OV. destruct Hb as [(k' & b' & c' & Hn & H)|(c' & l' & r' & Hn & H)];
            [left; exists k', b', c'|right; exists c', l', r']; (split; [eapply node_trans; eauto|exact H]).
    - pose proof (change_inv _ _ _ N) as HI. apply grow_change; [split; assumption| |].
      + intros b Hb. apply OV. right. exists o, l, r. split; [constructor|exact Hb].
      + intros x Hx. assert (Nx : node x (Change o l r)) by (destruct Hx as [->| ->]; [apply node_left|apply node_right]; constructor).
        destruct (HI x Hx) as [A1 A2].
        assert (NEx : non_empty x) by (intros k' b' c' Hn; eapply NE; eapply node_trans; eauto).
        split; [|apply symbols_ne; [apply (normal_wf offset), A1|exact NEx]].
        assert (G : (normal offset x -> ~ singleton x -> non_empty x -> over bases x -> grows x) -> grows x).
        { intros H. apply H; [exact A1|exact A2|exact NEx|].
          intros b Hb. apply OV. destruct Hb as [(k' & b' & c' & Hn & Hc)|(c' & l' & r' & Hn & Hc)];
              [left; exists k', b', c'|right; exists c', l', r']; (split; [eapply node_trans; eauto|exact Hc]). }
        apply G. destruct Hx as [->| ->]; [apply IHl|apply IHr]; reflexivity.
  Qed.

  (** From a single PER. *)
  Lemma from_per c0 t : Reach c0 (leaf bPER) -> normal offset t -> ~ singleton t -> non_empty t -> over bases t -> Reach (c0 + (if slow then 6 * symbols t - 4 else 3 * symbols t - 2)) t.
  Proof.
    intros R N S NE OV. assert (Hs : forall k, okC [] (seed k)) by (intros k; apply seed_normal).
    assert (R1 : Reach (Datatypes.S c0) (plug [] (seed KSum))).
    { apply (step_same _ [] (leaf bPER)); [exact R| |apply Hs]. intros n' Wn Rn.
      apply reord_sym in Rn. apply reord_comm_inv in Rn as (b' & c' & c'' & -> & Eb & P & F).
      apply wf_comm in Wn as [Wb Wc].
      exists (mk offset KSum (cadd (cpos b') (counter_of [bPER])) c'). split; [apply (by_plus bPER); [apply per_in|left; reflexivity]|].
      apply mk_reord; [apply cadd_wf; [apply cpos_nodup, wf_nodup, Wb|apply counter_of_nodup]|exact Wc|apply seed_normal| |apply lreord_sym; exists c''; auto].
      intros x. rewrite (wf_cpos _ Wb), cget_cadd by (apply wf_nodup, Wb || apply counter_of_nodup). rewrite <- Eb. destruct x; reflexivity. }
    pose proof (symbols_ne t (normal_wf offset t N) NE).
    eapply reach_le; [|eapply (grow_free _ [] KSum t Hs); [apply grows_all; assumption|exact R1]]. unfold cost. destruct slow; lia.
  Qed.
  Lemma from_seed c0 k t : Reach c0 (seed k) -> normal offset t -> ~ singleton t -> non_empty t -> over bases t ->
    Reach (cost t + ((if slow then 5 else 2) + c0)) t.
  Proof.
    intros R N S NE OV. apply (grow_free c0 [] k t); [intros k'; apply seed_normal|apply grows_all; assumption|exact R].
  Qed.
  End Grow.

  (** ** With all the rules *)
  Lemma reach_single b : singles -> In b bases -> Reach 1 (leaf b).
  Proof.
    intros HS Hb. assert (R0 : Reach 0 (plug [] e0)). { exists 0%nat, e0. split; [lia|]. split; [constructor|]. split; [exact W0|apply reord_refl]. }
    assert (E : standardise offset (leaf b) = leaf b) by (destruct b, offset; reflexivity). rewrite <- E.
    apply (move 0 [] e0 (leaf b) R0); [|apply wf_leaf]. intros n' _ _. exists (leaf b). split; [apply (by_single b n' HS Hb)|apply reord_refl].
  Qed.
  Lemma over_leaf b : over bases (leaf b) -> In b bases.
  Proof. intros OV. apply OV. left. exists KSum, [(b, 1)], []. split; [constructor|]. rewrite cget_cons, base_eqb_refl. lia. Qed.
  (** Three expansions per symbol, less one. *)
  Theorem complete t : enough_rules offset bases noC rules -> searchable offset bases t -> Reach (3 * symbols t - 1) t.
  Proof.
    intros (_ & _ & _ & HS & HC) (N & NE & OV & [S|(b & ->)]).
    - pose proof (symbols_ne t (normal_wf offset t N) NE).
      eapply reach_le; [|apply (from_per false) with (c0 := 1%nat); [| | |apply (reach_single bPER HS per_in)|exact N|exact S|exact NE|exact OV]].
      + cbn iota. lia.
      + intros i C k o R O. apply wrap; assumption.
      + intros i C k O1 O2 R. apply flip; assumption.
      + intros i C o k r B R IB O. eapply left_leaf; eassumption.
    - apply (reach_le 1); [cbn [symbols]; lia|]. apply reach_single; [exact HS|]. apply over_leaf, OV.
  Qed.
End WithRules.
