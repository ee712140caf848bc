(** Two runs with the same scores agree (C62). *)
From Coq Require Import String List Bool Arith ZArith Lia Sorted Permutation.
From Verif Require Import Py UtilModel UtilSpec UtilProofs KexModel KexSpec KexProofs OpsModel OpsSpec OpsProofs SearchModel SearchSpec SearchProofs
  ReachSpec ReachProofs ReachCong ReachSearch RunSpec.
Import ListNotations.
Local Open Scope list_scope.
Local Open Scope Z_scope.

(** ** Multiplicities up to == *)
Definition cnt (x : kex) (l : list kex) : nat := length (filter (keq x) l).
Definition mseq (l m : list kex) : Prop := forall x, cnt x l = cnt x m.
Lemma cnt_cons x a l : cnt x (a :: l) = ((if keq x a then 1 else 0) + cnt x l)%nat.
Proof. unfold cnt. cbn [filter]. destruct (keq x a); reflexivity. Qed.
Lemma cnt_app x l m : cnt x (l ++ m) = (cnt x l + cnt x m)%nat.
Proof. unfold cnt. rewrite filter_app, app_length. reflexivity. Qed.
Lemma cnt_perm x l m : Permutation l m -> cnt x l = cnt x m.
Proof. induction 1; rewrite ?cnt_cons in *; lia. Qed.
Lemma keq_cong x a b : keq a b = true -> keq x a = keq x b.
Proof.
  intros E. destruct (keq x a) eqn:E1.
  - symmetry. exact (keq_trans _ _ _ E1 E).
  - destruct (keq x b) eqn:E2; [|reflexivity]. rewrite keq_sym in E. rewrite (keq_trans _ _ _ E2 E) in E1. discriminate.
Qed.
Lemma cnt_pos x l : (0 < cnt x l)%nat <-> exists y, In y l /\ keq x y = true.
Proof.
  induction l as [|a l IH]; [split; [cbn; lia|intros (? & [] & _)]|]. rewrite cnt_cons. split.
  - destruct (keq x a) eqn:E; [intros _; exists a; split; [left; reflexivity|exact E]|].
    intros H. destruct (proj1 IH ltac:(lia)) as (y & Hy & Ey). exists y. split; [right; exact Hy|exact Ey].
  - intros (y & [->|Hy] & E); [rewrite E; lia|]. assert (0 < cnt x l)%nat by (apply IH; eauto). lia.
Qed.
Lemma mseq_forall2 l m : Forall2 (fun a b => keq a b = true) l m -> mseq l m.
Proof. intros F x. induction F as [|a b l m E F IH]; [reflexivity|]. rewrite !cnt_cons, IH, (keq_cong x a b E). reflexivity. Qed.
Lemma mseq_multiset l m : same_multiset l m -> mseq l m.
Proof. intros (m' & P & F) x. rewrite (mseq_forall2 _ _ F x). symmetry. apply cnt_perm, P. Qed.
Lemma mseq_cancel a b l m : keq a b = true -> mseq (a :: l) (b :: m) -> mseq l m.
Proof. intros E H x. specialize (H x). rewrite !cnt_cons, (keq_cong x a b E) in H. lia. Qed.
Lemma mseq_multiset' l : forall m, mseq l m -> same_multiset l m.
Proof.
  induction l as [|a l IH]; intros m H.
  - destruct m as [|b m]; [exists []; auto|]. specialize (H b). rewrite cnt_cons, keq_refl in H. cbn in H. lia.
  - assert (Hp : (0 < cnt a m)%nat) by (rewrite <- (H a), cnt_cons, keq_refl; lia). apply cnt_pos in Hp as (b & Hb & E).
    apply in_split in Hb as (m1 & m2 & ->). assert (P : Permutation (m1 ++ b :: m2) (b :: m1 ++ m2)) by (symmetry; apply Permutation_middle).
    destruct (IH (m1 ++ m2)) as (m' & P' & F).
    { apply (mseq_cancel a b); [exact E|]. intros x. rewrite (H x). apply cnt_perm, P. }
    exists (b :: m'). split; [rewrite P; constructor; exact P'|constructor; assumption].
Qed.
(** Lists without repetitions: the same elements suffice. *)
Lemma cnt_distinct x l : ForallOrdPairs (fun a b => keq a b = false) l -> (cnt x l <= 1)%nat.
Proof.
  induction 1 as [|a l Ha F IH]; [cbn; lia|]. rewrite cnt_cons. destruct (keq x a) eqn:E; [|lia].
  enough (~ (0 < cnt x l)%nat) by lia. intros Hc. apply cnt_pos in Hc as (y & Hy & Ey). rewrite Forall_forall in Ha. specialize (Ha y Hy).
  rewrite keq_sym in E. rewrite (keq_trans _ _ _ E Ey) in Ha. discriminate.
Qed.
Lemma mseq_distinct l m : ForallOrdPairs (fun a b => keq a b = false) l -> ForallOrdPairs (fun a b => keq a b = false) m ->
  (forall x, In x l -> has_equal m x) -> (forall x, In x m -> has_equal l x) -> mseq l m.
Proof.
  intros Dl Dm H1 H2 x. pose proof (cnt_distinct x l Dl) as Al. pose proof (cnt_distinct x m Dm) as Am.
  assert (I1 : (0 < cnt x l -> 0 < cnt x m)%nat).
  { intros H. apply cnt_pos in H as (y & Hy & E). destruct (H1 y Hy) as (z & Hz & E'). apply cnt_pos. exists z. split; [exact Hz|exact (keq_trans _ _ _ E E')]. }
  assert (I2 : (0 < cnt x m -> 0 < cnt x l)%nat).
  { intros H. apply cnt_pos in H as (y & Hy & E). destruct (H2 y Hy) as (z & Hz & E'). apply cnt_pos. exists z. split; [exact Hz|exact (keq_trans _ _ _ E E')]. }
  lia.
Qed.
Lemma new_distinct {D} offset rules (st : results D) b : ForallOrdPairs (fun a b => keq a b = false) (new_exprs offset rules st b).
Proof. apply ordpairs_filter, unique_distinct. Qed.

(** ** Sorted lists *)
Section Sorted.
  Context {D D' Sc : Type} (sle : Sc -> Sc -> bool) (Hsle : total_preorder sle) (J : kex -> Sc -> Prop) (HJ : scores_identify sle J).
  Context (u : gp D -> res Sc) (u' : gp D' -> res Sc).
  Definition within {E} (v : gp E -> res Sc) (l : list (gp E)) : Prop := forall m, In m l -> exists s, v m = Ok s /\ J (gkex m) s.
  Lemma sorted_same (l : list (gp D)) : forall l' : list (gp D'), within u l -> within u' l' -> ranked sle u l -> ranked sle u' l' ->
    mseq (map gkex l) (map gkex l') -> same_exprs l l'.
  Proof.
    induction l as [|a l IH]; intros l' Wl Wl' Rl Rl' M.
    - destruct l' as [|b l']; [constructor|]. specialize (M (gkex b)). cbn [map] in M. rewrite cnt_cons, keq_refl in M. cbn in M. lia.
    - destruct l' as [|b l']; [specialize (M (gkex a)); cbn [map] in M; rewrite cnt_cons, keq_refl in M; cbn in M; lia|].
      destruct (Wl a (or_introl eq_refl)) as (sa & Ua & Ja). destruct (Wl' b (or_introl eq_refl)) as (sb & Ub & Jb).
      inversion Rl as [|? ? Rl1 Ra]; subst. inversion Rl' as [|? ? Rl1' Rb]; subst. rewrite Forall_forall in Ra, Rb.
      assert (Hrefl : forall s, sle s s = true) by (intros s; destruct (proj1 Hsle s s); assumption).
      assert (L1 : sle sa sb = true).
      { assert (Hp : (0 < cnt (gkex b) (map gkex (a :: l)))%nat) by (rewrite (M (gkex b)); cbn [map]; rewrite cnt_cons, keq_refl; lia).
        apply cnt_pos in Hp as (y & Hy & E). apply in_map_iff in Hy as (a' & <- & Ha'). destruct (Wl a' Ha') as (sa' & Ua' & Ja').
        destruct (proj1 (HJ _ _ _ _ Jb Ja') E) as [_ L]. eapply (proj2 Hsle); [|exact L].
        destruct Ha' as [<-|Ha']; [rewrite Ua in Ua'; injection Ua' as <-; apply Hrefl|].
        destruct (Ra a' Ha') as (x & y & Ex & Ey & Exy). rewrite Ua in Ex. rewrite Ua' in Ey. injection Ex as <-. injection Ey as <-. exact Exy. }
      assert (L2 : sle sb sa = true).
      { assert (Hp : (0 < cnt (gkex a) (map gkex (b :: l')))%nat) by (rewrite <- (M (gkex a)); cbn [map]; rewrite cnt_cons, keq_refl; lia).
        apply cnt_pos in Hp as (y & Hy & E). apply in_map_iff in Hy as (b' & <- & Hb'). destruct (Wl' b' Hb') as (sb' & Ub' & Jb').
        destruct (proj1 (HJ _ _ _ _ Ja Jb') E) as [_ L]. eapply (proj2 Hsle); [|exact L].
        destruct Hb' as [<-|Hb']; [rewrite Ub in Ub'; injection Ub' as <-; apply Hrefl|].
        destruct (Rb b' Hb') as (x & y & Ex & Ey & Exy). rewrite Ub in Ex. rewrite Ub' in Ey. injection Ex as <-. injection Ey as <-. exact Exy. }
      assert (E : keq (gkex a) (gkex b) = true) by (apply (HJ _ _ _ _ Ja Jb); auto).
      constructor; [exact E|]. apply IH; [intros m Hm; apply Wl; right; exact Hm|intros m Hm; apply Wl'; right; exact Hm|assumption|assumption|].
      cbn [map] in M. exact (mseq_cancel _ _ _ _ E M).
  Qed.
End Sorted.
Lemma same_exprs_map {D D'} (l : list (gp D)) (l' : list (gp D')) : same_exprs l l' -> mseq (map gkex l) (map gkex l').
Proof. intros F. apply mseq_forall2. induction F; cbn [map]; constructor; assumption. Qed.
Lemma forall2_firstn {A B} (R : A -> B -> Prop) l m : Forall2 R l m -> forall n, Forall2 R (firstn n l) (firstn n m).
Proof. induction 1; intros [|n]; cbn [firstn]; constructor; auto. Qed.
Lemma forall2_length {A B} (R : A -> B -> Prop) l m : Forall2 R l m -> length l = length m.
Proof. induction 1; cbn; congruence. Qed.
Lemma same_slice {A B} (R : A -> B -> Prop) l m b : Forall2 R l m -> Forall2 R (slice_to l b) (slice_to m b).
Proof. intros F. unfold slice_to. rewrite (forall2_length _ _ _ F). destruct (b <? 0); apply forall2_firstn, F. Qed.
Lemma forall2_in_l {A B} (R : A -> B -> Prop) l m x : Forall2 R l m -> In x l -> exists y, In y m /\ R x y.
Proof. induction 1; intros []; [subst; eexists; split; [left; reflexivity|assumption]|]. destruct IHForall2 as (z & Hz & Rz); [assumption|]. exists z. split; [right|]; assumption. Qed.
Lemma same_exprs_sym {D D'} (l : list (gp D)) (l' : list (gp D')) : same_exprs l l' -> same_exprs l' l.
Proof. intros F. induction F; constructor; [rewrite keq_sym|]; assumption. Qed.

(** ** New expressions *)
Section New.
  Context {D D' : Type} (offset : bool) (rules rules' : list rule).
  Context (Hr : forall e e', wf e -> wf e' -> keq e e' = true -> same_up_to_eq (expand offset rules e) (expand offset rules' e')).
  Context (st : results D) (st' : results D') (b : Z).
  Context (We : forall m, In m (not_expanded st) -> wf (gkex m)) (We' : forall m, In m (not_expanded st') -> wf (gkex m)).
  Context (Hn : same_exprs (not_expanded st) (not_expanded st')) (Ht : mseq (tested_k_exprs st) (tested_k_exprs st')).
  Lemma new_incl x : In x (new_exprs offset rules st b) -> has_equal (new_exprs offset rules' st' b) x.
  Proof.
    intros Hx. pose proof (new_from offset rules st b x Hx) as (m & Hm & Hxm).
    destruct (forall2_in_l _ _ _ m (same_slice _ _ _ b Hn) Hm) as (m' & Hm' & E).
    destruct (Hr (gkex m) (gkex m')) as [H1 _]; [apply We, (slice_in _ b), Hm|apply We', (slice_in _ b), Hm'|exact E|].
    destruct (H1 x Hxm) as (y & Hy & Exy).
    destruct (new_covers offset rules' st' b m' y Hm' Hy) as (z & Hz & Eyz). assert (Exz : keq x z = true) by exact (keq_trans _ _ _ Exy Eyz).
    apply in_app_iff in Hz as [Hz|Hz]; [|exists z; auto]. exfalso.
    assert (C : (0 < cnt x (tested_k_exprs st))%nat) by (rewrite (Ht x); apply cnt_pos; eauto).
    apply cnt_pos in C as (t & Htt & E'). unfold new_exprs in Hx. apply filter_In in Hx as [_ Hx]. apply negb_true_iff in Hx.
    assert (existsb (fun t => keq t x) (tested_k_exprs st) = true) by (apply existsb_exists; exists t; rewrite keq_sym; auto). congruence.
  Qed.
End New.
Lemma new_same {D D'} offset rules rules' (st : results D) (st' : results D') b :
  (forall e e', wf e -> wf e' -> keq e e' = true -> same_up_to_eq (expand offset rules e) (expand offset rules' e')) ->
  (forall m, In m (not_expanded st) -> wf (gkex m)) -> (forall m, In m (not_expanded st') -> wf (gkex m)) ->
  same_exprs (not_expanded st) (not_expanded st') -> mseq (tested_k_exprs st) (tested_k_exprs st') ->
  mseq (new_exprs offset rules st b) (new_exprs offset rules' st' b).
Proof.
  intros Hr We We' Hn Ht. apply mseq_distinct; [apply new_distinct|apply new_distinct| |]; intros x.
  - apply new_incl; assumption.
  - apply new_incl; [|assumption|assumption|apply same_exprs_sym, Hn|intros y; symmetry; apply Ht].
    intros e e' W W' E. rewrite keq_sym in E. destruct (Hr e' e W' W E) as [H1 H2]. split.
    + intros y Hy. destruct (H2 y Hy) as (z & Hz & Ez). exists z. rewrite keq_sym. auto.
    + intros y Hy. destruct (H1 y Hy) as (z & Hz & Ez). exists z. rewrite keq_sym. auto.
Qed.

(** ** One run *)
Section One.
  Context {D Sc W : Type} (sle : Sc -> Sc -> bool) (Hsle : total_preorder sle).
  Context (next : W -> nat) (fit : fitter D W) (Hfit : fresh_fitter next fit) (Hall : fits_each fit)
          (offset : bool) (rules : list rule) (Wr : wf_rules rules) (u : gp D -> res Sc) (J : kex -> Sc -> Prop).
  (** What a state satisfies: the invariant, well-formed expressions, all judged by J. *)
  Definition good_state (w : W * heap) (st : results D) : Prop :=
    inv sle next u w st /\ Permutation (map gkex (concat (tested_models st))) (tested_k_exprs st) /\ (forall x, In x (tested_k_exprs st) -> wf x).
  Lemma good_wf w st m : good_state w st -> In m (concat (tested_models st)) -> wf (gkex m).
  Proof. intros (_ & P & Wf) H. apply Wf. eapply Permutation_in; [exact P|]. apply in_map, H. Qed.
  Lemma good_ne w st m : good_state w st -> In m (not_expanded st) -> wf (gkex m).
  Proof. intros G H. eapply good_wf; [exact G|]. eapply ne_tested; [apply G|exact H]. Qed.
  Lemma new_wf w st b x : good_state w st -> In x (new_exprs offset rules st b) -> wf x.
  Proof.
    intros G Hx. apply new_from in Hx as (m & Hm & Hx). apply slice_in in Hm.
    destruct (expand_sound offset rules _ (good_ne _ _ _ G Hm) Wr x Hx) as (? & ? & ? & ? & _ & _ & _ & _ & _ & _ & Wx). exact Wx.
  Qed.
  Lemma round_good verbose beam r b st w w' st' : good_state w st -> search_round sle offset fit rules u verbose beam r b st w = (w', Ok st') -> good_state w' st'.
  Proof.
    intros G H. split; [eapply round_inv; [exact Hsle|exact Hfit|apply G|exact H]|].
    destruct (round_parts sle fit offset rules u _ _ _ _ _ _ _ _ H) as (w1 & fitted & w2 & rk & srt & Ef & Es & Ec & ->). cbn [tested_models tested_k_exprs]. split.
    - rewrite concat_app, map_app. apply Permutation_app; [apply G|]. cbn [concat]. rewrite app_nil_r.
      apply sorted_by_score_ok in Es as (S1 & _); [|exact Hsle]. rewrite S1. rewrite (Hall _ _ _ _ Ef). reflexivity.
    - intros x Hx. apply in_app_iff in Hx as [Hx|Hx]; [apply G, Hx|exact (new_wf _ _ _ _ G Hx)].
  Qed.
  (** The scores of a state's models are in J. *)
  Definition scored (st : results D) : Prop := forall m s, In m (concat (tested_models st)) -> u m = Ok s -> J (gkex m) s.
  Lemma scored_within w st l : good_state w st -> scored st -> (forall m, In m l -> In m (concat (tested_models st))) -> within J u l.
  Proof.
    intros (I & _) S Hl m Hm. destruct (i_cache _ _ _ _ _ I m (Hl m Hm)) as (s & Us & _). exists s. split; [exact Us|]. apply S; auto.
  Qed.
End One.

(** ** Two runs *)
Section Two.
  Context {D Sc W D' W' : Type} (sle : Sc -> Sc -> bool) (Hsle : total_preorder sle) (J : kex -> Sc -> Prop) (HJ : scores_identify sle J).
  Context (next : W -> nat) (fit : fitter D W) (Hfit : fresh_fitter next fit) (Hall : fits_each fit) (u : gp D -> res Sc).
  Context (next' : W' -> nat) (fit' : fitter D' W') (Hfit' : fresh_fitter next' fit') (Hall' : fits_each fit') (u' : gp D' -> res Sc).
  Context (offset : bool) (rules rules' : list rule) (Wr : wf_rules rules) (Wr' : wf_rules rules').
  Context (Hr : forall e e', wf e -> wf e' -> keq e e' = true -> same_up_to_eq (expand offset rules e) (expand offset rules' e')).

  Lemma concat_same (ls : list (list (gp D))) (ls' : list (list (gp D'))) : Forall2 same_exprs ls ls' -> same_exprs (concat ls) (concat ls').
  Proof. induction 1 as [|a b ls ls' E F IH]; cbn [concat]; [constructor|]. apply Forall2_app; assumption. Qed.

  Lemma round_same v v' bm bm' r r' b st w w1 st1 st' w' w1' st1' : good_state sle next u w st -> good_state sle next' u' w' st' ->
    same_outcome st st' -> scored u J st1 -> scored u' J st1' ->
    search_round sle offset fit rules u v bm r b st w = (w1, Ok st1) ->
    search_round sle offset fit' rules' u' v' bm' r' b st' w' = (w1', Ok st1') -> same_outcome st1 st1'.
  Proof.
    intros G G' [O1 O2 O3 O4 O5] S S' H H'.
    pose proof (round_good sle Hsle next fit Hfit Hall offset rules Wr u _ _ _ _ _ _ _ _ G H) as G1.
    pose proof (round_good sle Hsle next' fit' Hfit' Hall' offset rules' Wr' u' _ _ _ _ _ _ _ _ G' H') as G1'.
    destruct (round_parts sle fit offset rules u _ _ _ _ _ _ _ _ H) as (wa & fitted & wb & rk & srt & Ef & Es & Ec & E).
    destruct (round_parts sle fit' offset rules' u' _ _ _ _ _ _ _ _ H') as (wa' & fitted' & wb' & rk' & srt' & Ef' & Es' & Ec' & E').
    apply mseq_multiset in O3.
    assert (N : mseq (new_exprs offset rules st b) (new_exprs offset rules' st' b)).
    { apply new_same; [exact Hr| | |exact O5|exact O3]; intros m Hm; [exact (good_ne sle next u _ _ _ G Hm)|exact (good_ne sle next' u' _ _ _ G' Hm)]. }
    destruct (sorted_by_score_ok sle Hsle _ _ _ _ _ Es) as (P & R & _). destruct (sorted_by_score_ok sle Hsle _ _ _ _ _ Es') as (P' & R' & _).
    pose proof G1 as (I1 & _). pose proof G1' as (I1' & _).
    assert (Wn : forall l, (forall m, In m l -> In m (concat (tested_models st1))) -> within J u l) by (intros l; apply (scored_within sle next u J _ _ _ G1 S)).
    assert (Wn' : forall l, (forall m, In m l -> In m (concat (tested_models st1'))) -> within J u' l) by (intros l; apply (scored_within sle next' u' J _ _ _ G1' S')).
    assert (Hrk : same_exprs rk rk').
    { apply (sorted_same sle Hsle J HJ u u'); [apply Wn|apply Wn'|exact R|exact R'|].
      - intros m Hm. rewrite E. cbn [tested_models]. rewrite concat_app. apply in_app_iff. right. cbn [concat]. rewrite app_nil_r. exact Hm.
      - intros m Hm. rewrite E'. cbn [tested_models]. rewrite concat_app. apply in_app_iff. right. cbn [concat]. rewrite app_nil_r. exact Hm.
      - intros x. rewrite (cnt_perm x _ _ (Permutation_map gkex P)), (cnt_perm x _ _ (Permutation_map gkex P')), (Hall _ _ _ _ Ef), (Hall' _ _ _ _ Ef'). apply N. }
    assert (Ht : Forall2 same_exprs (tested_models st1) (tested_models st1')).
    { rewrite E, E'. cbn [tested_models]. apply Forall2_app; [exact O2|]. constructor; [exact Hrk|constructor]. }
    assert (Hin : forall m, In m (sorted_models st1) -> In m (concat (tested_models st1))) by (intros m Hm; eapply Permutation_in; [apply (i_perm _ _ _ _ _ I1)|exact Hm]).
    assert (Hin' : forall m, In m (sorted_models st1') -> In m (concat (tested_models st1'))) by (intros m Hm; eapply Permutation_in; [apply (i_perm _ _ _ _ _ I1')|exact Hm]).
    assert (Hs : same_exprs (sorted_models st1) (sorted_models st1')).
    { apply (sorted_same sle Hsle J HJ u u'); [apply Wn, Hin|apply Wn', Hin'|apply (i_ranked _ _ _ _ _ I1)|apply (i_ranked _ _ _ _ _ I1')|].
      intros x. rewrite (cnt_perm x _ _ (Permutation_map gkex (i_perm _ _ _ _ _ I1))), (cnt_perm x _ _ (Permutation_map gkex (i_perm _ _ _ _ _ I1'))).
      apply (same_exprs_map _ _ (concat_same _ _ Ht)). }
    assert (Hx : same_exprs (expanded st1) (expanded st1')).
    { rewrite E, E'. cbn [expanded]. apply Forall2_app; [exact O4|]. apply same_slice, O5. }
    constructor; [exact Hs|exact Ht| |exact Hx|].
    - apply mseq_multiset'. rewrite E, E'. cbn [tested_k_exprs]. intros x. rewrite !cnt_app, (O3 x), (N x). reflexivity.
    - apply (sorted_same sle Hsle J HJ u u').
      + apply Wn. intros m Hm. eapply ne_tested; [exact I1|exact Hm].
      + apply Wn'. intros m Hm. eapply ne_tested; [exact I1'|exact Hm].
      + exact (subseq_sorted _ _ _ (i_ne _ _ _ _ _ I1) (i_ranked _ _ _ _ _ I1)).
      + exact (subseq_sorted _ _ _ (i_ne _ _ _ _ _ I1') (i_ranked _ _ _ _ _ I1')).
      + intros x. pose proof (same_exprs_map _ _ Hs x) as A. pose proof (same_exprs_map _ _ Hx x) as B.
        rewrite <- (cnt_perm x _ _ (Permutation_map gkex (i_split _ _ _ _ _ I1))), <- (cnt_perm x _ _ (Permutation_map gkex (i_split _ _ _ _ _ I1'))) in A.
        rewrite !map_app, !cnt_app in A. lia.
  Qed.
  Lemma loop_same v v' bm bm' rbs : forall rbs' st w w1 st1 st' w' w1' st1', map snd rbs = map snd rbs' -> good_state sle next u w st -> good_state sle next' u' w' st' ->
    same_outcome st st' -> scored u J st1 -> scored u' J st1' ->
    search_loop sle offset fit rules u v bm rbs st w = (w1, Ok st1) ->
    search_loop sle offset fit' rules' u' v' bm' rbs' st' w' = (w1', Ok st1') -> same_outcome st1 st1'.
  Proof.
    induction rbs as [|[r b] t IH]; intros [|[r' b'] t'] st w w1 st1 st' w' w1' st1' Eb G G' O S S' H H'; try discriminate; cbn [search_loop] in H, H'.
    - injection H as <- <-. injection H' as <- <-. exact O.
    - cbn [map snd] in Eb. injection Eb as <- Eb.
      apply bindM_ok in H as (wm & sm & H1 & H). apply bindM_ok in H' as (wm' & sm' & H1' & H').
      assert (G1 : good_state sle next u wm sm) by exact (round_good sle Hsle next fit Hfit Hall offset rules Wr u _ _ _ _ _ _ _ _ G H1).
      assert (G1' : good_state sle next' u' wm' sm') by exact (round_good sle Hsle next' fit' Hfit' Hall' offset rules' Wr' u' _ _ _ _ _ _ _ _ G' H1').
      eapply IH; [exact Eb|exact G1|exact G1'| |exact S|exact S'|exact H|exact H'].
      eapply round_same; [exact G|exact G'|exact O| | |exact H1|exact H1'].
      + destruct (loop_keeps sle fit offset rules u _ _ _ _ _ _ _ H) as (more & Em & _). intros m s Hm. apply S. rewrite Em, concat_app. apply in_app_iff. auto.
      + destruct (loop_keeps sle fit' offset rules' u' _ _ _ _ _ _ _ H') as (more & Em & _). intros m s Hm. apply S'. rewrite Em, concat_app. apply in_app_iff. auto.
  Qed.

  Lemma start_good ks w w1 fitted w2 rk w3 srt : (forall x, In x ks -> wf x) ->
    fit (fst w) ks = (w1, Ok fitted) -> sorted_by_score sle u fitted (w1, snd w) = (w2, Ok rk) -> sorted_by_score sle u rk w2 = (w3, Ok srt) ->
    good_state sle next u w3 {| sorted_models := srt; tested_models := [rk]; tested_k_exprs := ks; expanded := []; not_expanded := srt |}.
  Proof.
    intros Wk Ef E1 E2. split; [exact (start_inv sle Hsle next fit Hfit u _ _ _ _ _ _ _ _ Ef E1 E2)|]. cbn [tested_models tested_k_exprs concat]. rewrite app_nil_r.
    split; [|exact Wk]. apply sorted_by_score_ok in E1 as (S1 & _); [|exact Hsle]. rewrite S1. rewrite (Hall _ _ _ _ Ef). reflexivity.
  Qed.
End Two.

Section Explore.
  Context {D Sc W D' W' : Type} (sle : Sc -> Sc -> bool) (Hsle : total_preorder sle).
  Context (next : W -> nat) (fit : fitter D W) (Hfit : fresh_fitter next fit) (Hall : fits_each fit) (u : gp D -> res Sc).
  Context (next' : W' -> nat) (fit' : fitter D' W') (Hfit' : fresh_fitter next' fit') (Hall' : fits_each fit') (u' : gp D' -> res Sc).
  Lemma explore_same offset rules rules' start ks start' ks' rounds beam v v' w w1 st w' w1' st' : wf_rules rules -> wf_rules rules' ->
    (forall e e', wf e -> wf e' -> keq e e' = true -> same_up_to_eq (expand offset rules e) (expand offset rules' e')) ->
    make_simple_kexs offset start = Ok ks -> make_simple_kexs offset start' = Ok ks' -> same_multiset ks ks' ->
    (forall x, In x ks -> wf x) -> (forall x, In x ks' -> wf x) ->
    explore_model_space sle offset fit rules u start rounds beam v w = (w1, Ok st) ->
    explore_model_space sle offset fit' rules' u' start' rounds beam v' w' = (w1', Ok st') ->
    scores_identify sle (fun e s => judged u st e s \/ judged u' st' e s) -> same_outcome st st'.
  Proof.
    intros Wr Wr' Hr Ek Ek' Hk Wk Wk' H H' HJ. set (J := fun e s => judged u st e s \/ judged u' st' e s) in *.
    pose proof (explore_inv sle Hsle next fit Hfit offset rules u _ _ _ _ _ _ _ H) as I. pose proof (explore_inv sle Hsle next' fit' Hfit' offset rules' u' _ _ _ _ _ _ _ H') as I'.
    assert (S : scored u J st).
    { intros m s Hm Hs. left. exists m. split; [eapply Permutation_in; [symmetry; apply (i_perm _ _ _ _ _ I)|exact Hm]|auto]. }
    assert (S' : scored u' J st').
    { intros m s Hm Hs. right. exists m. split; [eapply Permutation_in; [symmetry; apply (i_perm _ _ _ _ _ I')|exact Hm]|auto]. }
    destruct (explore_parts sle fit offset rules u _ _ _ _ _ _ _ H) as (k1 & wa & fitted & wb & rk & wc & srt & bs & Ek1 & Ef & E1 & E2 & Eb & E3).
    destruct (explore_parts sle fit' offset rules' u' _ _ _ _ _ _ _ H') as (k1' & wa' & fitted' & wb' & rk' & wc' & srt' & bs' & Ek1' & Ef' & E1' & E2' & Eb' & E3').
    rewrite Ek in Ek1. injection Ek1 as <-. rewrite Ek' in Ek1'. injection Ek1' as <-. rewrite Eb in Eb'. injection Eb' as <-.
    pose proof (start_good sle Hsle next fit Hfit Hall u _ _ _ _ _ _ _ _ Wk Ef E1 E2) as G.
    pose proof (start_good sle Hsle next' fit' Hfit' Hall' u' _ _ _ _ _ _ _ _ Wk' Ef' E1' E2') as G'.
    set (s0 := {| sorted_models := srt; tested_models := [rk]; tested_k_exprs := ks; expanded := []; not_expanded := srt |}) in *.
    set (s0' := {| sorted_models := srt'; tested_models := [rk']; tested_k_exprs := ks'; expanded := []; not_expanded := srt' |}) in *.
    assert (T : scored u J s0).
    { destruct (loop_keeps sle fit offset rules u _ _ _ _ _ _ _ E3) as (more & Em & _). intros m s Hm. apply S. rewrite Em, concat_app. apply in_app_iff. auto. }
    assert (T' : scored u' J s0').
    { destruct (loop_keeps sle fit' offset rules' u' _ _ _ _ _ _ _ E3') as (more & Em & _). intros m s Hm. apply S'. rewrite Em, concat_app. apply in_app_iff. auto. }
    destruct (sorted_by_score_ok sle Hsle _ _ _ _ _ E1) as (P1 & R1 & _). destruct (sorted_by_score_ok sle Hsle _ _ _ _ _ E1') as (P1' & R1' & _).
    destruct (sorted_by_score_ok sle Hsle _ _ _ _ _ E2) as (P2 & R2 & _). destruct (sorted_by_score_ok sle Hsle _ _ _ _ _ E2') as (P2' & R2' & _).
    assert (Wn : forall l, (forall m, In m l -> In m rk) -> within J u l).
    { intros l Hl. apply (scored_within sle next u J _ _ _ G T). intros m Hm. cbn. rewrite app_nil_r. apply Hl, Hm. }
    assert (Wn' : forall l, (forall m, In m l -> In m rk') -> within J u' l).
    { intros l Hl. apply (scored_within sle next' u' J _ _ _ G' T'). intros m Hm. cbn. rewrite app_nil_r. apply Hl, Hm. }
    assert (M : mseq (map gkex rk) (map gkex rk')).
    { intros x. rewrite (cnt_perm x _ _ (Permutation_map gkex P1)), (cnt_perm x _ _ (Permutation_map gkex P1')), (Hall _ _ _ _ Ef), (Hall' _ _ _ _ Ef'). apply mseq_multiset, Hk. }
    assert (A : same_exprs rk rk') by (apply (sorted_same sle Hsle J HJ u u'); [apply Wn; auto|apply Wn'; auto|exact R1|exact R1'|exact M]).
    assert (B : same_exprs srt srt').
    { apply (sorted_same sle Hsle J HJ u u'); [apply Wn|apply Wn'|exact R2|exact R2'|].
      - intros m Hm. eapply Permutation_in; [exact P2|exact Hm].
      - intros m Hm. eapply Permutation_in; [exact P2'|exact Hm].
      - intros x. rewrite (cnt_perm x _ _ (Permutation_map gkex P2)), (cnt_perm x _ _ (Permutation_map gkex P2')). apply M. }
    eapply (loop_same sle Hsle J HJ next fit Hfit Hall u next' fit' Hfit' Hall' u' offset rules rules' Wr Wr' Hr v v' bs bs _ _ s0 wc w1 st s0' wc' w1' st');
      [reflexivity|exact G|exact G'| |exact S|exact S'|exact E3|exact E3'].
    constructor; cbn [s0 s0' sorted_models tested_models tested_k_exprs expanded not_expanded]; [exact B|constructor; [exact A|constructor]|exact Hk|constructor|exact B].
  Qed.
End Explore.
