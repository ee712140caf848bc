(** What searches try (C60). *)
From Coq Require Import String List Bool Arith ZArith Lia Sorted Permutation.
From Verif Require Import Py UtilModel UtilSpec UtilProofs KexModel KexSpec KexProofs OpsModel OpsSpec OpsProofs SearchModel SearchSpec SearchProofs ReachSpec ReachProofs ReachCong.
Import ListNotations.
Local Open Scope list_scope.
Local Open Scope Z_scope.

Lemma reaches_iff offset rules e x : reaches offset rules e x <-> exists n, reaches_in offset rules e n x.
Proof.
  split.
  - induction 1 as [|x y _ [n IH] Hy]; [exists 0%nat; constructor|exists (S n); econstructor; eauto].
  - intros [n H]. induction H; [constructor|econstructor; eauto].
Qed.
Lemma slice_all {A} (l : list A) b : Z.of_nat (Datatypes.length l) <= b -> slice_to l b = l.
Proof. intros H. unfold slice_to. destruct (Z.ltb_spec b 0); [lia|]. apply firstn_all2. lia. Qed.
Lemma concat_in {A} (l : list A) ls : In l ls -> forall x, In x l -> In x (concat ls).
Proof. intros H x Hx. apply in_concat. eauto. Qed.

Section Runs.
  Context {D Sc W : Type} (sle : Sc -> Sc -> bool) (Hsle : total_preorder sle).
  Context (next : W -> nat) (fit : fitter D W) (Hfit : fresh_fitter next fit) (Hall : fits_each fit)
          (offset : bool) (rules : list rule) (u : gp D -> res Sc).
  Context (starts : list kex).

  (** Every model's expression is in the list of tried expressions, and vice versa. *)
  Definition listed (st : results D) : Prop := forall x, In x (tested_k_exprs st) <-> exists m : gp D, In m (concat (tested_models st)) /\ gkex m = x.
  Definition sound (n : nat) (st : results D) : Prop :=
    forall x, In x (tested_k_exprs st) -> exists s k, In s starts /\ (k <= n)%nat /\ reaches_in offset rules s k x.
  Lemma listed_after fitted w1 w2 (wa wb : W * heap) rk new st srt ex nx : listed st -> fit w1 new = (w2, Ok fitted) -> sorted_by_score sle u fitted wa = (wb, Ok rk) ->
    listed {| sorted_models := srt; tested_models := tested_models st ++ [rk]; tested_k_exprs := tested_k_exprs st ++ new; expanded := ex; not_expanded := nx |}.
  Proof.
    intros L Ef Es x. cbn [tested_models tested_k_exprs]. apply sorted_by_score_ok in Es as (P & _); [|exact Hsle]. rewrite concat_app. cbn [concat]. rewrite app_nil_r.
    unfold listed in L. rewrite in_app_iff, L. rewrite <- (Hall _ _ _ _ Ef). split.
    - intros [(m & Hm & E)|Hx]; [exists m; rewrite in_app_iff; auto|]. apply in_map_iff in Hx as (m & E & Hm). exists m. split; [|exact E].
      apply in_app_iff. right. eapply Permutation_in; [symmetry; exact P|exact Hm].
    - intros (m & Hm & E). apply in_app_iff in Hm as [Hm|Hm]; [left; eauto|]. right. subst x. apply in_map. eapply Permutation_in; [exact P|exact Hm].
  Qed.
  Lemma new_from (st : results D) b x : In x (new_exprs offset rules st b) -> exists m, In m (slice_to (not_expanded st) b) /\ In x (expand offset rules (gkex m)).
  Proof.
    unfold new_exprs. intros H. apply filter_In in H as [H _]. apply (unique_in keq keq_trans) in H. apply in_concat in H as (l & Hl & Hx).
    apply in_map_iff in Hl as (m & <- & Hm). eauto.
  Qed.
  Lemma new_covers (st : results D) b m x : In m (slice_to (not_expanded st) b) -> In x (expand offset rules (gkex m)) ->
    has_equal (tested_k_exprs st ++ new_exprs offset rules st b) x.
  Proof.
    intros Hm Hx. set (all := concat (map (fun m => expand offset rules (gkex m)) (slice_to (not_expanded st) b))).
    assert (Ha : In x all) by (eapply concat_in; [apply in_map_iff; eauto|exact Hx]).
    destruct (unique_covers keq keq_refl all x Ha) as (y & Hy & E). rewrite keq_sym in E.
    destruct (existsb (fun t => keq t y) (tested_k_exprs st)) eqn:Ex.
    - apply existsb_exists in Ex as (t & Ht & E'). exists t. split; [apply in_app_iff; auto|]. rewrite keq_sym in E'. exact (keq_trans _ _ _ E E').
    - exists y. split; [|exact E]. apply in_app_iff. right. unfold new_exprs. apply filter_In. rewrite Ex. auto.
  Qed.
  Lemma slice_in {A} (l : list A) b x : In x (slice_to l b) -> In x l.
  Proof. destruct (slice_to_prefix l b) as (r & E). rewrite E at 2. intros H. apply in_app_iff. auto. Qed.

  Lemma ne_tested w (st : results D) m : inv sle next u w st -> In m (not_expanded st) -> In m (concat (tested_models st)).
  Proof.
    intros I H. eapply Permutation_in; [apply (i_perm _ _ _ _ _ I)|]. eapply Permutation_in; [apply (i_split _ _ _ _ _ I)|]. apply in_app_iff. auto.
  Qed.
  Lemma round_sound verbose beam r b n st w w' st' : inv sle next u w st -> listed st -> sound n st ->
    search_round sle offset fit rules u verbose beam r b st w = (w', Ok st') -> listed st' /\ sound (S n) st'.
  Proof.
    intros I L S H. destruct (round_parts sle fit offset rules u _ _ _ _ _ _ _ _ H) as (w1 & fitted & w2 & rk & srt & Ef & Es & Ec & ->).
    split; [eapply listed_after; eassumption|]. intros x Hx. cbn [tested_k_exprs] in Hx. apply in_app_iff in Hx as [Hx|Hx].
    - destruct (S x Hx) as (s & k & Hs & Hk & R). exists s, k. auto.
    - apply new_from in Hx as (m & Hm & Hx). apply slice_in in Hm. apply (ne_tested w) in Hm; [|exact I].
      destruct (S (gkex m)) as (s & k & Hs & Hk & R); [apply L; eauto|]. exists s, (Datatypes.S k). split; [exact Hs|]. split; [lia|]. econstructor; eassumption.
  Qed.
  Lemma loop_sound verbose beam rbs : forall n st w w' st', inv sle next u w st -> listed st -> sound n st ->
    search_loop sle offset fit rules u verbose beam rbs st w = (w', Ok st') -> listed st' /\ sound (n + Datatypes.length rbs) st'.
  Proof.
    induction rbs as [|[r b] t IH]; intros n st w w' st' I L S H; cbn [search_loop] in H.
    - injection H as <- <-. cbn [Datatypes.length]. rewrite Nat.add_0_r. auto.
    - apply bindM_ok in H as (w1 & st1 & H1 & H). destruct (round_sound _ _ _ _ n _ _ _ _ I L S H1) as [L1 S1].
      assert (I1 : inv sle next u w1 st1) by (eapply round_inv; eauto). destruct (IH (Datatypes.S n) _ _ _ _ I1 L1 S1 H) as [L2 S2].
      split; [exact L2|]. cbn [Datatypes.length]. rewrite Nat.add_succ_r. exact S2.
  Qed.

  (** ** Exhaustive searches *)
  Context (Wr : wf_rules rules) (Cr : respects_eq rules) (Ws : forall s, In s starts -> wf s).
  Lemma reaches_in_wf s n x : wf s -> reaches_in offset rules s n x -> wf x.
  Proof.
    intros Hs H. induction H as [|n x y _ IH Hy]; [exact Hs|]. destruct (expand_sound offset rules x IH Wr y Hy) as (? & ? & ? & ? & _ & _ & _ & _ & _ & _ & Wy). exact Wy.
  Qed.
  Lemma has_equal_trans l x y : keq x y = true -> has_equal l y -> has_equal l x.
  Proof. intros E (z & Hz & E'). exists z. split; [exact Hz|exact (keq_trans _ _ _ E E')]. Qed.
  Lemma has_equal_app l m x : has_equal l x -> has_equal (l ++ m) x.
  Proof. intros (z & Hz & E). exists z. split; [apply in_app_iff; auto|exact E]. Qed.
  (** Everything reachable in n steps was tried, and so was everything the expanded models expand to. *)
  Definition covered (n : nat) (st : results D) : Prop :=
    (forall s k x, In s starts -> (k <= n)%nat -> reaches_in offset rules s k x -> has_equal (tested_k_exprs st) x)
    /\ (forall m x, In m (expanded st) -> In x (expand offset rules (gkex m)) -> has_equal (tested_k_exprs st) x).
  Lemma round_covered verbose beam r b n p st w w' st' : inv sle next u w st -> listed st -> sound p st -> covered n st ->
    Z.of_nat (Datatypes.length (not_expanded st)) <= b ->
    search_round sle offset fit rules u verbose beam r b st w = (w', Ok st') -> covered (S n) st'.
  Proof.
    intros I L S [C1 C2] Hb H. destruct (round_parts sle fit offset rules u _ _ _ _ _ _ _ _ H) as (w1 & fitted & w2 & rk & srt & Ef & Es & Ec & ->).
    assert (Hs : slice_to (not_expanded st) b = not_expanded st) by (apply slice_all, Hb).
    assert (C3 : forall m x, In m (expanded st ++ not_expanded st) -> In x (expand offset rules (gkex m)) -> has_equal (tested_k_exprs st ++ new_exprs offset rules st b) x).
    { intros m x Hm Hx. apply in_app_iff in Hm as [Hm|Hm]; [apply has_equal_app; eauto|]. apply (new_covers st b m); [rewrite Hs; exact Hm|exact Hx]. }
    split; cbn [tested_k_exprs expanded]; [|rewrite Hs; exact C3].
    intros s k x Hin Hk R. destruct k as [|k]; [apply has_equal_app; exact (C1 s 0%nat x Hin (Nat.le_0_l n) R)|].
    inversion R as [|k0 x0 y0 R0 Hx E1 E2]; subst. destruct (C1 s k x0 Hin ltac:(lia) R0) as (t & Ht & Et).
    destruct (proj1 (L t) Ht) as (m & Hm & Em). subst t.
    assert (W0 : wf x0) by exact (reaches_in_wf s k x0 (Ws s Hin) R0).
    assert (Wm : wf (gkex m)) by (destruct (S _ Ht) as (s' & k' & Hs' & _ & R'); exact (reaches_in_wf s' k' _ (Ws s' Hs') R')).
    destruct (proj1 (expand_cong offset rules x0 (gkex m) W0 Wm Wr Cr Et) x Hx) as (y & Hy & E).
    eapply has_equal_trans; [exact E|]. apply (C3 m); [|exact Hy].
    eapply Permutation_in; [symmetry; apply (i_split _ _ _ _ _ I)|]. eapply Permutation_in; [symmetry; apply (i_perm _ _ _ _ _ I)|exact Hm].
  Qed.
  Lemma loop_size verbose beam rbs st w w' st' : inv sle next u w st -> search_loop sle offset fit rules u verbose beam rbs st w = (w', Ok st') ->
    (Datatypes.length (not_expanded st) <= Datatypes.length (sorted_models st'))%nat.
  Proof.
    intros I H. assert (I' : inv sle next u w' st') by (eapply loop_inv; eauto).
    destruct (loop_keeps sle fit offset rules u _ _ _ _ _ _ _ H) as (more & E & _).
    rewrite (Permutation_length (i_perm _ _ _ _ _ I')), E, concat_app, app_length, <- (Permutation_length (i_perm _ _ _ _ _ I)),
      <- (Permutation_length (i_split _ _ _ _ _ I)), app_length. lia.
  Qed.
  Lemma loop_covered verbose beam rbs : forall n p st w w' st', inv sle next u w st -> listed st -> sound p st -> covered n st ->
    search_loop sle offset fit rules u verbose beam rbs st w = (w', Ok st') ->
    (forall r b, In (r, b) rbs -> Z.of_nat (Datatypes.length (sorted_models st')) <= b) -> covered (n + Datatypes.length rbs) st'.
  Proof.
    induction rbs as [|[r b] t IH]; intros n p st w w' st' I L S C H Hb.
    - cbn [search_loop] in H. injection H as <- <-. cbn [Datatypes.length]. rewrite Nat.add_0_r. exact C.
    - assert (Hsz : Z.of_nat (Datatypes.length (not_expanded st)) <= b).
      { pose proof (loop_size _ _ _ _ _ _ _ I H). specialize (Hb r b (or_introl eq_refl)). lia. }
      cbn [search_loop] in H. apply bindM_ok in H as (w1 & st1 & H1 & H). destruct (round_sound _ _ _ _ p _ _ _ _ I L S H1) as [L1 S1].
      assert (I1 : inv sle next u w1 st1) by (eapply round_inv; eauto).
      pose proof (round_covered _ _ _ _ _ _ _ _ _ _ I L S C Hsz H1) as C1.
      cbn [Datatypes.length]. rewrite Nat.add_succ_r. apply (IH (Datatypes.S n) (Datatypes.S p) st1 w1 w' st' I1 L1 S1 C1 H). intros r' b' Hin. apply (Hb r'). right. exact Hin.
  Qed.
End Runs.

Section Explore.
  Context {D Sc W : Type} (sle : Sc -> Sc -> bool) (Hsle : total_preorder sle).
  Context (next : W -> nat) (fit : fitter D W) (Hfit : fresh_fitter next fit) (Hall : fits_each fit)
          (offset : bool) (rules : list rule) (u : gp D -> res Sc).
  Lemma start_listed ks w1 w2 fitted (wa wb : W * heap) rk srt : fit w1 ks = (w2, Ok fitted) -> sorted_by_score sle u fitted wa = (wb, Ok rk) ->
    listed {| sorted_models := srt; tested_models := [rk]; tested_k_exprs := ks; expanded := []; not_expanded := srt |}.
  Proof.
    intros Ef Es. set (st := {| sorted_models := srt; tested_models := []; tested_k_exprs := []; expanded := []; not_expanded := srt |}).
    apply (listed_after sle Hsle fit Hall u fitted w1 w2 wa wb rk ks st srt [] srt); [|exact Ef|exact Es].
    intros x. cbn. split; [intros []|intros (m & [] & _)].
  Qed.
  Lemma start_sound ks st : tested_k_exprs st = ks -> @sound D offset rules ks 0 st.
  Proof. intros E x Hx. exists x, 0%nat. rewrite E in Hx. split; [exact Hx|]. split; [lia|constructor]. Qed.
  Lemma explore_sound start ks rounds beam verbose w w' st : make_simple_kexs offset start = Ok ks ->
    explore_model_space sle offset fit rules u start rounds beam verbose w = (w', Ok st) ->
    forall x, In x (tested_k_exprs st) -> exists s n, In s ks /\ (n <= Z.to_nat rounds)%nat /\ reaches_in offset rules s n x.
  Proof.
    intros Ek H x Hx. destruct (explore_parts sle fit offset rules u _ _ _ _ _ _ _ H) as (ks' & w1 & fitted & w2 & rk & w3 & srt & bs & Ek' & Ef & E1 & E2 & Eb & E3).
    rewrite Ek in Ek'. injection Ek' as <-.
    pose proof (start_inv sle Hsle next fit Hfit u _ _ _ _ _ _ _ _ Ef E1 E2) as I.
    pose proof (start_listed ks _ _ _ _ _ _ srt Ef E1) as L.
    set (st0 := {| sorted_models := srt; tested_models := [rk]; tested_k_exprs := ks; expanded := []; not_expanded := srt |}) in *.
    destruct (loop_sound sle Hsle next fit Hfit Hall offset rules u ks verbose bs _ 0%nat st0 _ _ _ I L (start_sound ks st0 eq_refl) E3) as [_ S].
    destruct (S x Hx) as (s & n & Hs & Hn & R). exists s, n. split; [exact Hs|]. split; [|exact R].
    cbn [Nat.add] in Hn. rewrite combine_length, seq_length in Hn. lia.
  Qed.
  Lemma norm_beam_in rounds beam bs n : 0 <= rounds -> beam_at_least rounds beam n -> norm_beam rounds beam = Ok bs ->
    Datatypes.length bs = Z.to_nat rounds /\ forall b, In b bs -> n <= b.
  Proof.
    intros Hr [V H] E. destruct (norm_beam_spec rounds beam Hr V) as (bs' & E' & Ln & Hbs). rewrite E in E'. injection E' as <-. split; [exact Ln|].
    intros b Hb. apply In_nth_error in Hb as (i & Hi). assert (Li : (i < Z.to_nat rounds)%nat) by (rewrite <- Ln; apply nth_error_Some; congruence).
    apply (H i b Li). apply Hbs; assumption.
  Qed.
  Lemma explore_exhaustive start ks rounds beam verbose w w' st : wf_rules rules -> respects_eq rules ->
    make_simple_kexs offset start = Ok ks -> (forall s, In s ks -> wf s) -> 0 <= rounds ->
    explore_model_space sle offset fit rules u start rounds beam verbose w = (w', Ok st) ->
    beam_at_least rounds beam (Z.of_nat (Datatypes.length (sorted_models st))) ->
    forall s n x, In s ks -> (n <= Z.to_nat rounds)%nat -> reaches_in offset rules s n x -> has_equal (tested_k_exprs st) x.
  Proof.
    intros Wr Cr Ek Ws Hr H HB s n x Hs Hn R.
    destruct (explore_parts sle fit offset rules u _ _ _ _ _ _ _ H) as (ks' & w1 & fitted & w2 & rk & w3 & srt & bs & Ek' & Ef & E1 & E2 & Eb & E3).
    rewrite Ek in Ek'. injection Ek' as <-. destruct (norm_beam_in _ _ _ _ Hr HB Eb) as [Lb Hb].
    pose proof (start_inv sle Hsle next fit Hfit u _ _ _ _ _ _ _ _ Ef E1 E2) as I.
    pose proof (start_listed ks _ _ _ _ _ _ srt Ef E1) as L.
    set (st0 := {| sorted_models := srt; tested_models := [rk]; tested_k_exprs := ks; expanded := []; not_expanded := srt |}) in *.
    assert (C0 : covered offset rules ks 0 st0).
    { split; [|intros ? ? []]. intros s0 k0 x0 Hs0 Hk0 R0. assert (k0 = 0)%nat as -> by lia. inversion R0; subst. exists x0. split; [exact Hs0|apply keq_refl]. }
    destruct (loop_covered sle Hsle next fit Hfit Hall offset rules u ks Wr Cr Ws verbose bs _ 0%nat 0%nat st0 _ _ _ I L (start_sound ks st0 eq_refl) C0 E3) as [C _].
    - intros r b Hrb. apply Hb. apply in_combine_r in Hrb. exact Hrb.
    - apply (C s n x Hs); [|exact R]. cbn [Nat.add]. rewrite combine_length, seq_length. lia.
  Qed.

  (** ** A wide enough beam exists *)
  Lemma score_total ms : (forall m, exists s, u m = Ok s) -> forall w : W * heap, exists w' l, sorted_by_score sle u ms w = (w', Ok l).
  Proof.
    intros Hu. assert (K : forall ms (w : W * heap), exists w' l, keys_utility u ms w = (w', Ok l)).
    { intros m. induction m as [|m t IH]; intros w; [do 2 eexists; reflexivity|]. cbn [keys_utility]. unfold bindM, compute_utility.
      destruct (Hu m) as (s & ->). cbn [fst snd]. destruct (IH (fst w, hset (snd w) (gid m) s)) as (w' & l & ->). do 2 eexists. reflexivity. }
    intros w. unfold sorted_by_score, bindM. destruct (K ms w) as (w' & l & ->). do 2 eexists. reflexivity.
  Qed.
  Lemma round_total : never_raises fit u -> forall st w, inv sle next u w st -> exists w' st', inv sle next u w' st'
    /\ forall b beam r, Z.of_nat (Datatypes.length (not_expanded st)) <= b -> search_round sle offset fit rules u false beam r b st w = (w', Ok st').
  Proof.
    intros [Nf Nu] st w I. set (b0 := Z.of_nat (Datatypes.length (not_expanded st))).
    assert (Hr : exists w' st', search_round sle offset fit rules u false [] 0%nat b0 st w = (w', Ok st')).
    { unfold search_round, bindM, run_fitter. destruct (Nf (fst w) (new_exprs offset rules st b0)) as (w1 & ms & Ef). rewrite Ef.
      destruct (score_total ms Nu (w1, snd w)) as (w2 & l & Es). rewrite Es. destruct (Hfit _ _ _ _ Ef) as (F1 & F2 & F3).
      destruct (sorted_by_score_ok sle Hsle _ _ _ _ _ Es) as (S1 & S2 & S3 & S4 & S5 & S6). cbn [fst snd] in *.
      destruct (sorted_by_cache_ok sle Hsle u (concat (tested_models st ++ [l])) w2) as (srt & -> & _); [|do 2 eexists; reflexivity].
      intros m Hm. rewrite concat_app in Hm. cbn [concat] in Hm. rewrite app_nil_r in Hm. apply in_app_iff in Hm as [Hm|Hm].
      - destruct (i_cache _ _ _ _ _ I m Hm) as (s & Hu & Hs). exists s. split; [exact Hu|]. rewrite S5; [exact Hs|].
        intros Hin. apply in_map_iff in Hin as (m2 & E & H2). pose proof (i_lt _ _ _ _ _ I _ Hm). specialize (F2 _ H2). lia.
      - apply S6; [exact F1|]. eapply Permutation_in; [exact S1|exact Hm]. }
    destruct Hr as (w' & st' & Hr). exists w', st'. split; [eapply round_inv; eauto|]. intros b beam r Hb. rewrite <- Hr.
    unfold search_round, new_exprs. rewrite (slice_all _ b Hb), (slice_all _ b0) by reflexivity. reflexivity.
  Qed.
  Lemma loop_total : never_raises fit u -> forall n st w, inv sle next u w st -> exists w' st' B, forall b beam from, B <= b ->
    search_loop sle offset fit rules u false beam (combine (seq from n) (repeat b n)) st w = (w', Ok st').
  Proof.
    intros N. induction n as [|n IH]; intros st w I; [exists w, st, 0; reflexivity|].
    destruct (round_total N st w I) as (w1 & st1 & I1 & H1). destruct (IH st1 w1 I1) as (w2 & st2 & B & H2).
    exists w2, st2, (Z.max B (Z.of_nat (Datatypes.length (not_expanded st)))). intros b beam from Hb. cbn [seq repeat combine search_loop]. unfold bindM.
    rewrite H1 by lia. apply H2. lia.
  Qed.
  Lemma explore_wide start ks rounds w : never_raises fit u -> make_simple_kexs offset start = Ok ks -> 0 <= rounds ->
    exists w' st B, (forall b, B <= b -> explore_model_space sle offset fit rules u start rounds (BInt b) false w = (w', Ok st)
                                         /\ beam_at_least rounds (BInt b) (Z.of_nat (Datatypes.length (sorted_models st)))).
  Proof.
    intros N Ek Hr. destruct N as [Nf Nu]. destruct (Nf (fst w) ks) as (w1 & ms & Ef). destruct (score_total ms Nu (w1, snd w)) as (w2 & rk & E1).
    destruct (score_total rk Nu w2) as (w3 & srt & E2). pose proof (start_inv sle Hsle next fit Hfit u _ _ _ _ _ _ _ _ Ef E1 E2) as I.
    destruct (loop_total (conj Nf Nu) (Z.to_nat rounds) _ _ I) as (w' & st & B & HB).
    exists w', st, (Z.max B (Z.of_nat (Datatypes.length (sorted_models st)))). intros b Hb. split.
    - unfold explore_model_space, bindM, lift, run_fitter, ret. rewrite Ek, Ef, E1. cbn [concat]. rewrite app_nil_r, E2. cbn [norm_beam].
      unfold model_search_rounds. rewrite HB by lia. reflexivity.
    - split; [exact Logic.I|]. cbn [beam_value]. intros i z _ ->. lia.
  Qed.
End Explore.
