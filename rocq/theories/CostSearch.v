(** How many models a search fits, and how large they are. *)
From Coq Require Import String List Bool Arith ZArith Lia Permutation.
From Verif Require Import Py UtilModel UtilSpec UtilProofs KexModel KexSpec KexProofs OpsModel OpsSpec OpsProofs SearchModel SearchSpec SearchProofs ReachSpec ReachSearch CostSpec CostProofs CostMore.
Import ListNotations.
Local Open Scope list_scope.
Local Open Scope Z_scope.

Section Runs.
  Context {D Sc W : Type} (sle : Sc -> Sc -> bool) (Hsle : total_preorder sle).
  Context (next : W -> nat) (fit : fitter D W) (Hfit : fresh_fitter next fit) (Hall : fits_each fit) (u : gp D -> res Sc).
  Context (offset : bool) (G : list base -> list base -> list rule) (HG : In G (groups offset)) (bases noC : list base).
  Notation rules := (G bases noC).
  Notation K := (per_symbol (Datatypes.length bases) (Datatypes.length noC)).
  Context (g : nat -> nat) (Hg : forall i, (g i <= g (S i))%nat)
          (Hs : forall i e x, wf e -> (symbols e <= g i)%nat -> In x (expand offset rules e) -> (symbols x <= g (S i))%nat).
  Context (B N : nat).
  Definition bounded (st : results D) : Prop :=
    forall i ms, nth_error (tested_models st) i = Some ms ->
      (forall m, In m ms -> wf (gkex m) /\ (symbols (gkex m) <= g i)%nat) /\ (Datatypes.length ms <= match i with O => N | S j => B * (K * g j) end)%nat.
  Lemma g_mono i j : (i <= j)%nat -> (g i <= g j)%nat.
  Proof. induction 1 as [|j _ IH]; [lia|]. specialize (Hg j). lia. Qed.
  Lemma slice_length {A} (l : list A) b : 0 <= b -> (Datatypes.length (slice_to l b) <= Z.to_nat b)%nat.
  Proof. intros H. unfold slice_to. destruct (Z.ltb_spec b 0); [lia|]. apply firstn_le_length. Qed.
  Lemma filter_len {A} (f : A -> bool) l : (Datatypes.length (filter f l) <= Datatypes.length l)%nat.
  Proof. induction l as [|x l IH]; [cbn; lia|]. cbn [filter]. destruct (f x); cbn [Datatypes.length]; lia. Qed.
  Lemma new_count (st : results D) b j : 0 <= b <= Z.of_nat B -> (forall m, In m (not_expanded st) -> wf (gkex m) /\ (symbols (gkex m) <= g j)%nat) ->
    (Datatypes.length (new_exprs offset rules st b) <= B * (K * g j))%nat.
  Proof.
    intros Hb H. unfold new_exprs. etransitivity; [apply filter_len|]. etransitivity; [apply unique_length|].
    etransitivity; [apply (concat_length _ (K * g j))|].
    - intros m Hm. apply slice_in in Hm. destruct (H m Hm) as [Wm Lm]. etransitivity; [apply expand_count; assumption|]. apply Nat.mul_le_mono_l, Lm.
    - apply Nat.mul_le_mono_r. etransitivity; [apply slice_length; lia|]. lia.
  Qed.
  Lemma round_bounded verbose beam r b st w w' st' : 0 <= b <= Z.of_nat B -> tested_models st <> [] -> inv sle next u w st -> bounded st ->
    search_round sle offset fit rules u verbose beam r b st w = (w', Ok st') -> bounded st' /\ tested_models st' <> [].
  Proof.
    intros Hb Hne I Bd H. destruct (round_parts sle fit offset rules u _ _ _ _ _ _ _ _ H) as (w1 & fitted & w2 & rk & srt & Ef & Es & Ec & ->).
    split; [|cbn [tested_models]; destruct (tested_models st); discriminate]. set (n := Datatypes.length (tested_models st)).
    destruct n as [|j] eqn:En; [exfalso; apply Hne, length_zero_iff_nil, En|].
    assert (HN : forall m, In m (not_expanded st) -> wf (gkex m) /\ (symbols (gkex m) <= g j)%nat).
    { intros m Hm. apply (ne_tested sle next u w) in Hm; [|exact I]. apply in_concat in Hm as (ms & Hms & Hm). apply In_nth_error in Hms as (i & Hi).
      destruct (Bd i ms Hi) as [H1 _]. destruct (H1 m Hm) as [Wm Lm]. split; [exact Wm|]. etransitivity; [exact Lm|]. apply g_mono.
      assert (i < Datatypes.length (tested_models st))%nat by (apply nth_error_Some; congruence). subst n. lia. }
    apply sorted_by_score_ok in Es as (P & _); [|exact Hsle].
    intros i ms Hi. cbn [tested_models] in Hi. destruct (Nat.lt_ge_cases i (Datatypes.length (tested_models st))) as [L|L].
    - rewrite nth_error_app1 in Hi by exact L. exact (Bd i ms Hi).
    - rewrite nth_error_app2 in Hi by exact L. destruct (i - Datatypes.length (tested_models st))%nat as [|d] eqn:Ed; [|destruct d; discriminate Hi].
      injection Hi as <-. assert (i = S j) as -> by (subst n; lia). split.
      + intros m Hm. apply (Permutation_in m P) in Hm. assert (Hx : In (gkex m) (new_exprs offset rules st b)) by (rewrite <- (Hall _ _ _ _ Ef); apply in_map, Hm).
        apply new_from in Hx as (m' & Hm' & Hx). apply slice_in in Hm'. destruct (HN m' Hm') as [Wm Lm]. split; [|exact (Hs j _ _ Wm Lm Hx)].
        destruct (expand_sound offset _ _ Wm (groups_wf offset G bases noC HG) _ Hx) as (? & ? & ? & ? & _ & _ & _ & _ & _ & _ & Wy). exact Wy.
      + rewrite (Permutation_length P). rewrite <- (map_length gkex), (Hall _ _ _ _ Ef). apply new_count; assumption.
  Qed.
  Lemma loop_bounded verbose beam rbs : forall st w w' st', (forall r b, In (r, b) rbs -> 0 <= b <= Z.of_nat B) -> tested_models st <> [] -> inv sle next u w st -> bounded st ->
    search_loop sle offset fit rules u verbose beam rbs st w = (w', Ok st') -> bounded st'.
  Proof.
    induction rbs as [|[r b] t IH]; intros st w w' st' Hb Hne I Bd H; cbn [search_loop] in H; [injection H as <- <-; exact Bd|].
    apply bindM_ok in H as (w1 & st1 & H1 & H). destruct (round_bounded _ _ _ _ _ _ _ _ (Hb r b (or_introl eq_refl)) Hne I Bd H1) as [B1 N1].
    eapply IH; [intros r' b' Hin; apply (Hb r' b'); right; exact Hin|exact N1|eapply round_inv; eauto|exact B1|exact H].
  Qed.
  Lemma explore_bounded start ks rounds beam verbose w w' st : make_simple_kexs offset start = Ok ks -> (forall s, In s ks -> wf s /\ (symbols s <= g 0)%nat) -> Datatypes.length ks = N ->
    0 <= rounds -> valid_beam rounds beam -> (forall i z, (i < Z.to_nat rounds)%nat -> beam_value beam i z -> 0 <= z <= Z.of_nat B) ->
    explore_model_space sle offset fit rules u start rounds beam verbose w = (w', Ok st) -> bounded st.
  Proof.
    intros Ek Hk HNl Hr V Hb H. destruct (explore_parts sle fit offset rules u _ _ _ _ _ _ _ H) as (ks' & w1 & fitted & w2 & rk & w3 & srt & bs & Ek' & Ef & E1 & E2 & Eb & E3).
    rewrite Ek in Ek'. injection Ek' as <-. pose proof (start_inv sle Hsle next fit Hfit u _ _ _ _ _ _ _ _ Ef E1 E2) as I.
    destruct (norm_beam_spec rounds beam Hr V) as (bs' & Eb' & Ln & Hbs). rewrite Eb in Eb'. injection Eb' as <-.
    eapply loop_bounded; [| |exact I| |exact E3].
    - intros r b Hin. apply in_combine_r in Hin. apply In_nth_error in Hin as (i & Hi).
      assert (i < Z.to_nat rounds)%nat by (rewrite <- Ln; apply nth_error_Some; congruence). apply (Hb i); [assumption|]. apply Hbs; assumption.
    - cbn [tested_models]. discriminate.
    - apply sorted_by_score_ok in E1 as (P & _); [|exact Hsle]. intros [|i] ms Hi; cbn [tested_models nth_error] in Hi; [|destruct i; discriminate Hi]. injection Hi as <-. split.
      + intros m Hm. apply Hk. rewrite <- (Hall _ _ _ _ Ef). apply in_map. exact (Permutation_in m P Hm).
      + rewrite (Permutation_length P), <- (map_length gkex), (Hall _ _ _ _ Ef). lia.
  Qed.
End Runs.

Section Explore.
  Context {D Sc W : Type} (sle : Sc -> Sc -> bool) (Hsle : total_preorder sle).
  Context (next : W -> nat) (fit : fitter D W) (Hfit : fresh_fitter next fit) (Hall : fits_each fit).
  Lemma explore_cost (u : gp D -> res Sc) offset G bases noC start ks rounds beam verbose w w' st S B : In G (groups offset) ->
    make_simple_kexs offset start = Ok ks -> (forall s, In s ks -> wf s /\ (symbols s <= S)%nat) ->
    0 <= rounds -> valid_beam rounds beam -> (forall i z, (i < Z.to_nat rounds)%nat -> beam_value beam i z -> 0 <= z <= Z.of_nat B) ->
    explore_model_space sle offset fit (G bases noC) u start rounds beam verbose w = (w', Ok st) ->
    forall i ms, nth_error (tested_models st) i = Some ms ->
      (forall m, In m ms -> (symbols (gkex m) + 3 <= 2 ^ i * (S + 3))%nat)
      /\ forall j, i = Datatypes.S j -> (Datatypes.length ms <= B * (per_symbol (Datatypes.length bases) (Datatypes.length noC) * (2 ^ j * (S + 3))))%nat.
  Proof.
    intros HG Ek Hk Hr V Hb H i ms Hi. set (g := fun i => (2 ^ i * (S + 3) - 3)%nat).
    assert (P2 : forall i, (1 <= 2 ^ i)%nat) by (intros k; pose proof (Nat.pow_nonzero 2 k); lia).
    assert (Bd : bounded bases noC g B (Datatypes.length ks) st).
    { eapply (explore_bounded sle Hsle next fit Hfit Hall u offset G HG bases noC g); [..|exact Ek| |reflexivity|exact Hr|exact V|exact Hb|exact H].
      - intros k. unfold g. rewrite Nat.pow_succ_r'. lia.
      - intros k e x We Le Hx. pose proof (expand_size offset G bases noC e x HG We Hx) as Hs. unfold g in *. rewrite Nat.pow_succ_r'. specialize (P2 k). nia.
      - intros s Hs. destruct (Hk s Hs) as [Ws Ls]. split; [exact Ws|]. unfold g. cbn [Nat.pow]. lia. }
    destruct (Bd i ms Hi) as [H1 H2]. split.
    - intros m Hm. destruct (H1 m Hm) as [_ Lm]. unfold g in Lm. specialize (P2 i). nia.
    - intros j ->. etransitivity; [exact H2|]. apply Nat.mul_le_mono_l, Nat.mul_le_mono_l. unfold g. lia.
  Qed.
  Lemma concat_total {A} (f : nat -> nat) (l : list (list A)) : forall k, (forall i ms, nth_error l i = Some ms -> (Datatypes.length ms <= f (k + i))%nat) ->
    (Datatypes.length (concat l) <= list_sum (map f (seq k (Datatypes.length l))))%nat.
  Proof.
    induction l as [|x l IH]; intros k H; [cbn; lia|]. cbn [concat Datatypes.length seq map list_sum fold_right]. rewrite app_length.
    assert (H0 := H 0%nat x eq_refl). rewrite Nat.add_0_r in H0. specialize (IH (S k)). apply Nat.add_le_mono; [exact H0|]. apply IH.
    intros i ms Hi. specialize (H (S i) ms Hi). rewrite Nat.add_succ_r in H. exact H.
  Qed.
  Lemma sum_rounds K S n : (list_sum (map (fun i => (K * (S + 4 * (i - 1)))%nat) (seq 1 n)) <= K * (n * (S + 2 * n)))%nat.
  Proof.
    assert (H : forall m, list_sum (map (fun i => (K * (S + 4 * (i - 1)))%nat) (seq 1 m)) = (K * (m * S) + K * (2 * m * (m - 1)))%nat).
    { induction m as [|m IH]; [cbn; lia|]. rewrite seq_S, map_app, list_sum_app, IH. cbn [map list_sum fold_right Nat.add]. replace (Datatypes.S m - 1)%nat with m by lia. destruct m; nia. }
    rewrite H. rewrite <- Nat.mul_add_distr_l. apply Nat.mul_le_mono_l. nia.
  Qed.
  Lemma explore_default_cost (u : gp D -> res Sc) offset bases noC start ks rounds beam verbose w w' st S B :
    make_simple_kexs offset start = Ok ks -> (forall s, In s ks -> wf s /\ (symbols s <= S)%nat) ->
    0 <= rounds -> valid_beam rounds beam -> (forall i z, (i < Z.to_nat rounds)%nat -> beam_value beam i z -> 0 <= z <= Z.of_nat B) ->
    explore_model_space sle offset fit (rules_default offset bases noC) u start rounds beam verbose w = (w', Ok st) ->
    (forall i ms m, nth_error (tested_models st) i = Some ms -> In m ms -> (symbols (gkex m) <= S + 4 * i)%nat)
    /\ (forall i ms, nth_error (tested_models st) (Datatypes.S i) = Some ms ->
         (Datatypes.length ms <= B * (per_symbol (Datatypes.length bases) (Datatypes.length noC) * (S + 4 * i)))%nat)
    /\ (Datatypes.length (sorted_models st) <= Datatypes.length ks
         + B * per_symbol (Datatypes.length bases) (Datatypes.length noC) * (Z.to_nat rounds * (S + 2 * Z.to_nat rounds)))%nat.
  Proof.
    intros Ek Hk Hr V Hb H. set (g := fun i => (S + 4 * i)%nat). assert (HG : In (rules_default offset) (groups offset)) by (cbn; auto).
    assert (Bd : bounded bases noC g B (Datatypes.length ks) st).
    { eapply (explore_bounded sle Hsle next fit Hfit Hall u offset (rules_default offset) HG bases noC g); [..|exact Ek| |reflexivity|exact Hr|exact V|exact Hb|exact H].
      - intros k. unfold g. lia.
      - intros k e x We Le Hx. pose proof (expand_default_size offset bases noC e x We Hx) as Hs. unfold g in *. lia.
      - intros s Hs. destruct (Hk s Hs) as [Ws Ls]. split; [exact Ws|]. unfold g. lia. }
    split; [intros i ms m Hi Hm; exact (proj2 (proj1 (Bd i ms Hi) m Hm))|]. split; [intros i ms Hi; exact (proj2 (Bd (Datatypes.S i) ms Hi))|].
    pose proof (explore_inv sle Hsle next fit Hfit offset _ u _ _ _ _ _ _ _ H) as I.
    rewrite (Permutation_length (i_perm _ _ _ _ _ I)).
    pose proof (explore_rounds sle fit offset (rules_default offset bases noC) u start rounds beam verbose w w' st Hr V H) as HL.
    set (K := per_symbol (Datatypes.length bases) (Datatypes.length noC)) in *.
    etransitivity; [apply (concat_total (fun i => match i with O => Datatypes.length ks | Datatypes.S j => (B * (K * g j))%nat end) _ 0); intros i ms Hi; exact (proj2 (Bd i ms Hi))|].
    rewrite HL. cbn [seq map list_sum fold_right]. apply Nat.add_le_mono_l.
    etransitivity; [|apply (sum_rounds (B * K) S (Z.to_nat rounds))]. apply Nat.eq_le_incl. fold (list_sum (map (fun i => match i with O => Datatypes.length ks | Datatypes.S j => (B * (K * g j))%nat end) (seq 1 (Z.to_nat rounds)))).
    f_equal. apply map_ext_in. intros [|j] Hj; [apply in_seq in Hj; lia|]. unfold g. replace (Datatypes.S j - 1)%nat with j by lia. apply Nat.mul_assoc.
  Qed.
End Explore.
