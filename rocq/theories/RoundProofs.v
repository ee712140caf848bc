(** How many rounds and how wide a beam a search needs to try a given expression (C74). *)
From Coq Require Import String List Bool Arith ZArith Lia Permutation.
From Verif Require Import Py UtilModel UtilSpec UtilProofs KexModel KexSpec KexProofs OpsModel OpsSpec OpsProofs SearchModel SearchSpec SearchProofs
  ReachSpec ReachProofs ReachCong ReachSearch ReachWit SemSpec CountSpec CostSpec CostProofs CostMore CostSearch.
Import ListNotations.
Local Open Scope list_scope.
Local Open Scope Z_scope.

(** ** Equal expressions have as many symbols *)
Lemma symbols_keq e t : keq e t = true -> symbols e = symbols t.
Proof. intros H. apply keq_spec in H. apply zs_reord in H. unfold zs in H. lia. Qed.
Lemma reached_default_lower offset bases noC start t n e : wf start -> reaches_in offset (rules_default offset bases noC) start n e -> keq e t = true ->
  (symbols t <= symbols start + 4 * n)%nat.
Proof. intros W H E. rewrite <- (symbols_keq _ _ E). eapply reaches_default_size; eauto. Qed.
Lemma reached_lower offset G bases noC start t n e : In G (groups offset) -> wf start -> reaches_in offset (G bases noC) start n e -> keq e t = true ->
  (symbols t + 3 <= 2 ^ n * (symbols start + 3))%nat.
Proof. intros HG W H E. rewrite <- (symbols_keq _ _ E). eapply reaches_size; eauto. Qed.

(** ** The number of models a search can have after so many rounds, whatever the beam *)
Section Runs.
  Context {D Sc W : Type} (sle : Sc -> Sc -> bool) (Hsle : total_preorder sle).
  Context (next : W -> nat) (fit : fitter D W) (Hfit : fresh_fitter next fit) (Hall : fits_each fit) (u : gp D -> res Sc).
  Context (offset : bool) (G : list base -> list base -> list rule) (HG : In G (groups offset)) (bases noC : list base).
  Notation rules := (G bases noC).
  Notation K := (per_symbol (Datatypes.length bases) (Datatypes.length noC)).
  Context (g : nat -> nat) (Hg : forall i, (g i <= g (S i))%nat)
          (Hs : forall i e x, wf e -> (symbols e <= g i)%nat -> In x (expand offset rules e) -> (symbols x <= g (S i))%nat).
  Context (N : nat).
  Fixpoint width (j : nat) : nat := match j with O => N | S i => width i * (1 + K * g i) end.
  Definition within (j : nat) (st : results D) : Prop :=
    (forall m, In m (concat (tested_models st)) -> wf (gkex m) /\ (symbols (gkex m) <= g j)%nat)
    /\ (Datatypes.length (concat (tested_models st)) <= width j)%nat.
  Lemma slice_le {A} (l : list A) b : (Datatypes.length (slice_to l b) <= Datatypes.length l)%nat.
  Proof. unfold slice_to. destruct (b <? 0); rewrite firstn_length; lia. Qed.
  Lemma ne_count w (st : results D) : inv sle next u w st -> (Datatypes.length (not_expanded st) <= Datatypes.length (concat (tested_models st)))%nat.
  Proof.
    intros I. rewrite <- (Permutation_length (i_perm _ _ _ _ _ I)), <- (Permutation_length (i_split _ _ _ _ _ I)), app_length. lia.
  Qed.
  Lemma round_within verbose beam r b st w w' st' j : inv sle next u w st -> within j st ->
    search_round sle offset fit rules u verbose beam r b st w = (w', Ok st') -> within (S j) st'.
  Proof.
    intros I [HW HL] H. destruct (round_parts sle fit offset rules u _ _ _ _ _ _ _ _ H) as (w1 & fitted & w2 & rk & srt & Ef & Es & Ec & ->).
    apply sorted_by_score_ok in Es as (P & _); [|exact Hsle].
    assert (HN : forall m, In m (not_expanded st) -> wf (gkex m) /\ (symbols (gkex m) <= g j)%nat).
    { intros m Hm. apply HW. eapply (ne_tested sle next u w); eauto. }
    assert (HC : (Datatypes.length (new_exprs offset rules st b) <= width j * (K * g j))%nat).
    { unfold new_exprs. etransitivity; [apply filter_len|]. etransitivity; [apply unique_length|].
      etransitivity; [apply (concat_length _ (K * g j))|].
      - intros m Hm. apply slice_in in Hm. destruct (HN m Hm) as [Wm Lm]. etransitivity; [apply expand_count; assumption|]. apply Nat.mul_le_mono_l, Lm.
      - apply Nat.mul_le_mono_r. etransitivity; [apply slice_le|]. etransitivity; [apply (ne_count w), I|exact HL]. }
    unfold within. cbn [tested_models]. rewrite concat_app. cbn [concat]. rewrite app_nil_r. split.
    - intros m Hm. apply in_app_iff in Hm as [Hm|Hm].
      + destruct (HW m Hm) as [Wm Lm]. split; [exact Wm|]. specialize (Hg j). lia.
      + apply (Permutation_in m P) in Hm. assert (Hx : In (gkex m) (new_exprs offset rules st b)) by (rewrite <- (Hall _ _ _ _ Ef); apply in_map, Hm).
        apply new_from in Hx as (m' & Hm' & Hx). apply slice_in in Hm'. destruct (HN m' Hm') as [Wm Lm]. split; [|exact (Hs j _ _ Wm Lm Hx)].
        destruct (expand_sound offset _ _ Wm (groups_wf offset G bases noC HG) _ Hx) as (? & ? & ? & ? & _ & _ & _ & _ & _ & _ & Wy). exact Wy.
    - rewrite app_length, (Permutation_length P). rewrite <- (map_length gkex fitted), (Hall _ _ _ _ Ef). cbn [width]. lia.
  Qed.
  Lemma loop_within verbose beam rbs : forall st w w' st' j, inv sle next u w st -> within j st ->
    search_loop sle offset fit rules u verbose beam rbs st w = (w', Ok st') -> within (Datatypes.length rbs + j) st'.
  Proof.
    induction rbs as [|[r b] t IH]; intros st w w' st' j I Bd H; cbn [search_loop] in H; [injection H as <- <-; exact Bd|].
    apply bindM_ok in H as (w1 & st1 & H1 & H). pose proof (round_within _ _ _ _ _ _ _ _ _ I Bd H1) as B1.
    cbn [Datatypes.length Nat.add]. rewrite plus_n_Sm. eapply IH; [eapply round_inv; eauto|exact B1|exact H].
  Qed.
  Lemma explore_within start ks rounds beam verbose w w' st : make_simple_kexs offset start = Ok ks -> (forall s, In s ks -> wf s /\ (symbols s <= g 0)%nat) ->
    Datatypes.length ks = N -> 0 <= rounds -> valid_beam rounds beam ->
    explore_model_space sle offset fit rules u start rounds beam verbose w = (w', Ok st) ->
    (Datatypes.length (sorted_models st) <= width (Z.to_nat rounds))%nat.
  Proof.
    intros Ek Hk HNl Hr V H. assert (If : inv sle next u w' st) by (eapply explore_inv; eauto).
    destruct (explore_parts sle fit offset rules u _ _ _ _ _ _ _ H) as (ks' & w1 & fitted & w2 & rk & w3 & srt & bs & Ek' & Ef & E1 & E2 & Eb & E3).
    rewrite Ek in Ek'. injection Ek' as <-. pose proof (start_inv sle Hsle next fit Hfit u _ _ _ _ _ _ _ _ Ef E1 E2) as I.
    destruct (norm_beam_spec rounds beam Hr V) as (bs' & Eb' & Ln & Hbs). rewrite Eb in Eb'. injection Eb' as <-.
    rewrite (Permutation_length (i_perm _ _ _ _ _ If)).
    assert (H0 : within 0 {| sorted_models := srt; tested_models := [rk]; tested_k_exprs := ks; expanded := []; not_expanded := srt |}).
    { apply sorted_by_score_ok in E1 as (P & _); [|exact Hsle]. unfold within. cbn [tested_models concat]. rewrite app_nil_r. split.
      - intros m Hm. apply Hk. rewrite <- (Hall _ _ _ _ Ef). apply in_map. exact (Permutation_in m P Hm).
      - rewrite (Permutation_length P), <- (map_length gkex), (Hall _ _ _ _ Ef). cbn [width]. lia. }
    unfold model_search_rounds in E3. destruct (loop_within _ _ _ _ _ _ _ _ I H0 E3) as [_ HL].
    etransitivity; [exact HL|]. apply Nat.eq_le_incl. f_equal. rewrite Nat.add_0_r, combine_length, Ln.
    rewrite Nat.min_r; [reflexivity|]. rewrite seq_length. lia.
  Qed.
End Runs.

Lemma width_bound bases noC g N r : (forall i, (i < r)%nat -> (g i <= g r)%nat) -> forall j, (j <= r)%nat ->
  (width bases noC g N j <= N * (1 + per_symbol (Datatypes.length bases) (Datatypes.length noC) * g r) ^ j)%nat.
Proof.
  intros Hg. set (K := per_symbol _ _). induction j as [|j IH]; intros L; [cbn; lia|]. cbn [width]. fold K. rewrite Nat.pow_succ_r', (Nat.mul_comm (1 + K * g r)), Nat.mul_assoc.
  apply Nat.mul_le_mono; [apply IH; lia|]. apply Nat.add_le_mono_l, Nat.mul_le_mono_l, Hg. lia.
Qed.

Section Explore.
  Context {D Sc W : Type} (sle : Sc -> Sc -> bool) (Hsle : total_preorder sle).
  Context (next : W -> nat) (fit : fitter D W) (Hfit : fresh_fitter next fit) (Hall : fits_each fit) (u : gp D -> res Sc).
  Lemma explore_tries offset G bases noC start ks rounds beam verbose w w' st t : grammar_bases bases noC -> In G (full_groups offset) ->
    make_simple_kexs offset start = Ok ks -> ks <> [] -> (forall s, In s ks -> wf s) -> searchable offset bases t ->
    3 * Z.of_nat (symbols t) - 1 <= rounds -> beam_at_least rounds beam (Z.of_nat (Datatypes.length (sorted_models st))) ->
    explore_model_space sle offset fit (G bases noC) u start rounds beam verbose w = (w', Ok st) -> has_equal (tested_k_exprs st) t.
  Proof.
    intros GB HG Ek Hne Ws S Hr HB E. destruct ks as [|s ks']; [congruence|]. set (ks := s :: ks') in *.
    destruct (complete_in_groups offset bases noC G s t GB HG (Ws s (or_introl eq_refl)) S) as (n & e & Hn & He & Ee).
    assert (P : (1 <= symbols t)%nat) by apply symbols_pos.
    apply has_equal_trans with (y := e); [rewrite keq_sym; exact Ee|].
    pose proof (full_groups_groups _ _ HG) as HG'.
    apply (explore_exhaustive sle Hsle next fit Hfit Hall offset (G bases noC) u start ks rounds beam verbose w w' st
             (groups_wf offset G bases noC HG') (groups_cong offset G bases noC HG') Ek Ws ltac:(lia) E HB s n e (or_introl eq_refl) ltac:(lia) He).
  Qed.
  Lemma beam_more rounds beam a b : a <= b -> beam_at_least rounds beam b -> beam_at_least rounds beam a.
  Proof. intros L [V H]. split; [exact V|]. intros i z Hi Hz. specialize (H i z Hi Hz). lia. Qed.
  Lemma explore_tries_default offset bases noC start ks rounds beam verbose w w' st t S : grammar_bases bases noC ->
    make_simple_kexs offset start = Ok ks -> ks <> [] -> (forall s, In s ks -> wf s /\ (symbols s <= S)%nat) -> searchable offset bases t ->
    3 * Z.of_nat (symbols t) - 1 <= rounds ->
    beam_at_least rounds beam (Z.of_nat (Datatypes.length ks * (1 + per_symbol (Datatypes.length bases) (Datatypes.length noC) * (S + 4 * Z.to_nat rounds)) ^ Z.to_nat rounds)) ->
    explore_model_space sle offset fit (rules_default offset bases noC) u start rounds beam verbose w = (w', Ok st) -> has_equal (tested_k_exprs st) t.
  Proof.
    intros GB Ek Hne Hk St Hr HB E. assert (P : (1 <= symbols t)%nat) by apply symbols_pos.
    assert (HG : In (rules_default offset) (full_groups offset)) by (cbn; auto).
    eapply (explore_tries offset (rules_default offset)); [exact GB|exact HG|exact Ek|exact Hne|intros s Hs; apply Hk, Hs|exact St|exact Hr| |exact E].
    eapply beam_more; [|exact HB]. apply Nat2Z.inj_le. set (g := fun i : nat => (S + 4 * i)%nat).
    etransitivity; [eapply (explore_within sle Hsle next fit Hfit Hall u offset (rules_default offset) (full_groups_groups _ _ HG) bases noC g);
      [..|exact Ek| |reflexivity| |apply HB|exact E]|].
    - intros i. unfold g. lia.
    - intros i e x We Le Hx. pose proof (expand_default_size offset bases noC e x We Hx). unfold g in *. lia.
    - intros s Hs. destruct (Hk s Hs). split; [assumption|]. unfold g. lia.
    - lia.
    - apply (width_bound bases noC g); [|lia]. intros i Hi. unfold g. lia.
  Qed.
  Lemma explore_tries_any offset G bases noC start ks rounds beam verbose w w' st t S : grammar_bases bases noC -> In G (full_groups offset) ->
    make_simple_kexs offset start = Ok ks -> ks <> [] -> (forall s, In s ks -> wf s /\ (symbols s <= S)%nat) -> searchable offset bases t ->
    3 * Z.of_nat (symbols t) - 1 <= rounds ->
    beam_at_least rounds beam (Z.of_nat (Datatypes.length ks * (1 + per_symbol (Datatypes.length bases) (Datatypes.length noC) * (2 ^ Z.to_nat rounds * (S + 3))) ^ Z.to_nat rounds)) ->
    explore_model_space sle offset fit (G bases noC) u start rounds beam verbose w = (w', Ok st) -> has_equal (tested_k_exprs st) t.
  Proof.
    intros GB HG Ek Hne Hk St Hr HB E. assert (P : (1 <= symbols t)%nat) by apply symbols_pos.
    eapply (explore_tries offset G); [exact GB|exact HG|exact Ek|exact Hne|intros s Hs; apply Hk, Hs|exact St|exact Hr| |exact E].
    eapply beam_more; [|exact HB]. apply Nat2Z.inj_le. set (g := fun i => (2 ^ i * (S + 3) - 3)%nat).
    assert (P2 : forall i, (1 <= 2 ^ i)%nat) by (intros k; pose proof (Nat.pow_nonzero 2 k); lia).
    assert (Gm : forall i, (g i <= g (Datatypes.S i))%nat) by (intros i; unfold g; rewrite Nat.pow_succ_r'; lia).
    etransitivity; [eapply (explore_within sle Hsle next fit Hfit Hall u offset G (full_groups_groups _ _ HG) bases noC g Gm);
      [..|exact Ek| |reflexivity| |apply HB|exact E]|].
    - intros k e x We Le Hx. pose proof (expand_size offset G bases noC e x (full_groups_groups _ _ HG) We Hx) as Hs. unfold g in *. rewrite Nat.pow_succ_r'. specialize (P2 k). nia.
    - intros s Hs. destruct (Hk s Hs) as [Ws Ls]. split; [exact Ws|]. unfold g. cbn [Nat.pow]. lia.
    - lia.
    - etransitivity; [apply (width_bound bases noC g); [|apply le_n]; intros i Hi; apply (g_mono g Gm); lia|].
      apply Nat.mul_le_mono_l, Nat.pow_le_mono_l, Nat.add_le_mono_l, Nat.mul_le_mono_l. unfold g. lia.
  Qed.
  (** ** A search that prints nothing raises only what the fitting or the utility raises *)
  Definition external (e : exn) : Prop := (exists w ks w', fit w ks = (w', Raise e)) \/ exists m, u m = Raise e.
  Lemma score_raises ms : forall (w w' : W * heap) e, sorted_by_score sle u ms w = (w', Raise e) -> exists m, u m = Raise e.
  Proof.
    assert (K : forall ms (w w' : W * heap) e, keys_utility u ms w = (w', Raise e) -> exists m, u m = Raise e).
    { intros m. induction m as [|m t IH]; intros w w' e H; [discriminate H|]. cbn [keys_utility] in H. unfold bindM, compute_utility in H.
      destruct (u m) as [s|e'] eqn:E; [|exists m; congruence].
      destruct (keys_utility u t (fst w, hset (snd w) (gid m) s)) as [w1 [l|e']] eqn:E1; [discriminate H|]. injection H as _ ->. eapply IH, E1. }
    intros w w' e H. unfold sorted_by_score, bindM in H. destruct (keys_utility u ms w) as [w1 [l|e']] eqn:E; [discriminate H|]. injection H as _ ->. eapply K, E.
  Qed.
  Lemma round_raises offset rules st w beam r b w' e : inv sle next u w st ->
    search_round sle offset fit rules u false beam r b st w = (w', Raise e) -> external e.
  Proof.
    intros I H. unfold search_round, bindM, run_fitter in H. destruct (fit (fst w) (new_exprs offset rules st b)) as [w1 [ms|e']] eqn:Ef.
    2:{ left. exists (fst w), (new_exprs offset rules st b), w1. congruence. }
    destruct (sorted_by_score sle u ms (w1, snd w)) as [w2 [l|e']] eqn:Es.
    2:{ right. injection H as _ ->. eapply score_raises, Es. }
    destruct (Hfit _ _ _ _ Ef) as (F1 & F2 & F3). destruct (sorted_by_score_ok sle Hsle _ _ _ _ _ Es) as (S1 & S2 & S3 & S4 & S5 & S6). cbn [fst snd] in *.
    destruct (sorted_by_cache_ok sle Hsle u (concat (tested_models st ++ [l])) w2) as (srt & E & _); [|rewrite E in H; discriminate H].
    intros m Hm. rewrite concat_app in Hm. cbn [concat] in Hm. rewrite app_nil_r in Hm. apply in_app_iff in Hm as [Hm|Hm].
    - destruct (i_cache _ _ _ _ _ I m Hm) as (s & Hu & Hs). exists s. split; [exact Hu|]. rewrite S5; [exact Hs|].
      intros Hin. apply in_map_iff in Hin as (m2 & E & H2). pose proof (i_lt _ _ _ _ _ I _ Hm). specialize (F2 _ H2). lia.
    - apply S6; [exact F1|]. eapply Permutation_in; [exact S1|exact Hm].
  Qed.
  Lemma loop_raises offset rules beam rbs : forall st w w' e, inv sle next u w st ->
    search_loop sle offset fit rules u false beam rbs st w = (w', Raise e) -> external e.
  Proof.
    induction rbs as [|[r b] t IH]; intros st w w' e I H; [discriminate H|]. cbn [search_loop] in H. unfold bindM in H.
    destruct (search_round sle offset fit rules u false beam r b st w) as [w1 [st1|e1]] eqn:E.
    - eapply IH; [|exact H]. eapply round_inv; eauto.
    - injection H as _ ->. eapply round_raises; eauto.
  Qed.
  Lemma explore_raises offset rules start ks rounds beam w w' e : make_simple_kexs offset start = Ok ks -> 0 <= rounds -> valid_beam rounds beam ->
    explore_model_space sle offset fit rules u start rounds beam false w = (w', Raise e) ->
    (exists w0 ks w1, fit w0 ks = (w1, Raise e)) \/ exists m, u m = Raise e.
  Proof.
    intros Ek Hr V H. destruct (norm_beam_spec rounds beam Hr V) as (bs & Eb & _). unfold explore_model_space, bindM, lift, run_fitter, ret in H. rewrite Ek in H.
    destruct (fit (fst w) ks) as [w1 [ms|e']] eqn:Ef. 2:{ left. exists (fst w), ks, w1. congruence. }
    destruct (sorted_by_score sle u ms (w1, snd w)) as [w2 [rk|e']] eqn:E1. 2:{ right. injection H as _ ->. eapply score_raises, E1. }
    cbn [concat] in H. rewrite app_nil_r in H. destruct (sorted_by_score sle u rk w2) as [w3 [srt|e']] eqn:E2. 2:{ right. injection H as _ ->. eapply score_raises, E2. }
    pose proof (start_inv sle Hsle next fit Hfit u _ _ _ _ _ _ _ _ Ef E1 E2) as I. rewrite Eb in H. unfold model_search_rounds in H.
    destruct (search_loop sle offset fit rules u false bs (combine (seq 1 (Z.to_nat rounds)) bs) _ w3) as [w4 [st|e']] eqn:E3; [discriminate H|].
    injection H as _ ->. eapply loop_raises; [exact I|exact E3].
  Qed.
  Lemma explore_runs offset rules start ks rounds beam w : never_raises fit u -> make_simple_kexs offset start = Ok ks -> 0 <= rounds -> valid_beam rounds beam ->
    exists w' st, explore_model_space sle offset fit rules u start rounds beam false w = (w', Ok st).
  Proof.
    intros [Nf Nu] Ek Hr V. destruct (explore_model_space sle offset fit rules u start rounds beam false w) as [w' [st|e]] eqn:E; [eauto|].
    destruct (explore_raises offset rules start ks rounds beam w w' e Ek Hr V E) as [(w0 & ks' & w1 & H)|(m & H)].
    - destruct (Nf w0 ks') as (? & ? & H'). congruence.
    - destruct (Nu m) as (? & H'). congruence.
  Qed.
  (** ** Continuing from a model without a score *)
  Lemma keys_cached_none (h : nat -> option Sc) (m : gp D) ms : In m ms -> h (gid m) = None -> keys_cached h ms = None.
  Proof.
    intros Hin Hm. induction ms as [|a t IH]; [destruct Hin|]. cbn [keys_cached]. destruct Hin as [->|Hin]; [rewrite Hm; reflexivity|].
    rewrite (IH Hin). destruct (h (gid a)); reflexivity.
  Qed.
  Lemma round_unscored offset rules st (w : W * heap (Sc := Sc)) verbose beam r b m : never_raises fit u -> In m (concat (tested_models st)) -> (gid m < next (fst w))%nat ->
    snd w (gid m) = None -> (2 <= Datatypes.length (concat (tested_models st)))%nat ->
    exists w', search_round sle offset fit rules u verbose beam r b st w = (w', Raise ETypeError).
  Proof.
    intros [Nf Nu] Hm Hlt Hn Hl. unfold search_round, bindM, run_fitter. cbv zeta beta. destruct (Nf (fst w) (new_exprs offset rules st b)) as (w1 & ms & Ef). rewrite Ef.
    destruct (score_total sle u ms Nu (w1, snd w)) as (w2 & l & Es). rewrite Es. destruct (Hfit _ _ _ _ Ef) as (F1 & F2 & F3).
    destruct (sorted_by_score_ok sle Hsle _ _ _ _ _ Es) as (S1 & S2 & S3 & S4 & S5 & S6). cbn [fst snd] in *.
    unfold sorted_by_cache. rewrite (keys_cached_none (snd w2) m).
    - rewrite concat_app, app_length. destruct (Nat.leb_spec (Datatypes.length (concat (tested_models st)) + Datatypes.length (concat [l])) 1); [lia|].
      eexists. reflexivity.
    - rewrite concat_app. apply in_app_iff. left. exact Hm.
    - rewrite S5; [exact Hn|]. intros Hin. apply in_map_iff in Hin as (m2 & E & H2). specialize (F2 _ H2). lia.
  Qed.
  Lemma continue_unscored offset rules st (w : W * heap (Sc := Sc)) verbose beam rounds m : never_raises fit u -> 0 < rounds -> beam <> [] ->
    In m (concat (tested_models st)) -> (gid m < next (fst w))%nat -> snd w (gid m) = None -> (2 <= Datatypes.length (concat (tested_models st)))%nat ->
    exists w', model_search_rounds sle offset fit rules u rounds beam verbose st w = (w', Raise ETypeError).
  Proof.
    intros N Hr Hb Hm Hlt Hn Hl. unfold model_search_rounds. destruct beam as [|b bs]; [contradiction|].
    destruct (Z.to_nat rounds) as [|n] eqn:En; [lia|]. cbn [seq combine search_loop]. unfold bindM.
    destruct (round_unscored offset rules st w verbose (b :: bs) 1%nat b m N Hm Hlt Hn Hl) as (w' & ->). eexists. reflexivity.
  Qed.
End Explore.
