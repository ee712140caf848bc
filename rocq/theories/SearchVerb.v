(** When printing the progress of a search raises (C48). *)
From Coq Require Import String List Bool Arith ZArith Lia Sorted Permutation.
From Verif Require Import Py UtilModel KexModel OpsModel OpsSpec SearchModel SearchSpec SearchProofs.
Import ListNotations.
Local Open Scope list_scope.
Local Open Scope Z_scope.

Section Verb.
  Context {D Sc W : Type} (sle : Sc -> Sc -> bool) (Hsle : total_preorder sle).
  Context (next : W -> nat) (fit : fitter D W) (Hfit : fresh_fitter next fit) (offset : bool) (rules : list rule) (u : gp D -> res Sc).
  Notation inv := (inv sle next u).
  Notation heap := (@heap Sc).

  Lemma slice_pos {A} (l : list A) b : 0 < b -> slice_to l b = [] <-> l = [].
  Proof.
    intros Hb. unfold slice_to. destruct (Z.ltb_spec b 0); [lia|]. destruct (Z.to_nat b) as [|n] eqn:E; [lia|].
    destruct l; cbn; split; congruence.
  Qed.
  Lemma print_pos {A} (l : list A) (w : W * heap) : l <> [] -> print_list l w = (w, Ok tt).
  Proof. destruct l; [congruence|reflexivity]. Qed.

  (** A round that prints, in terms of the same round without printing. *)
  Lemma round_loud beam b0 bt r b st w w' st' : inv w st -> search_round sle offset fit rules u false beam r b st w = (w', Ok st') ->
    beam = b0 :: bt -> 0 < b0 -> 0 < b -> length (tested_models st) = r ->
    exists rk, tested_models st' = tested_models st ++ [rk]
    /\ search_round sle offset fit rules u true beam r b st w = match rk with [] => (w', Raise EIndexError) | _ => (w', Ok st') end.
  Proof.
    intros I H -> Hb0 Hb L. pose proof (round_inv sle Hsle next fit Hfit offset rules u _ _ _ _ _ _ _ _ I H) as I'.
    destruct (round_parts sle fit offset rules u _ _ _ _ _ _ _ _ H) as (w1 & fitted & w2 & rk & srt & Ef & Es & Ec & ->). clear H.
    exists rk. split; [reflexivity|]. unfold search_round, bindM, run_fitter. rewrite Ef. cbn [fst snd]. rewrite Es, Ec.
    assert (E : nth_error (tested_models st ++ [rk]) r = Some rk) by (subst r; rewrite nth_error_app2, Nat.sub_diag by lia; reflexivity).
    rewrite E. destruct rk as [|m rk].
    - replace (slice_to (@nil (gp D)) b0) with (@nil (gp D)); [reflexivity|]. symmetry. apply slice_pos; [exact Hb0|reflexivity].
    - destruct I' as [_ _ _ P _ _ Sp _]. cbn [sorted_models tested_models expanded not_expanded] in *.
      assert (Lsrt : length srt = (length (concat (tested_models st)) + S (length rk))%nat).
      { rewrite (Permutation_length P), concat_app, app_length. cbn [concat]. rewrite app_nil_r. reflexivity. }
      assert (Lexp : (length (expanded st ++ slice_to (not_expanded st) b) <= length (concat (tested_models st)))%nat).
      { destruct I as [_ _ _ P0 _ _ S0 _]. apply Permutation_length in P0, S0. destruct (slice_to_prefix (not_expanded st) b) as (q & Hq).
        rewrite app_length in *. apply (f_equal (@length _)) in Hq. rewrite app_length in Hq. lia. }
      rewrite !print_pos; [reflexivity| | |].
      + intros Hs. apply slice_pos in Hs; [|exact Hb]. rewrite Hs, app_nil_r in Sp. apply Permutation_length in Sp. lia.
      + intros Hs. apply slice_pos in Hs; [|exact Hb0]. subst srt. cbn in Lsrt. lia.
      + intros Hs. apply slice_pos in Hs; [discriminate|exact Hb0].
  Qed.

  Definition all_new (l : list (list (gp D))) : Prop := Forall (fun ms => ms <> []) l.
  Lemma loop_loud b0 bt n : forall bs r st w w' st', inv w st ->
    search_loop sle offset fit rules u false (b0 :: bt) (combine (seq r n) bs) st w = (w', Ok st') ->
    0 < b0 -> (forall b, In b bs -> 0 < b) -> length (tested_models st) = r ->
    exists more, tested_models st' = tested_models st ++ more
    /\ (all_new more -> search_loop sle offset fit rules u true (b0 :: bt) (combine (seq r n) bs) st w = (w', Ok st'))
    /\ (~ all_new more -> exists w1, search_loop sle offset fit rules u true (b0 :: bt) (combine (seq r n) bs) st w = (w1, Raise EIndexError)).
  Proof.
    induction n as [|n IH]; intros bs r st w w' st' I H Hb0 Hbs L.
    { cbn in *. injection H as <- <-. exists []. rewrite app_nil_r. split; [reflexivity|]. split; [reflexivity|]. intros N. destruct N. constructor. }
    destruct bs as [|b bs].
    { cbn in *. injection H as <- <-. exists []. rewrite app_nil_r. split; [reflexivity|]. split; [reflexivity|]. intros N. destruct N. constructor. }
    cbn [seq combine search_loop] in *. destruct (bindM_ok _ _ _ _ _ H) as (w1 & st1 & H1 & H2).
    destruct (round_loud _ b0 bt r b st w w1 st1 I H1 eq_refl Hb0 (Hbs b (or_introl eq_refl)) L) as (rk & T1 & R1).
    destruct (IH bs (S r) st1 w1 w' st') as (more & T2 & A & B); [|exact H2|exact Hb0|intros; apply Hbs; right; assumption| |].
    { exact (round_inv sle Hsle next fit Hfit offset rules u _ _ _ _ _ _ _ _ I H1). }
    { rewrite T1, app_length, L. cbn. lia. }
    exists (rk :: more). split; [rewrite T2, T1, <- app_assoc; reflexivity|].
    split; intros N; unfold bindM; rewrite R1; destruct rk as [|m rk].
    - inversion N; congruence.
    - apply A. inversion N; assumption.
    - eexists; reflexivity.
    - apply B. intros N'. apply N. constructor; [discriminate|exact N'].
  Qed.

  Lemma loud_search (Hall : fits_each fit) start rounds beam w w' st : 0 < rounds -> valid_beam rounds beam ->
    (forall i z, (i < Z.to_nat rounds)%nat -> beam_value beam i z -> 0 < z) ->
    explore_model_space sle offset fit rules u start rounds beam false w = (w', Ok st) ->
    (all_new (tested_models st) -> explore_model_space sle offset fit rules u start rounds beam true w = (w', Ok st))
    /\ (~ all_new (tested_models st) -> exists w1, explore_model_space sle offset fit rules u start rounds beam true w = (w1, Raise EIndexError)).
  Proof.
    intros Hr V Hb H.
    destruct (explore_parts sle fit offset rules u _ _ _ _ _ _ _ H) as (ks & w1 & fitted & w2 & rk & w3 & srt & bs & Ek & Ef & E1 & E2 & Eb & E3).
    pose proof (start_inv sle Hsle next fit Hfit u _ _ _ _ _ _ _ _ Ef E1 E2) as I.
    destruct (norm_beam_spec rounds beam (Z.lt_le_incl _ _ Hr) V) as (bs' & Eb' & L & Hbs). rewrite Eb in Eb'. injection Eb' as <-.
    assert (Hpos : forall b, In b bs -> 0 < b).
    { intros b Hin. destruct (In_nth_error _ _ Hin) as (i & Hi). assert (i < Z.to_nat rounds)%nat by (rewrite <- L; apply nth_error_Some; congruence).
      apply (Hb i b); [assumption|]. apply Hbs; assumption. }
    destruct bs as [|b0 bt]; [cbn in L; lia|]. assert (Hb0 : 0 < b0) by (apply Hpos; left; reflexivity).
    destruct (loop_loud b0 bt _ _ _ _ _ _ _ I E3 Hb0 Hpos eq_refl) as (more & T & A & B). cbn [tested_models app] in T.
    assert (Lks : length rk = length ks).
    { rewrite <- (Hall _ _ _ _ Ef), map_length. destruct (sorted_by_score_ok sle Hsle _ _ _ _ _ E1) as (P & _). apply (Permutation_length P). }
    assert (Lrk : length srt = length rk) by (destruct (sorted_by_score_ok sle Hsle _ _ _ _ _ E2) as (P & _); apply (Permutation_length P)).
    assert (Hsrt : rk <> [] -> forall wx : W * heap, print_list (slice_to srt b0) wx = (wx, Ok tt)).
    { intros N wx. apply print_pos. intros Hs. apply slice_pos in Hs; [|exact Hb0]. subst srt. destruct rk; [congruence|discriminate]. }
    assert (Hst : rk <> [] -> forall wx : W * heap, print_list (slice_to (sorted_models st) b0) wx = (wx, Ok tt)).
    { intros N wx. apply print_pos. intros Hs. apply slice_pos in Hs; [|exact Hb0].
      destruct (loop_inv sle Hsle next fit Hfit offset rules u _ _ _ _ _ _ _ I E3) as [_ _ _ P _ _ _ _]. rewrite Hs, T in P.
      apply Permutation_length in P. cbn in P. rewrite app_length in P. destruct rk; [congruence|cbn in P; lia]. }
    assert (Hks : rk <> [] -> forall wx : W * heap, print_list ks wx = (wx, Ok tt)).
    { intros N wx. apply print_pos. intros ->. destruct rk; [congruence|discriminate]. }
    unfold explore_model_space, bindM, lift, run_fitter. rewrite Ek, T.
    split; intros N.
    - inversion N; subst. rewrite Hks by assumption. cbn [fst snd]. rewrite Ef, E1. cbn [concat]. rewrite app_nil_r, E2, Eb.
      rewrite Hsrt by assumption. unfold model_search_rounds. rewrite A by assumption. rewrite Hst by assumption. reflexivity.
    - destruct rk as [|m rk].
      + destruct ks; [|discriminate]. eexists. reflexivity.
      + rewrite Hks by discriminate. cbn [fst snd]. rewrite Ef, E1. cbn [concat]. rewrite app_nil_r, E2, Eb.
        rewrite Hsrt by discriminate. unfold model_search_rounds.
        destruct B as (wx & B); [intros N'; apply N; constructor; [discriminate|exact N']|]. rewrite B. eexists; reflexivity.
  Qed.
  Lemma loud_no_rounds start beam w w' st : valid_beam 0 beam ->
    explore_model_space sle offset fit rules u start 0 beam false w = (w', Ok st) ->
    exists w1, explore_model_space sle offset fit rules u start 0 beam true w = (w1, Raise EIndexError).
  Proof.
    intros V H.
    destruct (explore_parts sle fit offset rules u _ _ _ _ _ _ _ H) as (ks & w1 & fitted & w2 & rk & w3 & srt & bs & Ek & Ef & E1 & E2 & Eb & E3).
    destruct (norm_beam_spec 0 beam ltac:(lia) V) as (bs' & Eb' & L & _). rewrite Eb in Eb'. injection Eb' as <-.
    destruct bs; [|discriminate]. unfold explore_model_space, bindM, lift, run_fitter. rewrite Ek. destruct ks as [|k ks]; [eexists; reflexivity|].
    cbn [print_list ret fst snd]. rewrite Ef, E1. cbn [concat]. rewrite app_nil_r, E2, Eb. eexists; reflexivity.
  Qed.
End Verb.
