(** Proofs about wider beams. *)
From Coq Require Import String List Bool Arith ZArith Lia Permutation Sorted.
From Verif Require Import Py UtilModel UtilSpec UtilProofs KexModel KexSpec KexProofs OpsModel OpsSpec OpsProofs SearchModel SearchSpec SearchProofs ReachSpec ReachProofs ReachSearch RunSpec RunProofs BeamSpec.
Import ListNotations.
Local Open Scope list_scope.
Local Open Scope Z_scope.

Section Cover.
  Context {D D' Sc W W' : Type} (sle : Sc -> Sc -> bool) (Hsle : total_preorder sle).
  Context (next : W -> nat) (u : gp D -> res Sc) (next' : W' -> nat) (u' : gp D' -> res Sc).
  Lemma covering_no_worse w st w' st' : inv sle next u w st -> listed st -> inv sle next' u' w' st' -> listed st' ->
    (forall x, In x (tested_k_exprs st) -> has_equal (tested_k_exprs st') x) -> agreeing_scores sle u st u' st' -> no_worse sle u st u' st'.
  Proof.
    intros I L I' L' C A best others E.
    assert (Hb : In best (sorted_models st)) by (rewrite E; left; reflexivity).
    assert (Hb' : In best (concat (tested_models st))) by (eapply Permutation_in; [apply (i_perm _ _ _ _ _ I)|exact Hb]).
    destruct (i_cache _ _ _ _ _ I best Hb') as (s & Hs & _).
    destruct (C (gkex best)) as (y & Hy & Ey); [apply L; eauto|].
    apply L' in Hy as (m & Hm & <-). destruct (i_cache _ _ _ _ _ I' m Hm) as (s2 & Hs2 & _).
    assert (Hm' : In m (sorted_models st')) by (eapply Permutation_in; [symmetry; apply (i_perm _ _ _ _ _ I')|exact Hm]).
    destruct (A (gkex best) s (gkex m) s2) as [_ A2]; [exists best; auto|exists m; auto|exact Ey|].
    pose proof (i_ranked _ _ _ _ _ I') as Hr. destruct (sorted_models st') as [|b' o'] eqn:E'; [destruct Hm'|].
    inversion Hr as [|? ? _ Hf]; subst. destruct Hm' as [->|Hm'].
    - exists m, o', s, s2. auto.
    - rewrite Forall_forall in Hf. destruct (Hf m Hm') as (sa & sb & Ha & Hb2 & Hab). rewrite Hs2 in Hb2. injection Hb2 as <-.
      exists b', o', s, sa. repeat (split; [assumption || reflexivity|]). destruct Hsle as [_ Ht]. exact (Ht _ _ _ Hab A2).
  Qed.
End Cover.

Section Runs.
  Context {D Sc W : Type} (sle : Sc -> Sc -> bool) (Hsle : total_preorder sle).
  Context (next : W -> nat) (fit : fitter D W) (Hfit : fresh_fitter next fit) (Hall : fits_each fit) (offset : bool) (rules : list rule) (u : gp D -> res Sc).
  Lemma explore_listed start rounds beam verbose w w' st : explore_model_space sle offset fit rules u start rounds beam verbose w = (w', Ok st) -> listed st.
  Proof.
    intros H. destruct (explore_parts sle fit offset rules u _ _ _ _ _ _ _ H) as (ks & w1 & fitted & w2 & rk & w3 & srt & bs & Ek & Ef & E1 & E2 & Eb & E3).
    pose proof (start_inv sle Hsle next fit Hfit u _ _ _ _ _ _ _ _ Ef E1 E2) as I.
    pose proof (start_listed sle Hsle fit Hall u ks _ _ _ _ _ _ srt Ef E1) as L.
    set (st0 := {| sorted_models := srt; tested_models := [rk]; tested_k_exprs := ks; expanded := []; not_expanded := srt |}) in *.
    exact (proj1 (loop_sound sle Hsle next fit Hfit Hall offset rules u ks verbose bs _ 0%nat st0 _ _ _ I L (start_sound offset rules ks st0 eq_refl) E3)).
  Qed.
  Lemma slice_wider {A} (l : list A) b b' x : 0 <= b <= b' -> In x (slice_to l b) -> In x (slice_to l b').
  Proof.
    intros [H1 H2] H. unfold slice_to in *. destruct (Z.ltb_spec b 0); [lia|]. destruct (Z.ltb_spec b' 0); [lia|].
    replace (Z.to_nat b') with (Z.to_nat b + (Z.to_nat b' - Z.to_nat b))%nat by lia. rewrite <- (firstn_skipn (Z.to_nat b) l).
    rewrite firstn_app. apply in_app_iff. left. rewrite firstn_firstn. rewrite Nat.min_r by lia. exact H.
  Qed.
  Lemma round_wider bm r b st w w1 st1 bm' r' b' w' st' : 0 <= b <= b' ->
    search_round sle offset fit rules u false bm r b st w = (w1, Ok st1) -> search_round sle offset fit rules u false bm' r' b' st w = (w', Ok st') ->
    forall x, In x (tested_k_exprs st1) -> has_equal (tested_k_exprs st') x.
  Proof.
    intros Hb H1 H2 x Hx. apply round_parts in H1 as (wa & fa & wb & ra & sa & _ & _ & _ & ->). apply round_parts in H2 as (wc & fc & wd & rc & sc & _ & _ & _ & ->).
    cbn [tested_k_exprs] in *. apply in_app_iff in Hx as [Hx|Hx]; [exists x; split; [apply in_app_iff; auto|apply keq_refl]|].
    apply (new_from offset rules) in Hx as (m & Hm & Hx). apply (new_covers offset rules st b' m x); [|exact Hx]. exact (slice_wider _ _ _ _ Hb Hm).
  Qed.
  Lemma search_wider_at_end start n beam beam' w w1 st w' st' : 0 <= n -> valid_beam (n + 1) beam -> valid_beam (n + 1) beam' -> wider_at_end (Z.to_nat n) beam beam' ->
    explore_model_space sle offset fit rules u start (n + 1) beam false w = (w1, Ok st) ->
    explore_model_space sle offset fit rules u start (n + 1) beam' false w = (w', Ok st') ->
    agreeing_scores sle u st u st' -> no_worse sle u st u st'.
  Proof.
    intros Hn V V' [P Q] H H' A.
    destruct (norm_beam_spec (n + 1) beam ltac:(lia) V) as (bs & Eb & Lb & Hbs). destruct (norm_beam_spec (n + 1) beam' ltac:(lia) V') as (bs' & Eb' & Lb' & Hbs').
    assert (N1 : Z.to_nat (n + 1) = S (Z.to_nat n)) by lia. rewrite N1 in *.
    assert (Split : forall l : list Z, length l = S (Z.to_nat n) -> exists p z, l = p ++ [z] /\ length p = Z.to_nat n).
    { intros l Hl. destruct (rev l) as [|z p] eqn:E; [apply (f_equal (@length Z)) in E; rewrite rev_length in E; cbn in E; lia|].
      exists (rev p), z. assert (El : l = rev p ++ [z]) by (rewrite <- (rev_involutive l), E; reflexivity). split; [exact El|].
      apply (f_equal (@length Z)) in El. rewrite app_length in El. cbn in El. lia. }
    destruct (Split bs Lb) as (p & b & -> & Lp). destruct (Split bs' Lb') as (p' & b' & -> & Lp').
    assert (p' = p) as ->.
    { apply nth_error_ext. intros i. destruct (Nat.lt_ge_cases i (Z.to_nat n)) as [Hi|Hi].
      - destruct (nth_error p i) as [z|] eqn:E; [|apply nth_error_None in E; lia].
        assert (nth_error (p ++ [b]) i = Some z) by (rewrite nth_error_app1 by lia; exact E).
        apply Hbs in H0; [|lia]. apply P in H0; [|exact Hi]. apply Hbs' in H0; [|lia]. rewrite nth_error_app1 in H0 by lia. exact H0.
      - transitivity (@None Z); [apply nth_error_None; lia|symmetry; apply nth_error_None; lia]. }
    assert (Hb : 0 <= b <= b').
    { apply Q; [apply Hbs; [lia|]|apply Hbs'; [lia|]]; rewrite nth_error_app2 by lia; rewrite ?Lp, Nat.sub_diag; reflexivity. }
    pose proof (explore_inv sle Hsle next fit Hfit offset rules u _ _ _ _ _ _ _ H) as I. pose proof (explore_inv sle Hsle next fit Hfit offset rules u _ _ _ _ _ _ _ H') as I'.
    apply (covering_no_worse sle Hsle next u next u _ _ _ _ I (explore_listed _ _ _ _ _ _ _ H) I' (explore_listed _ _ _ _ _ _ _ H')); [|exact A].
    rewrite explore_quiet in H, H'. unfold bindM, lift in H, H'. rewrite Eb in H. rewrite Eb' in H'.
    destruct (start_phase sle fit offset u start w) as [w2 [st0|e]]; [|discriminate].
    rewrite (rounds_app sle fit offset rules u n 1 p [b] st0 w2 Hn ltac:(lia) Lp) in H. rewrite (rounds_app sle fit offset rules u n 1 p [b'] st0 w2 Hn ltac:(lia) Lp) in H'.
    destruct (model_search_rounds sle offset fit rules u n p false st0 w2) as [w3 [st3|e]]; [|discriminate].
    unfold model_search_rounds in H, H'. change (Z.to_nat 1) with 1%nat in H, H'. cbn [seq combine search_loop] in H, H'.
    apply bindM_ok in H as (w4 & st4 & H & H4). injection H4 as <- <-. apply bindM_ok in H' as (w5 & st5 & H' & H5). injection H5 as <- <-.
    exact (round_wider _ _ _ _ _ _ _ _ _ _ _ _ Hb H H').
  Qed.
End Runs.

Lemma search_exhaustive_best {D Sc W D' W'} (sle : Sc -> Sc -> bool) : total_preorder sle ->
  forall (next : W -> nat) (fit : fitter D W), fresh_fitter next fit -> fits_each fit -> forall (u : gp D -> res Sc),
  forall (next' : W' -> nat) (fit' : fitter D' W'), fresh_fitter next' fit' -> fits_each fit' -> forall (u' : gp D' -> res Sc),
  forall offset rules start ks rounds rounds' beam beam' v v' w w1 st w' w1' st', wf_rules rules -> respects_eq rules ->
  make_simple_kexs offset start = Ok ks -> (forall s, In s ks -> wf s) -> 0 <= rounds' -> rounds <= rounds' ->
  explore_model_space sle offset fit rules u start rounds beam v w = (w1, Ok st) ->
  explore_model_space sle offset fit' rules u' start rounds' beam' v' w' = (w1', Ok st') ->
  beam_at_least rounds' beam' (Z.of_nat (Datatypes.length (sorted_models st'))) ->
  agreeing_scores sle u st u' st' -> no_worse sle u st u' st'.
Proof.
  intros Hsle next fit Hfit Hall u next' fit' Hfit' Hall' u' offset rules start ks rounds rounds' beam beam' v v' w w1 st w' w1' st' Wr Cr Ek Ws Hr Hrr H H' B A.
  apply (covering_no_worse sle Hsle next u next' u' _ _ _ _ (explore_inv sle Hsle next fit Hfit offset rules u _ _ _ _ _ _ _ H)
    (explore_listed sle Hsle next fit Hfit Hall offset rules u _ _ _ _ _ _ _ H) (explore_inv sle Hsle next' fit' Hfit' offset rules u' _ _ _ _ _ _ _ H')
    (explore_listed sle Hsle next' fit' Hfit' Hall' offset rules u' _ _ _ _ _ _ _ H')); [|exact A].
  intros x Hx. destruct (explore_sound sle Hsle next fit Hfit Hall offset rules u _ _ _ _ _ _ _ _ Ek H x Hx) as (s & n & Hs & Hn & R).
  apply (explore_exhaustive sle Hsle next' fit' Hfit' Hall' offset rules u' _ _ _ _ _ _ _ _ Wr Cr Ek Ws Hr H' B s n x Hs); [lia|exact R].
Qed.
