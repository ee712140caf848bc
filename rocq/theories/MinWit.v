(** The minimal group of rules: what it reaches and what searches with it find (C76). *)
From Coq Require Import String List Bool Arith ZArith Lia Permutation.
From Verif Require Import Py UtilModel KexModel KexSpec KexProofs KexSimp KexCong KexMore KexCheck OpsModel OpsSpec OpsProofs SearchModel SearchSpec SearchProofs
  ReachSpec ReachProofs ReachCong ReachSearch ReachOver ReachWit ReachMin ReachKeep SemSpec CountSpec CostSpec.
Import ListNotations.
Local Open Scope list_scope.
Local Open Scope Z_scope.

Lemma minimal_group offset : In (rules_minimal offset) (groups offset). Proof. cbn. tauto. Qed.
Lemma minimal_basic offset bases noC : basic_rules offset bases noC (rules_minimal offset bases noC).
Proof. unfold basic_rules. cbn [rules_minimal In]. tauto. Qed.
Lemma minimal_change offset bases noC : In (change_same offset) (rules_minimal offset bases noC). Proof. cbn [rules_minimal In]. tauto. Qed.
Section Min.
  Context (offset : bool) (bases noC : list base) (GB : grammar_bases bases noC) (WN : In bWN bases).
  Notation rules := (rules_minimal offset bases noC).
  Let WR : wf_rules rules := groups_wf offset _ bases noC (minimal_group offset).
  Lemma minimal_from_base A t : searchable offset bases t ->
    exists n e, (n <= 6 * symbols t - 3)%nat /\ reaches_in offset rules (Comm KSum [(A, 1)] []) n e /\ keq e t = true.
  Proof.
    intros S. destruct (min_complete offset bases noC rules (leaf A) GB (minimal_basic offset bases noC) (minimal_change offset bases noC) WN WR (wf_leaf A) A t eq_refl S)
      as (n & e & Hn & He & _ & R). exists n, e. split; [exact Hn|]. split; [exact He|apply keq_spec, R].
  Qed.
  Lemma minimal_from_free start t : searchable offset bases start -> change_free start -> searchable offset bases t ->
    exists n e, reaches_in offset rules start n e /\ keq e t = true.
  Proof.
    intros S0 CF S. pose proof (normal_wf offset start (proj1 S0)) as W0.
    destruct (min_free offset bases noC rules start GB (minimal_basic offset bases noC) (minimal_change offset bases noC) WN WR W0 t S0 CF S) as (j & n & e & _ & He & _ & R).
    exists n, e. split; [exact He|apply keq_spec, R].
  Qed.
  Lemma per_searchable : searchable offset bases (leaf bPER).
  Proof.
    split; [|split; [|split]].
    - apply normal_iff. split; [split; [repeat constructor; intros []|intros b n [[= <- <-]|[]]; lia]|]. split; [cbn; repeat split; intros; lia|intros ? []].
    - intros k b c Hn. apply node_comm_inv in Hn as [[= -> -> ->]|(x & [] & _)]. reflexivity.
    - intros b [(k & b' & c & Hn & Hb)|(o & l & r & Hn & _)].
      + apply node_comm_inv in Hn as [[= -> -> ->]|(x & [] & _)]. rewrite cget_cons in Hb. destruct (base_eqb bPER b) eqn:E; [apply base_eqb_spec in E as <-; apply GB|].
        change (cget [] b) with 0 in Hb. lia.
      + apply node_comm_inv in Hn as [[=]|(x & [] & _)].
    - right. eexists. reflexivity.
  Qed.
  Lemma minimal_iff start : searchable offset bases start ->
    ((forall t, searchable offset bases t -> exists e, reaches offset rules start e /\ keq e t = true) <-> change_free start).
  Proof.
    intros S0. split.
    - intros H. destruct (H (leaf bPER) per_searchable) as (e & He & E). apply nc_free. destruct (nc start) eqn:N; [reflexivity|]. exfalso.
      destruct (reach_keeps offset bases noC start e (normal_wf offset _ (proj1 S0)) ltac:(lia) He) as [P _].
      apply keq_spec in E. rewrite (nc_reord _ _ E) in P. cbn in P. lia.
    - intros CF t S. destruct (minimal_from_free start t S0 CF S) as (n & e & He & E). exists e. split; [apply reaches_iff; exists n; exact He|exact E].
  Qed.
End Min.

Section Search.
  Context {D Sc W : Type} (sle : Sc -> Sc -> bool) (Hsle : total_preorder sle).
  Context (next : W -> nat) (fit : fitter D W) (Hfit : fresh_fitter next fit) (Hall : fits_each fit) (u : gp D -> res Sc).
  Lemma minimal_finds offset bases noC start ks s t : never_raises fit u -> grammar_bases bases noC -> In bWN bases ->
    make_simple_kexs offset start = Ok ks -> (forall s, In s ks -> wf s) -> In s ks -> searchable offset bases s -> change_free s -> searchable offset bases t ->
    exists n, forall rounds w, n <= rounds -> exists w' st B, forall b, B <= b ->
      explore_model_space sle offset fit (rules_minimal offset bases noC) u start rounds (BInt b) false w = (w', Ok st) /\ has_equal (tested_k_exprs st) t.
  Proof.
    intros N GB HW Ek Ws Hs Ss CF S.
    destruct (minimal_from_free offset bases noC GB HW s t Ss CF S) as (n & e & He & Ee). exists (Z.of_nat n). intros rounds w Hr.
    destruct (explore_wide sle Hsle next fit Hfit offset (rules_minimal offset bases noC) u start ks rounds w N Ek ltac:(lia)) as (w' & st & B & HB).
    exists w', st, B. intros b Hb. destruct (HB b Hb) as [E HA]. split; [exact E|]. apply has_equal_trans with (y := e); [rewrite keq_sym; exact Ee|].
    pose proof (minimal_group offset) as HG'.
    apply (explore_exhaustive sle Hsle next fit Hfit Hall offset (rules_minimal offset bases noC) u start ks rounds (BInt b) false w w' st
             (groups_wf offset _ bases noC HG') (groups_cong offset _ bases noC HG') Ek Ws ltac:(lia) E HA s n e Hs ltac:(lia) He).
  Qed.
  Lemma minimal_misses offset bases noC start ks rounds beam verbose w w' st : make_simple_kexs offset start = Ok ks ->
    (forall s, In s ks -> wf s /\ ~ change_free s) ->
    explore_model_space sle offset fit (rules_minimal offset bases noC) u start rounds beam verbose w = (w', Ok st) ->
    forall x, In x (tested_k_exprs st) -> exists o l r, node (Change o l r) x.
  Proof.
    intros Ek Hs H x Hx.
    destruct (explore_sound sle Hsle next fit Hfit Hall offset _ u start ks rounds beam verbose w w' st Ek H x Hx) as (s & n & Hin & _ & R).
    destruct (Hs s Hin) as [Ws C]. apply (change_stays offset bases noC s x Ws); [|apply reaches_iff; eauto].
    apply nc_node. destruct (nc s) eqn:E; [|lia]. exfalso. apply C, nc_free, E.
  Qed.
End Search.

(** ** Examples *)
(** PER + LIN * LIN, and CP(PER, LIN). *)
Definition free_start : kex := Comm KSum [(bPER, 1)] [Comm KProd [(bLIN, 2)] []].
Definition change_start : kex := Change CP (inl bPER) (inl bLIN).
Lemma free_searchable : searchable true ex_bases free_start.
Proof.
  split; [apply normalb_sound; reflexivity|]. split; [apply okb_sound; reflexivity|]. split.
  - apply over_comm. split; [apply ex_pos; reflexivity|]. intros c [<-|[]]. apply over_comm. split; [apply ex_pos; reflexivity|intros ? []].
  - left. intros (k & b & c & [= <- <- <-] & H). discriminate H.
Qed.
Lemma change_searchable : searchable true ex_bases change_start.
Proof.
  split; [apply normalb_sound; reflexivity|]. split; [apply okb_sound; reflexivity|]. split.
  - apply over_change. cbn. tauto.
  - left. intros (k & b & c & H & _). discriminate H.
Qed.
