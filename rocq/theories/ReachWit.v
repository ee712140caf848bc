(** The built-in rules and searches: completeness, and examples (C58-C61). *)
From Coq Require Import String List Bool Arith ZArith Lia Permutation.
From Verif Require Import Py UtilModel KexModel KexSpec KexProofs KexSimp KexCong KexMore KexCheck OpsModel OpsSpec OpsProofs SearchModel SearchSpec SearchProofs
  ReachSpec ReachProofs ReachCong ReachSearch ReachOver SemSpec CountSpec CostSpec.
Import ListNotations.
Local Open Scope list_scope.
Local Open Scope Z_scope.

Lemma full_groups_groups offset G : In G (full_groups offset) -> In G (groups offset).
Proof. cbn. tauto. Qed.
Lemma full_groups_enough offset G bases noC : In G (full_groups offset) -> enough_rules offset bases noC (G bases noC).
Proof.
  intros H. cbn [full_groups In] in H. unfold enough_rules.
  destruct H as [<-|[<-|[<-|[]]]]; cbn [rules_all rules_default rules_original In]; repeat (split; [tauto|]); tauto.
Qed.
Lemma complete_in offset bases noC rules start t : grammar_bases bases noC -> wf_rules rules -> enough_rules offset bases noC rules -> wf start ->
  searchable offset bases t -> exists n e, (n <= 3 * symbols t - 1)%nat /\ reaches_in offset rules start n e /\ keq e t = true.
Proof.
  intros GB WR ER W S. assert (BR : basic_rules offset bases noC rules) by (destruct ER as (R1 & R2 & R3 & _); repeat split; assumption).
  destruct (complete offset bases noC rules start GB BR WR W t ER S) as (n & e & Hn & He & _ & R). exists n, e.
  split; [exact Hn|]. split; [exact He|apply keq_spec, R].
Qed.
Lemma complete_in_groups offset bases noC G start t : grammar_bases bases noC -> In G (full_groups offset) -> wf start ->
  searchable offset bases t -> exists n e, (n <= 3 * symbols t - 1)%nat /\ reaches_in offset (G bases noC) start n e /\ keq e t = true.
Proof.
  intros GB HG. apply (complete_in offset bases noC (G bases noC)); [exact GB|apply (groups_wf offset G), full_groups_groups, HG|apply full_groups_enough, HG].
Qed.
Lemma complete_eq offset bases noC rules start t : grammar_bases bases noC -> wf_rules rules -> enough_rules offset bases noC rules -> wf start ->
  searchable offset bases t -> exists e, reaches offset rules start e /\ keq e t = true.
Proof.
  intros GB WR ER W S. destruct (complete_in offset bases noC rules start t GB WR ER W S) as (n & e & _ & He & E). exists e. split; [|exact E].
  apply reaches_iff. exists n. exact He.
Qed.
Lemma complete_groups offset bases noC G start t : grammar_bases bases noC -> In G (full_groups offset) -> wf start ->
  searchable offset bases t -> exists e, reaches offset (G bases noC) start e /\ keq e t = true.
Proof.
  intros GB HG. apply (complete_eq offset bases noC (G bases noC)); [exact GB|apply (groups_wf offset G), full_groups_groups, HG|apply full_groups_enough, HG].
Qed.

(** ** Searches *)
Lemma groups_expand_cong offset G bases noC e e' : In G (groups offset) -> wf e -> wf e' -> keq e e' = true ->
  same_up_to_eq (expand offset (G bases noC) e) (expand offset (G bases noC) e').
Proof. intros HG W W'. apply expand_cong; [exact W|exact W'|apply (groups_wf offset G), HG|apply (groups_cong offset G), HG]. Qed.
Section Find.
  Context {D Sc W : Type} (sle : Sc -> Sc -> bool) (Hsle : total_preorder sle).
  Context (next : W -> nat) (fit : fitter D W) (Hfit : fresh_fitter next fit) (Hall : fits_each fit) (u : gp D -> res Sc).
  Lemma explore_finds offset bases noC G start ks t : never_raises fit u -> grammar_bases bases noC -> In G (full_groups offset) ->
    make_simple_kexs offset start = Ok ks -> ks <> [] -> (forall s, In s ks -> wf s) -> searchable offset bases t ->
    exists n, forall rounds w, n <= rounds -> exists w' st B, forall b, B <= b ->
      explore_model_space sle offset fit (G bases noC) u start rounds (BInt b) false w = (w', Ok st) /\ has_equal (tested_k_exprs st) t.
  Proof.
    intros N GB HG Ek Hne Ws S. destruct ks as [|s ks']; [congruence|]. set (ks := s :: ks') in *.
    destruct (complete_groups offset bases noC G s t GB HG (Ws s (or_introl eq_refl)) S) as (e & He & Ee).
    apply reaches_iff in He as (n & He). exists (Z.of_nat n). intros rounds w Hr.
    destruct (explore_wide sle Hsle next fit Hfit offset (G bases noC) u start ks rounds w N Ek ltac:(lia)) as (w' & st & B & HB).
    exists w', st, B. intros b Hb. destruct (HB b Hb) as [E HA]. split; [exact E|]. apply has_equal_trans with (y := e); [rewrite keq_sym; exact Ee|].
    pose proof (full_groups_groups _ _ HG) as HG'.
    apply (explore_exhaustive sle Hsle next fit Hfit Hall offset (G bases noC) u start ks rounds (BInt b) false w w' st
             (groups_wf offset G bases noC HG') (groups_cong offset G bases noC HG') Ek Ws ltac:(lia) E HA s n e (or_introl eq_refl) ltac:(lia) He).
  Qed.
  Lemma explore_over offset bases noC G start ks rounds beam verbose w w' st bs : In G (groups offset) ->
    (forall b, In b bases \/ In b noC -> In b bs) -> In bLIN bs -> In bPER bs -> In bC bs ->
    make_simple_kexs offset start = Ok ks -> (forall s, In s ks -> wf s /\ over bs s) ->
    explore_model_space sle offset fit (G bases noC) u start rounds beam verbose w = (w', Ok st) ->
    forall x, In x (tested_k_exprs st) -> over bs x.
  Proof.
    intros HG Hb HL HP HC Ek Hs H x Hx.
    destruct (explore_sound sle Hsle next fit Hfit Hall offset (G bases noC) u start ks rounds beam verbose w w' st Ek H x Hx) as (s & n & Hin & _ & R).
    destruct (Hs s Hin) as [Wf O]. apply (reached_over offset bs HL HP HC G bases noC s x HG Hb Wf O). apply reaches_iff. eauto.
  Qed.
End Find.

(** ** Examples *)
(** WN + CW(LIN * PER, C + PER) * LIN. *)
Definition ex_target : kex :=
  Comm KSum [(bWN, 1)] [Comm KProd [(bLIN, 1)] [Change CW (inr (Comm KProd [(bLIN, 1); (bPER, 1)] [])) (inr (Comm KSum [(bC, 1); (bPER, 1)] []))]].
Definition ex_bases : list base := [bWN; bC; bLIN; bPER].
Definition ex_noC : list base := [bWN; bLIN; bPER].
Lemma ex_grammar : grammar_bases ex_bases ex_noC.
Proof.
  unfold grammar_bases, ex_bases, ex_noC. split; [intros b H; repeat destruct H as [<-|H]; reflexivity || destruct H|]. split; [cbn; auto|]. split; [cbn; auto 6|].
  intros b H Hb. repeat destruct H as [<-|H]; cbn; auto; congruence.
Qed.
Lemma ex_pos (c : counter) (l : list base) : forallb (fun b => negb (0 <? cget c b) || existsb (base_eqb b) l) all_bases = true -> forall b, 0 < cget c b -> In b l.
Proof.
  intros H b Hb. rewrite forallb_forall in H. specialize (H b (all_bases_in b)). apply Z.ltb_lt in Hb. rewrite Hb in H. cbn in H.
  apply existsb_exists in H as (x & Hx & E). apply base_eqb_spec in E as <-. exact Hx.
Qed.
Lemma ex_searchable : searchable true ex_bases ex_target.
Proof.
  split; [apply normalb_sound; reflexivity|]. split; [apply okb_sound; reflexivity|]. split.
  - unfold ex_target. apply over_comm. split; [apply ex_pos; reflexivity|]. intros c [<-|[]]. apply over_comm. split; [apply ex_pos; reflexivity|].
    intros c [<-|[]]. apply over_change. split; apply over_comm; (split; [apply ex_pos; reflexivity|intros ? []]).
  - left. intros (k & b & c & [= <- <- <-] & H). discriminate H.
Qed.
Lemma toy_never_raises : never_raises toy_fit toy_score.
Proof.
  split; [|intros m; eexists; reflexivity]. intros w ks. revert w. induction ks as [|k ks IH]; intros w; [do 2 eexists; reflexivity|].
  unfold toy_fit in *. cbn [fit_mods_not_parallel]. change (fit_one_model toy_attempt 1 w k) with (S w, Ok {| gid := w; gkex := k; gdata := tt |}).
  cbv beta iota. destruct (IH (S w)) as (w' & ms & ->). do 2 eexists. reflexivity.
Qed.
