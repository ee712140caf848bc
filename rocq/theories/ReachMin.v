(** What the minimal group of rules can reach (C76). *)
From Coq Require Import List Bool Arith ZArith Lia Permutation.
From Verif Require Import Py UtilModel KexModel KexSpec KexProofs KexSimp KexCong KexMore OpsModel OpsSpec OpsProofs ReachSpec SemSpec CountSpec CostSpec ReachProofs.
Import ListNotations.
Local Open Scope list_scope.
Local Open Scope Z_scope.

Section Minimal.
  Context (offset : bool) (bases noC : list base) (rules : list rule) (e0 : kex).
  Context (GB : grammar_bases bases noC) (ER : basic_rules offset bases noC rules) (HC : In (change_same offset) rules) (WN : In bWN bases).
  Context (WR : wf_rules rules) (W0 : wf e0).
  Notation Reach := (Reach offset rules e0).
  Notation okC := (okC offset).
  Notation good := (good offset).

  (** The hole becomes a Sum or Product of a single base, which the frame around it absorbs. *)
  Lemma to_leaf i C f n k B a : Reach i (plug (f :: C) n) ->
    (forall n', wf n' -> reord n' n -> exists m', produced rules n' m' /\ reord m' (Comm k [(B, 1)] [])) ->
    wf (fill f (Comm k [(B, 1)] [])) -> simplify offset (fill f (Comm k [(B, 1)] [])) = a -> okC C a -> Reach (S i) (plug C a).
  Proof.
    intros R H Wl E O. pose proof (okC_hole offset C a O) as [N _].
    assert (Wp : wf (plug C (fill f (Comm k [(B, 1)] [])))) by (eapply wf_plug; [apply (normal_wf offset), O|exact Wl]).
    rewrite <- (standardise_ok offset (plug (f :: C) (Comm k [(B, 1)] [])) (plug C a)); [|exact Wp| |apply O|apply O].
    - eapply move; [exact WR|exact R|exact H|exact Wp].
    - cbn [plug]. rewrite <- (normal_fix offset (plug C a)) by apply O. apply simplify_plug. rewrite E. symmetry. apply normal_fix, N.
  Qed.
  (** A base of a Sum or Product is exchanged for another, whatever this simplifies to. *)
  Lemma swap_gives k b c A B d : wf_counter b -> (forall x, In x c -> wf x) -> 0 < cget b A -> A <> B -> In B bases -> wf_counter d ->
    (forall x, cget d x = cget b x - delta A x + delta B x) ->
    forall n', wf n' -> reord n' (Comm k b c) -> exists m', produced rules n' m' /\ reord m' (mk offset k d c).
  Proof.
    intros Wb0 Wc0 Hp HB IB Wd E n' Wn Rn.
    apply reord_sym in Rn. apply reord_comm_inv in Rn as (b' & c' & c'' & -> & Eb & P & F).
    pose proof (proj1 (wf_comm k b' c') Wn) as [Wb Wc].
    set (d' := cadd (cpos b') (swap_counter A B)).
    assert (D : replace_one b' d' A B) by (eapply swap_args_spec; [exact Wb|exact HB|rewrite <- Eb; exact Hp|reflexivity]).
    exists (mk offset k d' c'). split.
    - apply (by_swap offset bases noC rules ER B); [exact IB|]. cbn [swap_base]. apply in_map_iff. exists d'. split; [reflexivity|]. unfold swap_args.
      apply in_map_iff. exists A. split; [reflexivity|]. apply (distinct_cpos b' Wb). rewrite <- Eb. exact Hp.
    - unfold mk. apply simplify_reord; [apply wf_comm; split; [apply D|exact Wc]|apply wf_comm; split; assumption|].
      apply reord_comm_iff. split.
      + intros x. rewrite (proj2 D x), E, Eb. reflexivity.
      + apply lreord_sym. exists c''. auto.
  Qed.
  Lemma wf_one B (z : Z) : 0 < z -> wf_counter [(B, z)].
  Proof. intros H. split; [repeat constructor; intros []|]. intros b n [[= <- <-]|[]]. exact H. Qed.
  Lemma wf_two A B (y z : Z) : A <> B -> 0 < y -> 0 < z -> wf_counter [(A, y); (B, z)].
  Proof. intros D Hy Hz. split; [repeat constructor; cbn; intuition congruence|]. intros b n [[= <- <-]|[[= <- <-]|[]]]; assumption. Qed.
  (** A seed becomes WN, which the frame absorbs. *)
  Lemma collapse i C f k a : okC (f :: C) (seed k) -> Reach i (plug (f :: C) (seed k)) -> wf (fill f (Comm k [(bWN, 1)] [])) ->
    simplify offset (fill f (Comm k [(bWN, 1)] [])) = a -> okC C a -> Reach ((match k with KSum => 2 | KProd => 1 end) + i) (plug C a).
  Proof.
    intros O R W E Oa. destruct k.
    - set (b1 := [(bPER, 1); (bWN, 1)] : counter).
      assert (W1 : wf_counter b1) by (apply wf_two; [discriminate|lia|lia]).
      assert (R1 : Reach (S i) (plug (f :: C) (Comm KSum b1 []))).
      { eapply (swap_any offset bases noC rules e0 ER WR i (f :: C) KSum PER2 [] bPER bWN); [exact R|reflexivity|discriminate|exact WN| |].
        - apply ok_comm; [exact O| |discriminate]. apply normal_iff. split; [exact W1|]. split; [cbn; repeat split; intros; try discriminate; lia|intros ? []].
        - intros x. destruct x; reflexivity. }
      change (Reach (S (S i)) (plug C a)). eapply to_leaf; [exact R1| |exact W|exact E|exact Oa]. intros n' Wn Rn.
      replace (Comm KSum [(bWN, 1)] []) with (mk offset KSum [(bWN, 2)] []) by (destruct offset; reflexivity).
      apply (swap_gives KSum b1 [] bPER bWN [(bWN, 2)]); [exact W1|intros ? []|reflexivity|discriminate|exact WN|apply wf_one; lia| |exact Wn|exact Rn].
      intros x. destruct x; reflexivity.
    - change (Reach (S i) (plug C a)). eapply to_leaf; [exact R| |exact W|exact E|exact Oa]. intros n' Wn Rn.
      replace (Comm KProd [(bWN, 1)] []) with (mk offset KProd [(bPER, 1); (bWN, 1)] []) by (destruct offset; reflexivity).
      apply (swap_gives KProd PER2 [] bPER bWN [(bPER, 1); (bWN, 1)]); [apply wf_one; lia|intros ? []|reflexivity|discriminate|exact WN|apply wf_two; [discriminate|lia|lia]| |exact Wn|exact Rn].
      intros x. destruct x; reflexivity.
  Qed.
  Definition one_wn (k : kind) : kex := Comm k [(bWN, 1)] [].
  Lemma extract_wn k : extract (simplify offset (one_wn k)) = inl bWN.
  Proof. destruct k, offset; reflexivity. Qed.
  Lemma wf_wn k : wf (Comm k [(bWN, 1)] []).
  Proof. apply wf_comm. split; [apply wf_one; lia|intros ? []]. Qed.
  Lemma drop_left i C o k r B : Reach i (plug C (Change o (inr (seed k)) r)) -> In B bases -> okC C (Change o (inl B) r) ->
    Reach (3 + i) (plug C (Change o (inl B) r)).
  Proof.
    intros R IB O. pose proof (okC_hole offset C _ O) as [N _]. pose proof (change_inv offset _ _ _ N) as HI.
    assert (Hx : forall x, r = inr x -> normal offset x /\ ~ singleton x) by (intros x E; apply HI; auto).
    assert (OK : forall l, (forall x, l = inr x -> normal offset x /\ ~ singleton x) -> okC C (Change o l r)).
    { intros l Hl. apply (change_ok offset C (Change o (inl B) r)); [exact O|]. intros x [E|E]; auto. }
    assert (R1 : Reach ((match k with KSum => 2 | KProd => 1 end) + i) (plug C (Change o (inl bWN) r))).
    { apply (collapse i C (FLeft o r) k); [apply (OK (inr (seed k))); intros x [= <-]; apply seed_normal|exact R| | |apply OK; discriminate]; cbn [fill].
      - apply wf_change. intros x [[= <-]|E]; [apply wf_wn|]. apply (normal_wf offset), (Hx x E).
      - change (Comm k [(bWN, 1)] []) with (one_wn k). cbn [simplify]. rewrite extract_wn. f_equal. apply branch_fix. exact Hx. }
    eapply reach_le; [|eapply (swap_left offset bases noC rules e0 ER WR); [exact R1|exact IB|exact O]]. destruct k; lia.
  Qed.
  Lemma drop_right i C o k l B : Reach i (plug C (Change o l (inr (seed k)))) -> In B bases -> okC C (Change o l (inl B)) ->
    Reach (3 + i) (plug C (Change o l (inl B))).
  Proof.
    intros R IB O. pose proof (okC_hole offset C _ O) as [N _]. pose proof (change_inv offset _ _ _ N) as HI.
    assert (Hx : forall x, l = inr x -> normal offset x /\ ~ singleton x) by (intros x E; apply HI; auto).
    assert (OK : forall r, (forall x, r = inr x -> normal offset x /\ ~ singleton x) -> okC C (Change o l r)).
    { intros r Hr. apply (change_ok offset C (Change o l (inl B))); [exact O|]. intros x [E|E]; auto. }
    assert (R1 : Reach ((match k with KSum => 2 | KProd => 1 end) + i) (plug C (Change o l (inl bWN)))).
    { apply (collapse i C (FRight o l) k); [apply (OK (inr (seed k))); intros x [= <-]; apply seed_normal|exact R| | |apply OK; discriminate]; cbn [fill].
      - apply wf_change. intros x [E|[= <-]]; [|apply wf_wn]. apply (normal_wf offset), (Hx x E).
      - change (Comm k [(bWN, 1)] []) with (one_wn k). cbn [simplify]. rewrite extract_wn. f_equal. apply branch_fix. exact Hx. }
    eapply reach_le; [|eapply (swap_right offset bases noC rules e0 ER WR); [exact R1|exact IB|exact O]]. destruct k; lia.
  Qed.
  Lemma wrap_min i C n o : Reach i (plug C n) -> okC C n -> Reach (S i) (plug C (Change o (inr n) (inr n))).
  Proof.
    intros R O. pose proof (okC_hole offset C n O) as NS.
    assert (O3 : okC C (Change o (inr n) (inr n))) by (apply (change_ok offset C n); [exact O|]; intros x [[= <-]|[= <-]]; exact NS).
    apply (step_same offset rules e0 WR _ C n); [exact R| |exact O3]. intros n' Wn Rn. exists (mk_change offset o (inr n') (inr n')). split.
    - exists (change_same offset). eexists. split; [exact HC|]. split; [left; reflexivity|]. unfold both_changes. destruct o; simpl; auto.
    - apply mk_change_reord; [intros x [[= <-]|[= <-]]; exact Wn|apply (okC_hole offset C), O3|constructor; exact Rn|constructor; exact Rn].
  Qed.
  Lemma flip_min i C k : okC C (seed k) -> okC C (seed (other k)) -> Reach i (plug C (seed k)) -> Reach (5 + i) (plug C (seed (other k))).
  Proof.
    intros O1 O2 R. set (A := match k with KSum => bLIN | KProd => bPER end).
    assert (IA : In A bases) by (destruct k; apply GB).
    assert (IA' : In A noC) by (apply GB; [exact IA|destruct k; discriminate]).
    assert (W1 : wf_counter [(A, 1)]) by (apply wf_one; lia).
    set (mid := Comm (other k) [(A, 1)] [seed k]).
    assert (Nm : normal offset mid).
    { apply normal_iff. split; [exact W1|]. split.
      - destruct k; cbn; repeat split; intros; try discriminate; lia.
      - intros c [<-|[]]. split; [apply (seed_normal offset)|]. split; [apply (seed_normal offset)|]. destruct k; reflexivity. }
    assert (Om : okC C mid) by (apply ok_comm; [exact O2|exact Nm|destruct k; discriminate]).
    assert (Rm : Reach (S i) (plug C mid)).
    { apply (step_same offset rules e0 WR _ C (seed k)); [exact R| |exact Om]. intros n' Wn Rn.
      exists (mkl offset (other k) [A] [n']). split.
      - apply reord_sym in Rn. apply reord_comm_inv in Rn as (b' & c' & c'' & -> & _).
        destruct k; cbn [other]; [apply (by_times offset bases noC rules ER bLIN); [exact IA'|]|apply (by_plus offset bases noC rules ER bPER); [exact IA|]]; left; reflexivity.
      - apply mk_reord; [apply counter_of_wf|intros c [<-|[]]; exact Wn|exact Nm| |].
        + intros x. reflexivity.
        + apply lreord_cons; [exact Rn|apply lreord_refl]. }
    assert (O3 : forall B, B = bWN \/ B = bPER -> A <> B -> okC C (Comm (other k) [(A, 1); (B, 1)] [])).
    { intros B HB D. apply ok_comm; [exact O2| |unfold A in *; clear - HB D; destruct k, HB as [-> | ->]; discriminate || congruence]. apply normal_iff. split; [apply wf_two; [exact D|lia|lia]|]. split; [|intros ? []].
      destruct HB as [-> | ->], k; cbn; repeat split; intros; try discriminate; try lia; unfold A in *; congruence || (cbn in *; lia). }
    assert (R2 : Reach (3 + i) (plug C (Comm (other k) [(A, 1); (bWN, 1)] []))).
    { eapply reach_le; [|apply (collapse (S i) C (FComm (other k) [(A, 1)] []) k); [exact Om|exact Rm| | |apply O3; [auto|destruct k; discriminate]]].
      - destruct k; lia.
      - cbn [fill]. apply wf_comm. split; [exact W1|]. intros c [<-|[]]. apply wf_wn.
      - destruct k, offset; reflexivity. }
    destruct k; cbn [other] in *; unfold A in *.
    - assert (R3 : Reach (4 + i) (plug C (Comm KProd [(bLIN, 1); (bPER, 1)] []))).
      { eapply (swap_any offset bases noC rules e0 ER WR (3 + i) C KProd _ [] bWN bPER); [exact R2|reflexivity|discriminate|apply GB|apply O3; [auto|discriminate]|]. intros x. destruct x; reflexivity. }
      eapply (swap_any offset bases noC rules e0 ER WR (4 + i) C KProd _ [] bLIN bPER); [exact R3|reflexivity|discriminate|apply GB|exact O2|]. intros x. destruct x; reflexivity.
    - apply (reach_le _ _ _ (4 + i)); [lia|]. eapply (swap_any offset bases noC rules e0 ER WR (3 + i) C KSum _ [] bWN bPER); [exact R2|reflexivity|discriminate|apply GB|exact O2|]. intros x. destruct x; reflexivity.
  Qed.
  Lemma min_wrap : may_wrap offset rules e0 4.
  Proof.
    intros i C k o R1 O. pose proof (seed_normal offset k) as NS.
    pose proof (wrap_min i C (seed k) o R1 O) as R2. split.
    - apply (drop_right (S i) C o k); [exact R2|apply GB|]. apply (change_ok offset C (seed k)); [exact O|]. intros x [[= <-]|[=]]. exact NS.
    - apply (drop_left (S i) C o k); [exact R2|apply GB|]. apply (change_ok offset C (seed k)); [exact O|]. intros x [[=]|[= <-]]. exact NS.
  Qed.
  Lemma min_flip : may_flip offset rules e0 5.
  Proof. intros i C k O1 O2 R1. apply flip_min; assumption. Qed.
  Lemma min_drop : may_drop offset bases rules e0 3.
  Proof. intros i C o k r B R1 IB O. apply (drop_left i C o k r B); assumption. Qed.
  (** From PER, six expansions per symbol. *)
  Lemma min_from c0 t : Reach c0 (leaf bPER) -> good t -> non_empty t -> over bases t -> Reach (c0 + (6 * symbols t - 4)) t.
  Proof. intros R [N St] NE OV. apply (from_per offset bases noC rules e0 GB ER WR true min_wrap min_flip min_drop c0 t); assumption. Qed.
  (** One single base becomes another. *)
  Lemma swap_single i A B : Reach i (leaf A) -> In B bases -> Reach (S i) (leaf B).
  Proof.
    intros R IB. destruct (base_eq_dec A B) as [<-|D]; [apply (reach_le _ _ _ i); [lia|exact R]|].
    assert (E : standardise offset (leaf B) = leaf B) by (destruct B, offset; reflexivity). rewrite <- E.
    eapply (move offset rules e0 WR i [] (leaf A) (leaf B)); [exact R| |apply wf_leaf]. intros n' Wn Rn.
    assert (F : mk offset KSum [(B, 1)] [] = leaf B) by (destruct B, offset; reflexivity). rewrite <- F.
    apply (swap_gives KSum [(A, 1)] [] A B [(B, 1)]); [apply wf_one; lia|intros ? []|rewrite cget_cons, base_eqb_refl; lia|exact D|exact IB|apply wf_one; lia| |exact Wn|exact Rn].
    intros x. rewrite !cget_cons. unfold delta. destruct A, B; try congruence; destruct x; reflexivity.
  Qed.
  Lemma min_complete A t : e0 = leaf A -> searchable offset bases t -> Reach (6 * symbols t - 3) t.
  Proof.
    intros E0 (N & NE & OV & S). assert (R0 : Reach 0 (leaf A)). { exists 0%nat, e0. split; [lia|]. split; [constructor|]. split; [exact W0|rewrite E0; apply reord_refl]. }
    destruct S as [S|(b & ->)].
    - pose proof (symbols_ne t (normal_wf offset t N) NE). eapply reach_le; [|apply min_from; [apply (swap_single 0 A bPER R0), GB|split; [exact N|exact S]|exact NE|exact OV]]. lia.
    - apply (reach_le _ _ _ 1); [cbn [symbols]; cbn; lia|]. apply (swap_single 0 A b R0). apply (over_leaf bases b), OV.
  Qed.

  (** ** Shrinking a Sum or Product to a seed *)
  Definition filler (k : kind) : base := match k with KSum => bPER | KProd => bLIN end.
  Definition fs (k : kind) (n : nat) : counter := match n with O => [] | S _ => [(filler k, Z.of_nat n)] end.
  Lemma cget_fs k n x : cget (fs k n) x = if base_eqb (filler k) x then Z.of_nat n else 0.
  Proof. destruct n as [|n]; [destruct k, x; reflexivity|]. cbn [fs]. rewrite cget_cons. destruct (base_eqb (filler k) x); reflexivity. Qed.
  Lemma fs_wf k n : wf_counter (fs k n).
  Proof. destruct n as [|n]; [|apply wf_one; lia]. split; [constructor|intros ? ? []]. Qed.
  Lemma filler_in k : In (filler k) bases. Proof. destruct k; apply GB. Qed.
  Lemma ok_like C k b c b2 c2 : okC C (Comm k b c) -> normal offset (Comm k b2 c2) -> terms b2 c2 <> 1 -> okC C (Comm k b2 c2).
  Proof. intros O N T. apply (okC_swap offset C (Comm k b c)); [exact O|exact N|rewrite singleton_comm; exact T|]. intros k' H. exact H. Qed.
  Definition kids (k : kind) (c : list kex) : Prop := forall x, In x c -> good x /\ is_kind k x = false.
  Lemma few_normal k b c : wf_counter b -> (forall x, x <> filler k -> x <> bWN -> x <> bPER -> cget b x = 0) -> cget b bWN <= 1 ->
    (k = KProd -> 0 < cget b bWN -> cget b bPER = 0) -> kids k c -> normal offset (Comm k b c).
  Proof.
    intros W H HW HP HK. apply normal_iff. split; [exact W|]. split; [|intros x Hx; destruct (HK x Hx) as [[N St] K]; auto].
    assert (HCz : cget b bC = 0) by (apply H; destruct k; discriminate). assert (HSz : cget b bSE = 0) by (apply H; destruct k; discriminate).
    destruct k; cbn [cardinality].
    - repeat split; lia.
    - specialize (HP eq_refl). split; [intros Hw; specialize (HP Hw); lia|]. repeat split; intros; lia.
  Qed.
  Lemma to_filler m : forall i C k b c, Z.to_nat (bsum (cget b) - cget b (filler k)) = m -> wf_counter b -> okC C (Comm k b c) -> (k = KProd -> cget b bC = 0) ->
    Reach i (plug C (Comm k b c)) -> exists j n, Reach j (plug C (Comm k (fs k n) c)) /\ okC C (Comm k (fs k n) c) /\ terms (fs k n) c = terms b c.
  Proof.
    induction m as [m IH] using lt_wf_ind; intros i C k b c Hm Wb O HC0 R.
    destruct (find (fun A => negb (base_eqb A (filler k)) && (0 <? cget b A)) all_bases) as [A|] eqn:F.
    - apply find_some in F as [_ F]. apply andb_true_iff in F as [F1 F2]. apply Z.ltb_lt in F2.
      assert (D : A <> filler k) by (intros ->; rewrite base_eqb_refl in F1; discriminate F1).
      set (b2 := cadd (cpos b) (swap_counter A (filler k))).
      destruct (swap_args_spec b (filler k) A b2 Wb D F2 eq_refl) as [W2 E2].
      pose proof (okC_hole offset C _ O) as [N NSg]. pose proof (proj1 (normal_iff offset _) N) as (_ & Hcard & Hk).
      assert (Hb : bsum (cget b2) = bsum (cget b)).
      { rewrite !bsum_expand, !E2. unfold delta. destruct k, A; cbn; lia. }
      assert (HF : cget b2 (filler k) = cget b (filler k) + 1).
      { rewrite E2. unfold delta. rewrite base_eqb_refl. destruct (base_eqb A (filler k)) eqn:Q; [apply base_eqb_spec in Q; congruence|lia]. }
      assert (P : forall x, 0 <= cget b x) by (intros x; apply wf_nonneg, Wb).
      assert (P2 : forall x, 0 <= cget b2 x) by (intros x; apply wf_nonneg, W2).
      assert (L2 : forall x, x <> filler k -> cget b2 x <= cget b x).
      { intros x Hx. rewrite E2. unfold delta. destruct (base_eqb (filler k) x) eqn:Q; [apply base_eqb_spec in Q; congruence|]. destruct (base_eqb A x); lia. }
      assert (O2 : okC C (Comm k b2 c)).
      { apply (ok_like C k b c); [exact O| |].
        - apply normal_iff. split; [exact W2|]. split; [|exact Hk]. pose proof (L2 bWN) as L1. pose proof (L2 bC) as L3. pose proof (L2 bSE) as L4.
          pose proof (L2 bPER) as L5. pose proof (L2 bLIN) as L6. pose proof (P bWN). pose proof (P2 bWN). pose proof (P2 bC). pose proof (P2 bSE). pose proof (P2 bPER).
          pose proof (P2 bLIN).
          destruct k; cbn [filler cardinality] in *.
          + specialize (L1 ltac:(discriminate)). specialize (L3 ltac:(discriminate)). specialize (L6 ltac:(discriminate)). destruct Hcard as (K1 & K2 & K3).
            repeat split; try lia. intros Ho Hl. specialize (K3 Ho). lia.
          + specialize (L1 ltac:(discriminate)). specialize (L3 ltac:(discriminate)). specialize (L4 ltac:(discriminate)). specialize (L5 ltac:(discriminate)).
            specialize (HC0 eq_refl). destruct Hcard as (K1 & K2 & K3 & _). repeat split; try lia.
        - rewrite terms_bsum, Hb, <- terms_bsum. rewrite singleton_comm in NSg. exact NSg. }
      assert (R2 : Reach (S i) (plug C (Comm k b2 c))).
      { eapply (swap_any offset bases noC rules e0 ER WR i C k b c A (filler k)); [exact R|exact F2|congruence|apply filler_in|exact O2|exact E2]. }
      assert (Hsum : cget b (filler k) + cget b A <= bsum (cget b)).
      { rewrite bsum_expand. pose proof (P bWN). pose proof (P bC). pose proof (P bSE). pose proof (P bPER). pose proof (P bLIN). pose proof (P bS). pose proof (P bSr). pose proof (P bSI). pose proof (P bSIr).
        destruct k, A; cbn [filler] in *; try congruence; lia. }
      destruct (IH (Z.to_nat (bsum (cget b2) - cget b2 (filler k))) ltac:(lia) (S i) C k b2 c eq_refl W2 O2) as (j & n & Hj & On & T); [|exact R2|].
      + intros ->. specialize (HC0 eq_refl). pose proof (L2 bC ltac:(discriminate)). pose proof (P2 bC). lia.
      + exists j, n. split; [exact Hj|]. split; [exact On|]. rewrite T, !terms_bsum, Hb. reflexivity.
    - assert (Z0 : forall x, x <> filler k -> cget b x = 0).
      { intros x Hx. pose proof (find_none _ _ F x (all_bases_in x)) as Q. cbv beta in Q. apply andb_false_iff in Q as [Q|Q].
        - apply negb_false_iff, base_eqb_spec in Q. congruence.
        - apply Z.ltb_ge in Q. pose proof (wf_nonneg b x Wb). lia. }
      assert (E : ceq b (fs k (Z.to_nat (cget b (filler k))))).
      { intros x. rewrite cget_fs. pose proof (wf_nonneg b (filler k) Wb). destruct (base_eqb (filler k) x) eqn:Q; [apply base_eqb_spec in Q as <-; lia|].
        apply Z0. intros ->. rewrite base_eqb_refl in Q. discriminate Q. }
      exists i, (Z.to_nat (cget b (filler k))).
      assert (T : terms (fs k (Z.to_nat (cget b (filler k)))) c = terms b c) by (rewrite !terms_bsum, !bsum_expand; rewrite <- !E; reflexivity).
      split; [eapply reach_reord; [|exact R]; apply reord_plug, reord_comm_iff; split; [exact E|apply lreord_refl]|]. split; [|exact T].
      pose proof (okC_hole offset C _ O) as [N NSg]. apply (ok_like C k b c); [exact O| |rewrite T; rewrite singleton_comm in NSg; exact NSg].
      pose proof (proj1 (normal_iff offset _) N) as (_ & _ & Hk).
      apply few_normal; [apply fs_wf| | | |].
      + intros x H1 _ _. rewrite <- E. apply Z0, H1.
      + rewrite cget_fs. destruct k; cbn; lia.
      + intros _. rewrite cget_fs. destruct k; cbn; lia.
      + intros x Hx. destruct (Hk x Hx) as (K1 & K2 & K3). split; [split; assumption|exact K3].
  Qed.
  Lemma fs_kids k n c : kids k c -> normal offset (Comm k (fs k n) c).
  Proof.
    intros HK. apply few_normal; [apply fs_wf| | | |exact HK].
    - intros x H _ _. rewrite cget_fs. destruct (base_eqb (filler k) x) eqn:Q; [apply base_eqb_spec in Q; congruence|reflexivity].
    - rewrite cget_fs. destruct k; cbn; lia.
    - intros _. rewrite cget_fs. destruct k; cbn; lia.
  Qed.
  Lemma terms_fs k n c : terms (fs k n) c = Z.of_nat n + Z.of_nat (length c).
  Proof. rewrite terms_bsum, bsum_expand, !cget_fs. destruct k; cbn [filler base_eqb]; lia. Qed.
  Lemma kids_of k b c : normal offset (Comm k b c) -> kids k c.
  Proof. intros N x Hx. apply normal_iff in N as (_ & _ & Hk). destruct (Hk x Hx) as (K1 & K2 & K3). split; [split; assumption|exact K3]. Qed.
  (** One more filler. *)
  Lemma add_filler i C k n c : okC C (Comm k (fs k n) c) -> (1 < n + length c)%nat -> Reach i (plug C (Comm k (fs k n) c)) ->
    exists j, Reach j (plug C (Comm k (fs k (S n)) c)) /\ okC C (Comm k (fs k (S n)) c).
  Proof.
    intros O Hn R. pose proof (okC_hole offset C _ O) as [N _]. pose proof (kids_of _ _ _ N) as HK.
    assert (O1 : okC C (Comm k (fs k (S n)) c)) by (apply (ok_like C k (fs k n) c); [exact O|apply fs_kids, HK|rewrite terms_fs; lia]).
    destruct k.
    - exists (S i). split; [|exact O1]. eapply (grow_base offset bases noC rules e0 GB ER WR); [exact R|exact O1|].
      intros x. rewrite !cget_fs. unfold delta. cbn [filler]. destruct (base_eqb bPER x); lia.
    - set (b1 := cadd (fs KProd n) (counter_of [bPER])).
      assert (W1 : wf_counter b1) by (apply cadd_wf; [apply wf_nodup, fs_wf|apply counter_of_nodup]).
      assert (E1 : forall x, cget b1 x = cget (fs KProd n) x + delta bPER x).
      { intros x. unfold b1. rewrite cget_cadd by (apply wf_nodup, fs_wf || apply counter_of_nodup). rewrite Z.max_r; [destruct x; reflexivity|].
        rewrite cget_fs. destruct x; cbn; lia. }
      assert (Ob : okC C (Comm KProd b1 c)).
      { apply (ok_like C KProd (fs KProd n) c); [exact O| |rewrite terms_bsum, bsum_expand, !E1, !cget_fs; unfold delta; cbn [filler base_eqb]; lia].
        apply few_normal; [exact W1| | | |exact HK].
        - intros x H1 H2 H3. rewrite E1, cget_fs. unfold delta. destruct x; cbn [filler base_eqb] in *; try congruence; lia.
        - rewrite E1, cget_fs. cbn. lia.
        - intros _. rewrite !E1, !cget_fs. cbn. lia. }
      assert (R1 : Reach (S i) (plug C (Comm KProd b1 c))) by (eapply (grow_base offset bases noC rules e0 GB ER WR); [exact R|exact Ob|exact E1]).
      exists (S (S i)). split; [|exact O1].
      eapply (swap_any offset bases noC rules e0 ER WR (S i) C KProd b1 c bPER bLIN); [exact R1| |discriminate|apply GB|exact O1|].
      + rewrite E1, cget_fs. cbn. lia.
      + intros x. rewrite E1, !cget_fs. unfold delta. cbn [filler]. destruct (base_eqb bLIN x), (base_eqb bPER x); lia.
  Qed.
  (** n fillers and a WN. *)
  Definition fw (k : kind) (n : nat) : counter := [(filler k, Z.of_nat (S n)); (bWN, 1)].
  Lemma cget_fw k n x : cget (fw k n) x = (if base_eqb (filler k) x then Z.of_nat (S n) else 0) + delta bWN x.
  Proof. unfold fw, delta. rewrite !cget_cons. destruct k, x; cbn; lia. Qed.
  Lemma fw_wf k n : wf_counter (fw k n).
  Proof. apply wf_two; [destruct k; discriminate|lia|lia]. Qed.
  Lemma terms_fw k n c : terms (fw k n) c = Z.of_nat n + 2 + Z.of_nat (length c).
  Proof. rewrite terms_bsum, bsum_expand, !cget_fw. unfold delta. destruct k; cbn [filler base_eqb]; lia. Qed.
  Lemma fw_kids k n c : kids k c -> normal offset (Comm k (fw k n) c).
  Proof.
    intros HK. apply few_normal; [apply fw_wf| | | |exact HK].
    - intros x H1 H2 _. rewrite cget_fw. unfold delta. destruct (base_eqb (filler k) x) eqn:Q; [apply base_eqb_spec in Q; congruence|].
      destruct (base_eqb bWN x) eqn:Q'; [apply base_eqb_spec in Q'; congruence|reflexivity].
    - rewrite cget_fw. unfold delta. destruct k; cbn [filler base_eqb]; lia.
    - intros -> _. rewrite cget_fw. reflexivity.
  Qed.
  (** The WN becomes a filler. *)
  Lemma fill_wn i C k n c : okC C (Comm k (fw k n) c) -> Reach i (plug C (Comm k (fw k n) c)) ->
    Reach (S i) (plug C (Comm k (fs k (S (S n))) c)) /\ okC C (Comm k (fs k (S (S n))) c).
  Proof.
    intros O R. pose proof (okC_hole offset C _ O) as [N _]. pose proof (kids_of _ _ _ N) as HK.
    assert (O1 : okC C (Comm k (fs k (S (S n))) c)) by (apply (ok_like C k (fw k n) c); [exact O|apply fs_kids, HK|rewrite terms_fs; lia]).
    split; [|exact O1]. eapply (swap_any offset bases noC rules e0 ER WR i C k _ c bWN (filler k)); [exact R| |destruct k; discriminate|apply filler_in|exact O1|].
    - rewrite cget_fw. destruct k; cbn [filler base_eqb delta]; unfold delta; cbn; lia.
    - intros x. rewrite cget_fw, cget_fs. unfold delta. destruct (base_eqb (filler k) x), (base_eqb bWN x); lia.
  Qed.
  Lemma simp_self k b c x : normal offset (Comm k b c) -> simplify offset (Comm k b (x :: c)) = simp_node offset k b (simplify offset x :: c).
  Proof.
    intros N. cbn [simplify map]. f_equal. f_equal. rewrite <- (map_id c) at 2. apply map_ext_in. intros y Hy. destruct (kids_of _ _ _ N y Hy) as [[Ny _] _]. apply normal_fix, Ny.
  Qed.
  Lemma absorb_wn k b c : wf_counter b -> normal offset (Comm k b c) -> normal offset (Comm k (cupdate_list b [bWN]) c) ->
    simplify offset (Comm k b (Comm (other k) [(bWN, 1)] [] :: c)) = Comm k (cupdate_list b [bWN]) c.
  Proof.
    intros W N N2. rewrite simp_self by exact N. pose proof (kids_of _ _ _ N) as HK.
    assert (E : simplify offset (Comm (other k) [(bWN, 1)] []) = one_wn (other k)) by (destruct k, offset; reflexivity). rewrite E. clear E.
    destruct (simp_node_spec offset k b (one_wn (other k) :: c)) as (ns & L & _ & E). cbv zeta in E. rewrite E. clear E.
    assert (F : filter (is_kind k) (one_wn (other k) :: c) = []).
    { apply filter_nil_iff. intros x [<-|Hx]; [destruct k; reflexivity|apply HK, Hx]. }
    assert (Rd : raised k (one_wn (other k) :: c) = one_wn (other k) :: c).
    { unfold raised. rewrite F. cbn [map concat]. rewrite app_nil_r. apply filter_all. intros x [<-|Hx]; [destruct k; reflexivity|]. destruct (HK x Hx) as [_ ->]. reflexivity. }
    rewrite F, Rd in *. destruct ns; [|discriminate L].
    destruct (singles_self c) as [Sk Sb]. { intros x Hx. destruct (HK x Hx) as [[Nx Sx] _]. split; [apply (normal_wf_top offset), Nx|exact Sx]. }
    assert (Ek : kexs_of (map extract (one_wn (other k) :: c)) = c) by exact Sk.
    assert (Eb : bases_of (map extract (one_wn (other k) :: c)) = [bWN]).
    { change (bWN :: bases_of (map extract c) = [bWN]). rewrite Sb. reflexivity. }
    rewrite Ek, Eb. change (absorb_bts offset k b [] []) with b. apply normal_iff in N2 as (W2 & C2 & _). rewrite !(simp_base_fix offset k _ _ W2 C2). reflexivity.
  Qed.
  (** What a composite of the expression does on the way. *)
  Definition shrinks (x : kex) : Prop := forall i C, okC C x -> Reach i (plug C x) -> exists j k, is_kind k x = true /\ Reach j (plug C (seed k)).
  Lemma to_fillers C k c : forall i n, (1 < n)%nat -> (forall x, In x c -> shrinks x) -> okC C (Comm k (fs k n) c) -> Reach i (plug C (Comm k (fs k n) c)) ->
    exists j m, (1 < m)%nat /\ Reach j (plug C (Comm k (fs k m) [])) /\ okC C (Comm k (fs k m) []).
  Proof.
    induction c as [|y c IH]; intros i n Hn HS O R; [exists i, n; auto|].
    pose proof (okC_hole offset C _ O) as [N _]. pose proof (kids_of _ _ _ N) as HK.
    assert (HKc : kids k c) by (intros x Hx; apply HK; right; exact Hx).
    destruct (HS y (or_introl eq_refl) i (FComm k (fs k n) c :: C) O R) as (j & k' & Ky & Rj).
    assert (k' = other k) as ->. { destruct (HK y (or_introl eq_refl)) as [_ K]. destruct k, k'; congruence || reflexivity. }
    assert (Of : okC C (Comm k (fs k n) (seed (other k) :: c))).
    { apply (ok_like C k (fs k n) (y :: c)); [exact O| |rewrite terms_fs; cbn [length]; lia]. apply fs_kids. intros x [<-|Hx]; [|apply HKc, Hx].
      split; [apply seed_normal|destruct k; reflexivity]. }
    destruct n as [|[|n]]; [lia|lia|]. set (D := cupdate_list (fs k (S (S n))) [bWN]).
    assert (WD : wf_counter D) by (split; [apply cupdate_list_nodup, wf_nodup, fs_wf|intros b z; apply cupdate_list_pos, fs_wf]).
    assert (ED : forall x, cget D x = cget (fw k (S n)) x).
    { intros x. unfold D. rewrite cget_cupdate_list, cget_fs, cget_fw. cbn [count_occ]. unfold delta.
      destruct (base_eq_dec bWN x) as [<-|Hne]; [rewrite base_eqb_refl; destruct k; cbn [filler base_eqb]; lia|].
      destruct (base_eqb bWN x) eqn:Q; [apply base_eqb_spec in Q; congruence|]. destruct (base_eqb (filler k) x); lia. }
    assert (ND : normal offset (Comm k D c)).
    { pose proof (proj1 (normal_iff offset _) (fw_kids k (S n) c HKc)) as (_ & Cd & Hk). apply normal_iff. split; [exact WD|]. split; [|exact Hk].
      destruct k; cbn [cardinality] in *; rewrite !ED; exact Cd. }
    assert (OD : okC C (Comm k D c)).
    { apply (ok_like C k (fs k (S (S n))) (y :: c)); [exact O|exact ND|]. rewrite terms_bsum, bsum_expand, !ED, <- bsum_expand, <- terms_bsum, terms_fw. lia. }
    assert (RD : exists j', Reach j' (plug C (Comm k D c))).
    { eexists. eapply (collapse j C (FComm k (fs k (S (S n))) c) (other k)); [exact Of|exact Rj| | |exact OD].
      - cbn [fill]. apply wf_comm. split; [apply fs_wf|]. intros x [<-|Hx]; [apply wf_wn|]. destruct (HKc x Hx) as [[Nx _] _]. apply (normal_wf offset), Nx.
      - cbn [fill]. apply absorb_wn; [apply fs_wf|apply fs_kids, HKc|exact ND]. }
    destruct RD as [j' RD].
    assert (Ow : okC C (Comm k (fw k (S n)) c)) by (apply (ok_like C k D c); [exact OD|apply fw_kids, HKc|rewrite terms_fw; lia]).
    assert (Rw : Reach j' (plug C (Comm k (fw k (S n)) c))).
    { eapply reach_reord; [|exact RD]. apply reord_plug, reord_comm_iff. split; [exact ED|apply lreord_refl]. }
    destruct (fill_wn j' C k (S n) c Ow Rw) as [R3 O3].
    apply (IH (S j') (S (S (S n)))); [lia|intros x Hx; apply HS; right; exact Hx|exact O3|exact R3].
  Qed.
  (** Fillers go away in pairs, one at a time. *)
  Lemma fewer C k : forall n i, okC C (Comm k (fs k (S (S n))) []) -> Reach i (plug C (Comm k (fs k (S (S n))) [])) -> exists j, Reach j (plug C (Comm k (fs k 2) [])).
  Proof.
    assert (K0 : kids k []) by (intros ? []).
    induction n as [|n IH]; intros i O R; [exists i; exact R|].
    assert (Ow : forall m, okC C (Comm k (fw k m) [])) by (intros m; apply (ok_like C k (fs k (S (S (S n)))) []); [exact O|apply fw_kids, K0|rewrite terms_fw; cbn [length]; lia]).
    assert (R1 : Reach (S i) (plug C (Comm k (fw k (S n)) []))).
    { eapply (swap_any offset bases noC rules e0 ER WR i C k _ [] (filler k) bWN); [exact R| |destruct k; discriminate|exact WN|apply Ow|].
      - rewrite cget_fs, base_eqb_refl. lia.
      - intros x. rewrite cget_fs, cget_fw. unfold delta. destruct (base_eqb (filler k) x), (base_eqb bWN x); lia. }
    assert (R2 : Reach (S (S i)) (plug C (Comm k (fw k n) []))).
    { set (d := [(filler k, Z.of_nat (S n)); (bWN, 2)] : counter). assert (Wd : wf_counter d) by (apply wf_two; [destruct k; discriminate|lia|lia]).
      eapply (step offset rules e0 WR (S i) C (Comm k (fw k (S n)) []) (mk offset k d [])); [exact R1| | | |apply Ow].
      - intros n' Wn Rn. apply (swap_gives k (fw k (S n)) [] (filler k) bWN d); [apply fw_wf|intros ? []| |destruct k; discriminate|exact WN|exact Wd| |exact Wn|exact Rn].
        + rewrite cget_fw, base_eqb_refl. unfold delta. destruct k; cbn [filler base_eqb]; lia.
        + intros x. rewrite cget_fw. unfold d, delta. rewrite !cget_cons. destruct k, x; try reflexivity; cbn [filler base_eqb]; lia.
      - apply mk_wf; [exact Wd|intros ? []].
      - unfold mk. destruct k, offset; reflexivity. }
    destruct (fill_wn (S (S i)) C k n [] (Ow n) R2) as [R3 O3]. apply (IH _ O3 R3).
  Qed.
  Lemma to_seed C k i : okC C (Comm k (fs k 2) []) -> Reach i (plug C (Comm k (fs k 2) [])) -> exists j, Reach j (plug C (seed k)).
  Proof.
    intros O R. destruct k; [exists i; exact R|].
    assert (O1 : forall b, wf_counter b -> cget b bWN = 0 -> (forall x, x <> bLIN -> x <> bPER -> cget b x = 0) -> terms b [] <> 1 -> okC C (Comm KProd b [])).
    { intros b W H0 Hb T. apply (ok_like C KProd (fs KProd 2) []); [exact O| |exact T]. apply few_normal; [exact W| |lia|intros; lia|intros ? []].
      intros x H1 _ H3. apply Hb; assumption. }
    assert (R1 : Reach (S i) (plug C (Comm KProd [(bLIN, 1); (bPER, 1)] []))).
    { eapply (swap_any offset bases noC rules e0 ER WR i C KProd _ [] bLIN bPER); [exact R|reflexivity|discriminate|apply GB| |].
      - apply O1; [apply wf_two; [discriminate|lia|lia]|reflexivity| |discriminate]. intros x H1 H2. destruct x; congruence || reflexivity.
      - intros x. destruct x; reflexivity. }
    exists (S (S i)). eapply (swap_any offset bases noC rules e0 ER WR (S i) C KProd _ [] bLIN bPER); [exact R1|reflexivity|discriminate|apply GB| |].
    - apply O1; [apply wf_one; lia|reflexivity| |discriminate]. intros x H1 H2. destruct x; congruence || reflexivity.
    - intros x. destruct x; reflexivity.
  Qed.
  Lemma sub_over x e : node x e -> over bases e -> over bases x.
  Proof.
    intros Nx OV b Hb. apply OV. destruct Hb as [(k' & b' & c' & Hn & H)|(c' & l' & r' & Hn & H)];
      [left; exists k', b', c'|right; exists c', l', r']; (split; [eapply node_trans; eauto|exact H]).
  Qed.
  Lemma shrinks_all x : good x -> non_empty x -> over bases x -> change_free x -> shrinks x.
  Proof.
    induction x as [k b c IH|o l r IHl IHr] using kex_ind'; intros G NE OV CF.
    2:{ exfalso. apply (CF o l r). constructor. }
    intros i C O R. pose proof (okC_hole offset C _ O) as [N NSg]. rewrite singleton_comm in NSg.
    pose proof (proj1 (normal_iff offset _) N) as (Wb & Hcard & Hk).
    assert (T : 0 < terms b c) by (eapply NE; constructor).
    assert (P : forall x, 0 <= cget b x) by (intros x; apply wf_nonneg, Wb).
    assert (Sg : forall x, is_sigmoid x = true -> cget b x = 0).
    { intros x Hx. pose proof (P x). destruct (Z.eq_dec (cget b x) 0) as [E|E]; [exact E|]. exfalso.
      assert (Hin : In x bases) by (apply OV; left; exists k, b, c; split; [constructor|lia]). pose proof (proj1 GB x Hin). congruence. }
    assert (C0 : k = KProd -> cget b bC = 0).
    { intros ->. destruct Hcard as (_ & _ & K3 & K4). pose proof (P bC). destruct (Z.eq_dec (cget b bC) 0) as [E|E]; [exact E|]. exfalso.
      destruct (K4 ltac:(lia)) as [L0 K5]. apply NSg. rewrite terms_bsum, bsum_expand, L0.
      rewrite (K5 bWN), (K5 bLIN), (K5 bSE), (K5 bPER), (Sg bS), (Sg bSr), (Sg bSI), (Sg bSIr) by (discriminate || reflexivity). lia. }
    destruct (to_filler _ i C k b c eq_refl Wb O C0 R) as (j1 & n & R1 & O1 & T1).
    rewrite terms_fs in T1.
    destruct (add_filler j1 C k n c O1 ltac:(lia) R1) as (j2 & R2 & O2).
    destruct (add_filler j2 C k (S n) c O2 ltac:(lia) R2) as (j3 & R3 & O3).
    destruct (to_fillers C k c j3 (S (S n)) ltac:(lia)) as (j4 & m & Hm & R4 & O4); [|exact O3|exact R3|].
    { intros x Hx. destruct (Hk x Hx) as (A1 & A2 & _). assert (Nx : node x (Comm k b c)) by (eapply node_comm; [exact Hx|constructor]).
      apply IH; [exact Hx|split; assumption| |apply (sub_over x _ Nx OV)|].
      - intros k' b' c' Hn. eapply NE. eapply node_trans; eauto.
      - intros o l r Hn. apply (CF o l r). eapply node_trans; eauto. }
    destruct m as [|[|m]]; [lia|lia|]. destruct (fewer C k m j4 O4 R4) as (j5 & R5).
    destruct (to_seed C k j5) as (j6 & R6); [|exact R5|].
    - apply (ok_like C k (fs k (S (S m))) []); [exact O4|apply fs_kids; intros ? []|rewrite terms_fs; cbn [length]; lia].
    - exists j6, k. split; [destruct k; reflexivity|exact R6].
  Qed.
  Lemma seed_leaf i k : Reach i (seed k) -> exists j, Reach j (leaf bWN).
  Proof.
    intros R. assert (E : standardise offset (Comm k [(bWN, 1)] []) = leaf bWN) by (destruct k, offset; reflexivity). rewrite <- E. destruct k.
    - set (b1 := [(bPER, 1); (bWN, 1)] : counter). assert (W1 : wf_counter b1) by (apply wf_two; [discriminate|lia|lia]).
      assert (R1 : Reach (S i) (plug [] (Comm KSum b1 []))).
      { eapply (swap_any offset bases noC rules e0 ER WR i [] KSum PER2 [] bPER bWN); [exact R|reflexivity|discriminate|exact WN| |].
        - apply ok_comm; [apply seed_normal| |discriminate]. apply normal_iff. split; [exact W1|]. split; [cbn; repeat split; intros; try discriminate; lia|intros ? []].
        - intros x. destruct x; reflexivity. }
      exists (S (S i)). eapply (move offset rules e0 WR (S i) []); [exact R1| |apply wf_wn]. intros n' Wn Rn.
      replace (Comm KSum [(bWN, 1)] []) with (mk offset KSum [(bWN, 2)] []) by (destruct offset; reflexivity).
      apply (swap_gives KSum b1 [] bPER bWN [(bWN, 2)]); [exact W1|intros ? []|reflexivity|discriminate|exact WN|apply wf_one; lia| |exact Wn|exact Rn].
      intros x. destruct x; reflexivity.
    - exists (S i). eapply (move offset rules e0 WR i [] (seed KProd)); [exact R| |apply wf_wn]. intros n' Wn Rn.
      replace (Comm KProd [(bWN, 1)] []) with (mk offset KProd [(bPER, 1); (bWN, 1)] []) by (destruct offset; reflexivity).
      apply (swap_gives KProd PER2 [] bPER bWN [(bPER, 1); (bWN, 1)]); [apply wf_one; lia|intros ? []|reflexivity|discriminate|exact WN|apply wf_two; [discriminate|lia|lia]| |exact Wn|exact Rn].
      intros x. destruct x; reflexivity.
  Qed.
  Lemma min_free t : searchable offset bases e0 -> change_free e0 -> searchable offset bases t -> exists j, Reach j t.
  Proof.
    intros (N0 & NE0 & OV0 & S0) CF St. destruct S0 as [S0|(A & E0)].
    - assert (R0 : Reach 0 (plug [] e0)). { exists 0%nat, e0. split; [lia|]. split; [constructor|]. split; [exact W0|apply reord_refl]. }
      destruct (shrinks_all e0 (conj N0 S0) NE0 OV0 CF 0%nat [] (conj N0 S0) R0) as (j & k & _ & R). cbn [plug] in R.
      destruct St as (N & NE & OV & [Sg|(b & ->)]).
      + eexists. apply (from_seed offset bases noC rules e0 GB ER WR true min_wrap min_flip min_drop j k t); assumption.
      + destruct (seed_leaf j k R) as (j' & R'). exists (S j'). apply (swap_single j' bWN b R'). apply (over_leaf bases b), OV.
    - eexists. apply (min_complete A t E0 St).
  Qed.
End Minimal.
