(** Decision procedures used only for the concrete examples beside the theorems. *)
From Coq Require Import List Bool Arith ZArith Lia.
From Verif Require Import Py KexModel KexSpec KexProofs KexSimp KexMore KexCong SemSpec SemSimp.
Import ListNotations.
Local Open Scope Z_scope.

Definition counterb (c : counter) : bool :=
  forallb (fun b => (length (filter (fun p => base_eqb (fst p) b) c) <=? 1)%nat) all_bases && forallb (fun p => 0 <? snd p) c.
Lemma counterb_sound c : counterb c = true -> wf_counter c.
Proof.
  intros H. apply andb_prop in H as [H1 H2]. rewrite forallb_forall in H1, H2. split.
  - assert (G : forall b, (length (filter (fun p => base_eqb (fst p) b) c) <= 1)%nat) by (intros b; apply Nat.leb_le, H1, all_bases_in).
    clear H1 H2. induction c as [|[b n] t IH]; simpl; constructor.
    + intros Hin. apply in_map_iff in Hin as ([b' m] & <- & Hin). specialize (G b'). simpl in G.
      assert (E : base_eqb b' b' = true) by (apply base_eqb_spec; reflexivity). rewrite E in G. simpl in G.
      assert (F : In (b', m) (filter (fun p => base_eqb (fst p) b') t)) by (apply filter_In; auto).
      destruct (filter (fun p => base_eqb (fst p) b') t); [destruct F|simpl in G; lia].
    + apply IH. intros b'. specialize (G b'). simpl in G. destruct (base_eqb b b'); simpl in G; lia.
  - intros b n Hin. specialize (H2 _ Hin). apply Z.ltb_lt in H2. exact H2.
Qed.

(** Well formed, without empty sums or products, without sigmoids. *)
Fixpoint okb (e : kex) : bool :=
  match e with
  | Comm k bts cts => counterb bts && (0 <? terms bts cts) && forallb (fun b => negb (is_sigmoid b) || (cget bts b <=? 0)) all_bases && forallb okb cts
  | Change c l r => match l with inl b => negb (is_sigmoid b) | inr x => okb x end && match r with inl b => negb (is_sigmoid b) | inr x => okb x end
  end.
Lemma okb_sound e : okb e = true -> wf e /\ non_empty e /\ sigmoid_free e.
Proof.
  induction e using kex_ind'; cbn [okb]; intros E.
  - apply andb_prop in E as [E E4]. apply andb_prop in E as [E E3]. apply andb_prop in E as [E1 E2]. rewrite forallb_forall in E3, E4.
    assert (G : forall c, In c cts -> wf c /\ non_empty c /\ sigmoid_free c) by (intros c Hc; apply H; [exact Hc|apply E4, Hc]).
    split; [apply wf_comm; split; [apply counterb_sound, E1|intros c Hc; apply G, Hc]|].
    split; [apply non_empty_comm; split; [apply Z.ltb_lt, E2|intros c Hc; apply G, Hc]|].
    apply sigmoid_free_comm. split; [|intros c Hc; apply G, Hc]. intros b Hb Hp. specialize (E3 b (all_bases_in b)). rewrite Hb in E3. simpl in E3. apply Z.leb_le in E3. lia.
  - apply andb_prop in E as [E1 E2].
    assert (G : forall x, l = inr x \/ r = inr x -> wf x /\ non_empty x /\ sigmoid_free x).
    { intros x [->| ->]; [apply (H x eq_refl E1)|apply (H0 x eq_refl E2)]. }
    split; [apply wf_change; intros x Hx; apply G, Hx|]. split; [apply non_empty_change; intros x Hx; apply G, Hx|].
    apply sigmoid_free_change. split; [|intros x Hx; apply G, Hx]. intros b Hb. split; intros ->; rewrite Hb in *; discriminate.
Qed.

Definition cardinalityb (offset : bool) (k : kind) (bts : counter) (n : nat) : bool :=
  match k with
  | KSum => (cget bts bWN <=? 1) && (cget bts bC <=? 1) && (negb offset || (cget bts bLIN <=? 0) || (cget bts bC =? 0))
  | KProd => ((cget bts bWN <=? 0) || ((cget bts bWN =? 1) && (cget bts bC =? 0) && (cget bts bSE =? 0) && (cget bts bPER =? 0)))
     && (cget bts bSE <=? 1) && (cget bts bC <=? 1)
     && ((cget bts bC <=? 0) || (Nat.eqb n 0 && forallb (fun b => base_eqb b bC || is_sigmoid b || (cget bts b =? 0)) all_bases))
  end.
Lemma cardinalityb_sound offset k bts n : cardinalityb offset k bts n = true -> cardinality offset k bts n.
Proof.
  destruct k; unfold cardinalityb, cardinality; intros H;
    repeat match goal with H : _ && _ = true |- _ => apply andb_prop in H as [? ?] end.
  - apply Z.leb_le in H, H1. split; [exact H|]. split; [exact H1|]. intros -> HL. simpl in H0. apply orb_prop in H0 as [H0|H0]; [apply Z.leb_le in H0; lia|apply Z.eqb_eq, H0].
  - split.
    + intros HW. apply orb_prop in H as [H|H]; [apply Z.leb_le in H; lia|].
      repeat match goal with H : _ && _ = true |- _ => apply andb_prop in H as [? ?] end. repeat match goal with H : (_ =? _) = true |- _ => apply Z.eqb_eq in H end. auto.
    + apply Z.leb_le in H1, H2. split; [exact H2|]. split; [exact H1|]. intros HC. apply orb_prop in H0 as [H0|H0]; [apply Z.leb_le in H0; lia|].
      apply andb_prop in H0 as [H3 H4]. apply Nat.eqb_eq in H3. split; [exact H3|]. intros b Hb Hs. rewrite forallb_forall in H4. specialize (H4 b (all_bases_in b)).
      rewrite Hs, orb_false_r in H4. apply orb_prop in H4 as [H4|H4]; [apply base_eqb_spec in H4; congruence|apply Z.eqb_eq, H4].
Qed.
Definition singletonb (e : kex) : bool := match e with Comm _ bts cts => terms bts cts =? 1 | _ => false end.
Lemma singletonb_sound e : singletonb e = false -> ~ singleton e.
Proof. intros H (k & bts & cts & -> & E). simpl in H. apply Z.eqb_neq in H. auto. Qed.
Fixpoint normalb (offset : bool) (e : kex) : bool :=
  match e with
  | Comm k bts cts => counterb bts && cardinalityb offset k bts (length cts) && forallb (fun c => negb (singletonb c) && negb (is_kind k c) && normalb offset c) cts
  | Change c l r => match l with inl _ => true | inr x => negb (singletonb x) && normalb offset x end && match r with inl _ => true | inr x => negb (singletonb x) && normalb offset x end
  end.
Lemma normalb_sound offset e : normalb offset e = true -> normal offset e.
Proof.
  induction e using kex_ind'; cbn [normalb]; intros E; intros n Hn.
  - apply andb_prop in E as [E E3]. apply andb_prop in E as [E1 E2]. rewrite forallb_forall in E3.
    assert (G : forall c, In c cts -> singletonb c = false /\ is_kind k c = false /\ normal offset c).
    { intros c Hc. specialize (E3 c Hc). apply andb_prop in E3 as [E3 N]. apply andb_prop in E3 as [S K]. apply negb_true_iff in S, K. repeat split; auto. }
    apply node_comm_inv in Hn as [->|(c & Hc & Hn)].
    + split; [apply counterb_sound, E1|]. split; [apply cardinalityb_sound, E2|]. intros c Hc. destruct (G c Hc) as (S & K & _). split; [apply singletonb_sound, S|exact K].
    + apply (G c Hc), Hn.
  - apply andb_prop in E as [E1 E2].
    assert (G : forall x, l = inr x \/ r = inr x -> ~ singleton x /\ normal offset x).
    { intros x [->| ->].
      - apply andb_prop in E1 as [S N]. apply negb_true_iff in S. split; [apply singletonb_sound, S|apply (H x eq_refl N)].
      - apply andb_prop in E2 as [S N]. apply negb_true_iff in S. split; [apply singletonb_sound, S|apply (H0 x eq_refl N)]. }
    apply node_change_inv in Hn as [->|[(x & -> & Hn)|(x & -> & Hn)]].
    + intros x Hx. apply G, Hx.
    + apply (G x); auto.
    + apply (G x); auto.
Qed.
Lemma normal_built offset e : normal offset e -> built offset e.
Proof.
  induction e using kex_ind'; intros N; rewrite <- (normal_fix offset _ N).
  - pose proof (normal_wf _ _ N) as W. apply wf_comm in W as [W _]. apply (built_counter offset k bts cts W). intros c Hc. apply H; [exact Hc|].
    eapply normal_node_of; [exact N|]. eapply node_comm; [exact Hc|constructor].
  - apply (built_change offset c l r). intros x [->| ->]; [apply H|apply H0]; auto; (eapply normal_node_of; [exact N|]); [apply node_left|apply node_right]; constructor.
Qed.
Lemma normalb_built offset e : normalb offset e = true -> built offset e.
Proof. intros H. apply normal_built, normalb_sound, H. Qed.
