(** Proofs about the reduction of sigmoids to intervals. *)
From Coq Require Import Reals List Bool Arith Lra Lia.
From Verif Require Import Py KexModel KexProofs KernModel SemModel IvModel IvSpec.
Import ListNotations.
Local Open Scope R_scope.

Lemma Rltb_true a b : Rltb a b = true <-> a < b.
Proof. unfold Rltb; destruct (Rlt_dec a b); intuition congruence. Qed.
Lemma Rltb_false a b : Rltb a b = false <-> b <= a.
Proof. unfold Rltb; destruct (Rlt_dec a b); split; intros; try discriminate; auto; lra. Qed.

(** Take apart computations that returned. *)
Ltac mon1 :=
  match goal with
  | H : Raise _ = Ok _ |- _ => discriminate H
  | H : Ok _ = Ok _ |- _ => injection H as H; try subst
  | H : bind ?m _ = Ok _ |- _ => let E := fresh "E" in destruct m eqn:E; cbn [bind] in H; [|discriminate H]
  | H : rmap _ ?m = Ok _ |- _ => let E := fresh "E" in destruct m eqn:E; cbn [rmap] in H; [|discriminate H]
  | H : Rltb _ _ = true |- _ => apply Rltb_true in H
  | H : Rltb _ _ = false |- _ => apply Rltb_false in H
  | H : (if ?c then _ else _) = Ok _ |- _ => let E := fresh "E" in destruct c eqn:E
  end.
Ltac mon := repeat mon1.

Lemma vget_inv f v x : vget f v = Ok x -> exists i, v = VIv i /\ f i = Some x.
Proof. destruct v as [|i|l]; cbn; try discriminate. destruct (f i) eqn:E; [|discriminate]. intros H. injection H as ->. eauto. Qed.
Lemma vslope_inv v x : vslope v = Ok x -> False.
Proof. destruct v; discriminate. Qed.
Ltac same :=
  repeat match goal with
  | H : ?a = Ok ?x, H' : ?a = Ok ?y |- _ => rewrite H in H'; injection H' as H'; try subst
  end.
Ltac vg :=
  repeat match goal with
  | H : vget _ _ = Ok _ |- _ => let i := fresh "i" in let E := fresh "E" in
      apply vget_inv in H; destruct H as (i & E & H); try subst
  | H : vslope _ = Ok _ |- _ => apply vslope_inv in H; contradiction
  | H : VIv _ = VIv _ |- _ => injection H as H; try subst
  end.

(** The labels agree with the shapes. *)
Definition flat (v : val) : Prop := match v with VList _ => False | _ => True end.
Definition wt (b : base) (v : val) : Prop :=
  match b with
  | bS => exists i s, v = VIv i /\ i_start i = Some s /\ i_end i = None
  | bSr => exists i, v = VIv i /\ i_start i = None
  | bSI => v = VNone \/ exists i s e, v = VIv i /\ i_start i = Some s /\ i_end i = Some e
  | bSIr => exists l, v = VList l /\ Forall flat l
  | _ => False
  end.

Lemma inside_list l x : inside (VList l) x <-> Exists (fun v => inside v x) l.
Proof.
  cbn. induction l as [|v t IH]; cbn.
  - split; [contradiction | intros H; inversion H].
  - rewrite IH. split.
    + intros [H | H]; [now left | now right].
    + intros H. inversion H; subst; auto.
Qed.
Lemma inside_iv i x : inside (VIv i) x <-> (forall s, i_start i = Some s -> s < x) /\ (forall e, i_end i = Some e -> x < e).
Proof. reflexivity. Qed.

Ltac some :=
  repeat match goal with
  | H : ?a = Some ?x, H' : ?a = Some ?y |- _ => rewrite H in H'; injection H' as H'; try subst
  | H : ?a = Some _, H' : ?a = None |- _ => rewrite H in H'; discriminate H'
  | H : Some _ = Some _ |- _ => injection H as H; try subst
  | H : None = Some _ |- _ => discriminate H
  | H : Some _ = None |- _ => discriminate H
  end.

(** The first best element for a key. *)
Section Best.
  Context (better : R -> R -> bool) (le : R -> R -> Prop).
  Context (le_refl : forall a, le a a) (le_trans : forall a b c, le a b -> le b c -> le a c).
  Context (better_t : forall a b, better a b = true -> le a b) (better_f : forall a b, better a b = false -> le b a).
  Lemma best_from_spec key v k l r :
    key v = Ok k -> best_from better key v k l = Ok r ->
    (r = v \/ In r l) /\ exists kr, key r = Ok kr /\ le kr k /\ forall x, In x l -> exists kx, key x = Ok kx /\ le kr kx.
  Proof.
    revert v k. induction l as [|x t IH]; intros v k Hk H; cbn in H.
    - injection H as <-. split; [now left|]. exists k. repeat split; auto. intros x [].
    - destruct (key x) as [kx|] eqn:E; cbn [bind] in H; [|discriminate]. destruct (better kx k) eqn:Eb.
      + destruct (IH _ _ E H) as (Hin & kr & Hkr & Hb & Hall).
        split; [destruct Hin as [->|Hin]; right; [now left | now right]|].
        exists kr. split; [exact Hkr|]. split; [eapply le_trans; [exact Hb | auto]|].
        intros y [<-|Hy]; [exists kx; auto | auto].
      + destruct (IH _ _ Hk H) as (Hin & kr & Hkr & Hb & Hall).
        split; [destruct Hin as [->|Hin]; [now left | right; now right]|].
        exists kr. split; [exact Hkr|]. split; [exact Hb|].
        intros y [<-|Hy]; [exists kx; split; [exact E|]; eapply le_trans; [exact Hb | auto] | auto].
  Qed.
  Lemma best_spec key l r :
    best better key l = Ok r -> In r l /\ exists kr, key r = Ok kr /\ forall x, In x l -> exists kx, key x = Ok kx /\ le kr kx.
  Proof.
    destruct l as [|v t]; cbn; [discriminate|]. destruct (key v) as [k|] eqn:E; cbn; [|discriminate].
    intros H. destruct (best_from_spec _ _ _ _ _ E H) as (Hin & kr & Hkr & Hb & Hall).
    split; [destruct Hin as [->|Hin]; [now left | now right]|].
    exists kr. split; [exact Hkr|]. intros x [<-|Hx]; [exists k; auto | auto].
  Qed.
  Lemma best_from_ok key v k l : (forall x, In x l -> exists kx, key x = Ok kx) -> exists r, best_from better key v k l = Ok r.
  Proof.
    revert v k. induction l as [|x t IH]; intros v k H; cbn; [eauto|].
    destruct (H x (or_introl eq_refl)) as (kx & ->). cbn.
    destruct (better kx k); apply IH; intros y Hy; apply H; now right.
  Qed.
  Lemma best_ok key l : l <> [] -> (forall x, In x l -> exists kx, key x = Ok kx) -> exists r, best better key l = Ok r.
  Proof.
    destruct l as [|v t]; [congruence|]. intros _ H. cbn.
    destruct (H v (or_introl eq_refl)) as (kx & ->). cbn. apply best_from_ok. intros y Hy; apply H; now right.
  Qed.
End Best.

Lemma Sr_overlap_spec l r : Sr_overlap l = Ok r ->
  In r l /\ exists e, vget i_end r = Ok e /\ forall x, In x l -> exists e', vget i_end x = Ok e' /\ e <= e'.
Proof.
  apply (best_spec Rltb Rle); [intros; lra | intros; lra | intros a b H; apply Rltb_true in H; lra | intros a b H; apply Rltb_false in H; lra].
Qed.
Lemma S_overlap_spec l r : S_overlap l = Ok r ->
  In r l /\ exists s, vget i_start r = Ok s /\ forall x, In x l -> exists s', vget i_start x = Ok s' /\ s' <= s.
Proof.
  apply (best_spec (fun a b => Rltb b a) (fun a b => b <= a)); [intros; lra | intros; lra | intros a b H; apply Rltb_true in H; lra | intros a b H; apply Rltb_false in H; lra].
Qed.

Lemma S_overlap_inside l r x : Forall (wt bS) l -> S_overlap l = Ok r -> wt bS r /\ (inside r x <-> Forall (fun v => inside v x) l).
Proof.
  intros Hw H. destruct (S_overlap_spec _ _ H) as (Hin & s & Hs & Hall).
  rewrite Forall_forall in Hw. split; [now apply Hw|].
  destruct (Hw _ Hin) as (i & s0 & -> & E1 & E2). cbn in Hs. rewrite E1 in Hs. injection Hs as ->.
  rewrite Forall_forall. split.
  - intros [Hx _] v Hv. destruct (Hw _ Hv) as (j & sj & -> & F1 & F2).
    destruct (Hall _ Hv) as (s' & Hs' & Hle). cbn in Hs'. rewrite F1 in Hs'. injection Hs' as ->.
    specialize (Hx _ E1). split; intros; some; lra.
  - intros Hx. apply (Hx _ Hin).
Qed.
Lemma Sr_overlap_inside l r x : Forall (wt bSr) l -> Sr_overlap l = Ok r -> wt bSr r /\ (inside r x <-> Forall (fun v => inside v x) l).
Proof.
  intros Hw H. destruct (Sr_overlap_spec _ _ H) as (Hin & s & Hs & Hall).
  rewrite Forall_forall in Hw. split; [now apply Hw|].
  destruct (Hw _ Hin) as (i & -> & E1). cbn in Hs. destruct (i_end i) as [e|] eqn:E2; [|discriminate]. injection Hs as ->.
  rewrite Forall_forall. split.
  - intros [_ Hx] v Hv. destruct (Hw _ Hv) as (j & -> & F1).
    destruct (Hall _ Hv) as (s' & Hs' & Hle). cbn in Hs'. destruct (i_end j) as [e'|] eqn:F2; [|discriminate]. injection Hs' as ->.
    specialize (Hx _ E2). split; intros; some; lra.
  - intros Hx. apply (Hx _ Hin).
Qed.
Lemma SI_overlap_inside l r x : Forall (wt bSI) l -> SI_overlap l = Ok r -> wt bSI r /\ (inside r x <-> Forall (fun v => inside v x) l).
Proof.
  intros Hw H. unfold SI_overlap in H. mon.
  destruct (S_overlap_spec _ _ E) as (Hin & s & Hs & Hall). destruct (Sr_overlap_spec _ _ E0) as (Hin' & e & He & Hall').
  rewrite E1 in Hs. injection Hs as ->. rewrite E2 in He. injection He as ->.
  assert (Hiff : (s < x < e) <-> Forall (fun v => inside v x) l).
  { rewrite Forall_forall. rewrite Forall_forall in Hw. split.
    - intros Hx v Hv. destruct (Hall _ Hv) as (s' & Hs' & Hle). destruct (Hall' _ Hv) as (e' & He' & Hle').
      vg. split; intros; some; lra.
    - intros Hx. pose proof (Hx _ Hin) as H1. pose proof (Hx _ Hin') as H2. vg.
      destruct H1 as [H1 _]. destruct H2 as [_ H2]. split; auto. }
  destruct (Rltb s e) eqn:El; mon; cbn [wt inside].
  - split; [right; eexists; eexists; eexists; split; [reflexivity | split; reflexivity]|]. rewrite <- Hiff. cbn. split.
    + intros [H1 H2]. split; auto.
    + intros [H1 H2]. split; intros; some; auto.
  - split; [now left|]. rewrite <- Hiff. split; [contradiction | lra].
Qed.

(** Intersections of two pieces. *)
Definition inside_list_of (l : list val) (x : R) : Prop := Exists (fun v => inside v x) l.
Ltac ins := cbn [inside i_start i_end i_sslope i_eslope] in *.
Lemma segment_semiline_inside b seg semi r x :
  wt bSI seg -> b = bS \/ b = bSr -> wt b semi -> intersect_segment_semiline seg semi = Ok r ->
  (r = VNone \/ wt bSI r) /\ (inside r x <-> inside seg x /\ inside semi x).
Proof.
  intros Hseg Hb Hsemi H.
  destruct Hseg as [-> | (i & a & c & -> & Ea & Ec)].
  { exfalso. destruct Hb as [-> | ->].
    - destruct Hsemi as (j & s & -> & Es & Ee). unfold intersect_segment_semiline in H. cbn in H. rewrite Es in H. cbn in H. rewrite Ee in H. cbn in H. discriminate.
    - destruct Hsemi as (j & -> & Es). unfold intersect_segment_semiline in H. cbn in H. rewrite Es in H. cbn in H. discriminate. }
  destruct Hb as [-> | ->].
  - destruct Hsemi as (j & s & -> & Es & Ee). unfold intersect_segment_semiline in H. cbn in H.
    rewrite ?Es, ?Ee, ?Ea, ?Ec in H. cbn in H. rewrite ?Es, ?Ee, ?Ea, ?Ec in H. cbn in H.
    destruct (Rltb s c) eqn:E1; [destruct (Rltb s a) eqn:E2|].
    + mon. split; [right; right; eauto 10|]. ins. rewrite Ea, Ec, Es, Ee. split.
      * intros [H1 H2]. repeat split; intros; some; auto; specialize (H1 _ eq_refl); lra.
      * tauto.
    + cbn in H. mon. vg. some. split; [right; right; cbn; eexists; eexists; eexists; split; [reflexivity | split; reflexivity]|]. ins. rewrite Ea, Ec, Es, Ee. split.
      * intros [H1 H2]. specialize (H1 _ eq_refl). specialize (H2 _ eq_refl). repeat split; intros; some; lra.
      * intros [[H1 H2] [H3 H4]]. specialize (H1 _ eq_refl). specialize (H2 _ eq_refl). specialize (H3 _ eq_refl). split; intros; some; lra.
    + mon. split; [now left|]. ins. rewrite Ea, Ec, Es, Ee. split; [contradiction|].
      intros [[H1 H2] [H3 H4]]. specialize (H1 _ eq_refl). specialize (H2 _ eq_refl). specialize (H3 _ eq_refl). lra.
  - destruct Hsemi as (j & -> & Es). unfold intersect_segment_semiline in H. cbn in H. rewrite Es in H. cbn in H.
    destruct (i_end j) as [e|] eqn:Ee; [|mon; discriminate].
    rewrite ?Es, ?Ee, ?Ea, ?Ec in H. cbn in H.
    destruct (Rltb a e) eqn:E1; [destruct (Rltb c e) eqn:E2|].
    + mon. split; [right; right; eauto 10|]. ins. rewrite Ea, Ec, Es, Ee. split.
      * intros [H1 H2]. repeat split; intros; some; auto; specialize (H2 _ eq_refl); lra.
      * tauto.
    + cbn in H. mon. vg. some. split; [right; right; cbn; eexists; eexists; eexists; split; [reflexivity | split; reflexivity]|]. ins. rewrite Ea, Ec, Es, Ee. split.
      * intros [H1 H2]. specialize (H1 _ eq_refl). specialize (H2 _ eq_refl). repeat split; intros; some; lra.
      * intros [[H1 H2] [H3 H4]]. specialize (H1 _ eq_refl). specialize (H2 _ eq_refl). specialize (H4 _ eq_refl). split; intros; some; lra.
    + mon. split; [now left|]. ins. rewrite Ea, Ec, Es, Ee. split; [contradiction|].
      intros [[H1 H2] [H3 H4]]. specialize (H1 _ eq_refl). specialize (H2 _ eq_refl). specialize (H4 _ eq_refl). lra.
Qed.

(** A hole: both ends there; its points are those before its 'end' and after its 'start'. *)
Definition hole (v : val) (l r : R) : Prop := exists i, v = VIv i /\ i_end i = Some l /\ i_start i = Some r.
Lemma Exists_two {A} (P : A -> Prop) a b : Exists P [a; b] <-> P a \/ P b.
Proof. rewrite !Exists_cons, Exists_nil. tauto. Qed.
Lemma Exists_one {A} (P : A -> Prop) a : Exists P [a] <-> P a.
Proof. rewrite !Exists_cons, Exists_nil. tauto. Qed.
Ltac facts :=
  repeat match goal with
  | H : forall s, Some ?a = Some s -> _ |- _ => specialize (H _ eq_refl)
  | H : forall s, None = Some s -> _ |- _ => clear H
  end.
Lemma segment_hole_inside a c i h l r ps x :
  i_start i = Some a -> i_end i = Some c -> hole h l r -> intersect_segment_hole (VIv i) h = Ok ps ->
  Forall flat ps /\ (inside_list_of ps x <-> inside (VIv i) x /\ (x < l \/ r < x)).
Proof.
  intros Ea Ec (j & -> & El & Er) H. unfold intersect_segment_hole in H. cbn in H. rewrite Ea, Ec, El, Er in H. cbn in H.
  unfold inside_list_of.
  destruct (Rltb a l) eqn:E1; [destruct (Rltb c l) eqn:E2|]; cbn in H; try (mon; discriminate).
  - destruct (Rltb r c) eqn:E3; cbn in H; [destruct (Rltb r a) eqn:E4; cbn in H|]; mon; cbn [app].
    + split; [repeat constructor|]. rewrite Exists_two. ins. rewrite Ea, Ec. split; [|tauto].
      intros [[H1 H2]|[H1 H2]]; facts; (split; [split; intros; some; lra | lra]).
    + split; [repeat constructor|]. rewrite Exists_one. ins. rewrite Ea, Ec. split; [|tauto].
      intros [H1 H2]; facts; (split; [split; intros; some; lra | lra]).
  - destruct (Rltb r c) eqn:E3; cbn in H; [destruct (Rltb r a) eqn:E4; cbn in H|]; mon; cbn [app].
    + split; [repeat constructor|]. rewrite Exists_one. ins. rewrite Ea, Ec. split; [|tauto].
      intros [H1 H2]; facts; (split; [split; intros; some; lra | lra]).
    + split; [constructor|]. rewrite Exists_nil. ins. rewrite Ea, Ec. split; [contradiction|].
      intros [[H1 H2] H3]; facts. lra.
Qed.
Lemma semiline_hole_inside i h l r ps x :
  i_start i = None \/ i_end i = None -> hole h l r -> intersect_semiline_hole (VIv i) h = Ok ps ->
  Forall flat ps /\ (inside_list_of ps x <-> inside (VIv i) x /\ (x < l \/ r < x)).
Proof.
  intros Hs (j & -> & El & Er) H. unfold intersect_semiline_hole in H. cbn in H.
  unfold inside_list_of.
  destruct (i_start i) as [s|] eqn:Es; cbn in H; rewrite ?El, ?Er in H; cbn in H.
  - destruct Hs as [Hs|Ee]; [discriminate|].
    destruct (Rltb s r) eqn:E1; cbn in H.
    + rewrite ?El in H; cbn in H.
      destruct (Rltb s l) eqn:E2; cbn in H; mon; vg; cbn [app].
      * split; [repeat constructor|]. rewrite Exists_two. ins. rewrite Es, Ee. split.
        -- intros [[H1 H2]|[H1 H2]]; facts; (split; [split; intros; some; lra | lra]).
        -- intros [[H1 H2] [H3|H3]]; facts; [left | right]; (split; intros; some; lra).
      * split; [repeat constructor|]. rewrite Exists_one. ins. rewrite Es, Ee. split.
        -- intros [H1 H2]; facts; (split; [split; intros; some; lra | lra]).
        -- intros [[H1 H2] [H3|H3]]; facts; (split; intros; some; lra).
    + mon. split; [repeat constructor|]. rewrite Exists_one. ins. rewrite Es, Ee. split; [|tauto].
      intros [H1 H2]; facts; (split; [split; intros; some; lra | lra]).
  - destruct (i_end i) as [e|] eqn:Ee; cbn in H; [|discriminate].
    destruct (Rltb l e) eqn:E1; cbn in H; [discriminate|]. mon.
    split; [repeat constructor|]. rewrite Exists_one. ins. rewrite Es, Ee. split; [|tauto].
    intros [H1 H2]; facts; (split; [split; intros; some; lra | lra]).
Qed.

Lemma mapM_Forall2 {A B} (f : A -> res B) l r : mapM f l = Ok r -> Forall2 (fun x y => f x = Ok y) l r.
Proof. revert r. induction l as [|x t IH]; intros r H; cbn in H; mon; constructor; auto. Qed.

Lemma SIr_step_inside acc h l r ps x :
  Forall flat acc -> hole h l r -> SIr_overlap_step acc h = Ok ps ->
  Forall flat ps /\ (inside_list_of ps x <-> inside_list_of acc x /\ (x < l \/ r < x)).
Proof.
  intros Hf Hh H. unfold SIr_overlap_step in H. mon. apply mapM_Forall2 in E. unfold inside_list_of.
  induction E as [|v p t pt Hv Ht IH]; cbn [concat].
  - split; [constructor|]. rewrite Exists_nil. tauto.
  - inversion Hf as [|? ? Hf1 Hf2]; subst. destruct (IH Hf2) as [IH1 IH2]; clear IH.
    assert (Hv' : Forall flat p /\ (inside_list_of p x <-> inside v x /\ (x < l \/ r < x))).
    { destruct v as [|i|vs]; cbn [bind vmissing] in Hv; [discriminate | | contradiction].
      destruct (i_start i) as [s|] eqn:Es; cbn [bind] in Hv.
      - destruct (i_end i) as [e|] eqn:Ee; cbn [bind] in Hv.
        + eapply segment_hole_inside; eassumption.
        + eapply semiline_hole_inside; eauto.
      - eapply semiline_hole_inside; eauto. }
    destruct Hv' as [H1 H2]. split; [apply Forall_app; auto|].
    rewrite Exists_app, Exists_cons. unfold inside_list_of in H2. rewrite H2, IH2. tauto.
Qed.
Lemma SIr_fold_inside t acc ps x :
  Forall flat acc -> Forall (fun h => exists l r, hole h l r) t -> foldM SIr_overlap_step t acc = Ok ps ->
  Forall flat ps /\ (inside_list_of ps x <-> inside_list_of acc x /\ Forall (fun h => exists l r, hole h l r /\ (x < l \/ r < x)) t).
Proof.
  revert acc. induction t as [|h t IH]; intros acc Hf Hh H; cbn in H.
  - mon. split; [exact Hf|]. split; [|tauto]. intros; split; [assumption | constructor].
  - mon. inversion Hh as [|? ? (l & r & Hl) Hh2]; subst.
    destruct (SIr_step_inside _ _ _ _ _ x Hf Hl E) as [H1 H2].
    destruct (IH _ H1 Hh2 H) as [H3 H4]. split; [exact H3|]. rewrite H4, H2, Forall_cons_iff.
    split; [intros [[Ha Hb] Hc]; split; [exact Ha|]; split; [eauto | exact Hc]|].
    intros [Ha [(l' & r' & Hl' & Hb) Hc]]. split; [split; [exact Ha|] | exact Hc].
    destruct Hl as (i & -> & E1 & E2). destruct Hl' as (i' & Ei & E1' & E2'). injection Ei as <-. some. exact Hb.
Qed.
Lemma SIr_overlap_inside hs r x :
  Forall (fun h => exists l r, hole h l r) hs -> SIr_overlap hs = Ok r ->
  wt bSIr r /\ (inside r x <-> Forall (fun h => exists l r, hole h l r /\ (x < l \/ r < x)) hs).
Proof.
  destruct hs as [|h t]; intros Hh H; cbn in H; [discriminate|]. mon.
  inversion Hh as [|? ? (l0 & r0 & Hl) Hh2]; subst.
  assert (Ha : Forall flat a /\ (inside_list_of a x <-> (x < l0 \/ r0 < x))).
  { unfold SIr_split_intervals in E. destruct Hl as (i & -> & E1 & E2). cbn in E. rewrite E1, E2 in E. cbn in E. mon.
    split; [repeat constructor|]. unfold inside_list_of. rewrite Exists_two. ins. split.
    - intros [[H1 H2]|[H1 H2]]; facts; auto.
    - intros [H1|H1]; [left|right]; split; intros; some; auto. }
  destruct Ha as [Ha1 Ha2]. destruct (SIr_fold_inside _ _ _ x Ha1 Hh2 E0) as [H1 H2].
  split; [exists a0; auto|]. rewrite inside_list. fold (inside_list_of a0 x). rewrite H2, Ha2, Forall_cons_iff.
  split; [intros [Hb Hc]; split; eauto|].
  intros [(l' & r' & Hl' & Hb) Hc]. split; [|exact Hc].
  destruct Hl as (i & -> & E1 & E2). destruct Hl' as (i' & Ei & E1' & E2'). injection Ei as <-. some. exact Hb.
Qed.

(** The overlap of the sigmoids of one type is the set where all of them are active. *)
Definition slope1 (fixed : bool) (p : pdict) : pdict := if fixed then dict_set pname_eqb p pSlope 1 else p.
Lemma pget_slope (fixed : bool) (p : pdict) (n : pname) : n <> pSlope -> pget (slope1 fixed p) n = pget p n.
Proof.
  unfold slope1. destruct fixed; [|reflexivity]. intros Hn. unfold pget. f_equal.
  induction p as [|[k v] t IH]; cbn.
  - destruct n; cbn; congruence.
  - destruct (pname_eqb k pSlope) eqn:E; cbn.
    + destruct k; try discriminate. destruct n; cbn; congruence.
    + destruct (pname_eqb k n); [reflexivity | exact IH].
Qed.
Lemma check_slope_map fixed ps : check_slope fixed ps = map (slope1 fixed) ps.
Proof. unfold slope1. destruct fixed; [reflexivity|]. unfold check_slope. now rewrite map_id. Qed.
Lemma mapM_map {A B C} (f : B -> res C) (g : A -> B) l : mapM f (map g l) = mapM (fun x => f (g x)) l.
Proof. induction l as [|x t IH]; cbn; [reflexivity|]. now rewrite IH. Qed.

Lemma all_inside_active (fixed : bool) b (f : pdict -> res val) (P : val -> Prop) (Q : val -> R -> Prop) ps vs x :
  (forall p v, f (slope1 fixed p) = Ok v -> P v /\ (Q v x <-> active b p x)) ->
  mapM f (check_slope fixed ps) = Ok vs ->
  Forall P vs /\ (Forall (fun v => Q v x) vs <-> forall p, In p ps -> active b p x).
Proof.
  intros Hf H. rewrite check_slope_map, mapM_map in H. apply mapM_Forall2 in H.
  induction H as [|p v t vt Hv Ht [IH1 IH2]].
  - split; [constructor|]. split; [intros _ p [] | intros; constructor].
  - destruct (Hf _ _ Hv) as [H1 H2]. split; [constructor; auto|]. rewrite Forall_cons_iff, IH2, H2. split.
    + intros [Ha Hb] p' [<-|Hp]; auto.
    + intros Ha. split; [apply Ha; now left | intros; apply Ha; now right].
Qed.
Lemma active_unfold b p l x : pget p pLocation = Ok l -> active b p x <->
  match b with
  | bS => l < x
  | bSr => x < l
  | bSI => exists w, pget p pWidth = Ok w /\ l < x < l + w
  | bSIr => exists w, pget p pWidth = Ok w /\ (x < l \/ l + w < x)
  | _ => False
  end.
Proof.
  intros Hl. unfold active. split; [intros (l' & Hl' & H); rewrite Hl in Hl'; injection Hl' as <-; exact H | intros H; eauto].
Qed.
Lemma type_overlap_inside fixed b ps v x :
  is_sigmoid b = true -> type_overlap fixed b ps = Ok v -> wt b v /\ (inside v x <-> forall p, In p ps -> active b p x).
Proof.
  intros Hb H. destruct b; try discriminate Hb; cbn [type_overlap] in H.
  - mon. destruct (all_inside_active fixed bS S_interval (wt bS) inside ps a x) as [H1 H2]; [|exact E|].
    + intros p v0 Hv. unfold S_interval in Hv. rewrite pget_slope in Hv by discriminate. mon.
      split; [cbn; eexists; eexists; split; [reflexivity | split; reflexivity]|]. rewrite (active_unfold _ _ _ _ E0). ins. split; [intros [Ha Hc]; facts; auto | intros Ha; split; intros; some; auto].
    + destruct (S_overlap_inside _ _ x H1 H) as [H3 H4]. split; [exact H3|]. now rewrite H4, H2.
  - mon. destruct (all_inside_active fixed bSr Sr_interval (wt bSr) inside ps a x) as [H1 H2]; [|exact E|].
    + intros p v0 Hv. unfold Sr_interval in Hv. rewrite pget_slope in Hv by discriminate. mon.
      split; [cbn; eexists; split; reflexivity|]. rewrite (active_unfold _ _ _ _ E0). ins. split; [intros [Ha Hc]; facts; auto | intros Ha; split; intros; some; auto].
    + destruct (Sr_overlap_inside _ _ x H1 H) as [H3 H4]. split; [exact H3|]. now rewrite H4, H2.
  - mon. destruct (all_inside_active fixed bSI SI_interval (wt bSI) inside ps a x) as [H1 H2]; [|exact E|].
    + intros p v0 Hv. unfold SI_interval, SI_ps_left, SI_ps_right in Hv. rewrite !pget_slope in Hv by discriminate. mon. same.
      split; [right; cbn; eexists; eexists; eexists; split; [reflexivity | split; reflexivity]|]. match goal with HL : pget p pLocation = Ok _ |- _ => rewrite (active_unfold _ _ _ _ HL) end. ins. split.
      * intros [Ha Hc]; facts. eauto.
      * intros (w & Hw & Ha). same. split; intros; some; lra.
    + destruct (SI_overlap_inside _ _ x H1 H) as [H3 H4]. split; [exact H3|]. now rewrite H4, H2.
  - mon. destruct (all_inside_active fixed bSIr SIr_hole_interval (fun h => exists l r, hole h l r) (fun h x => exists l r, hole h l r /\ (x < l \/ r < x)) ps a x) as [H1 H2]; [|exact E|].
    + intros p v0 Hv. unfold SIr_hole_interval, SI_ps_left, SI_ps_right in Hv. rewrite !pget_slope in Hv by discriminate. mon. same.
      split; [eexists; eexists; eexists; split; [reflexivity | split; reflexivity]|]. match goal with HL : pget p pLocation = Ok _ |- _ => rewrite (active_unfold _ _ _ _ HL) end. split.
      * intros (l & r & (i & Ei & H1 & H2) & Ha). injection Ei as <-. cbn in H1, H2. some. eauto.
      * intros (w & Hw & Ha). same.
        eexists; eexists; split; [eexists; split; [reflexivity | split; reflexivity] | exact Ha].
    + destruct (SIr_overlap_inside _ _ x H1 H) as [H3 H4]. split; [exact H3|]. now rewrite H4, H2.
Qed.

(** Intersecting two results of different types. *)
Lemma or_end_None (i : ival) : or_else (@None R) (i_start i) = i_start i.
Proof. destruct i as [[|] ? ? ?]; reflexivity. Qed.
Definition plain_result (v : val) : Prop := v = VNone \/ v = VList [] \/ exists i, v = VIv i.
Lemma pair_plain_inside p q r x :
  wt (fst p) (snd p) -> wt (fst q) (snd q) -> fst p <> bSIr -> fst q <> bSIr ->
  pair_plain p q = Ok r -> plain_result r /\ (inside r x <-> inside (snd p) x /\ inside (snd q) x).
Proof.
  destruct p as [bp vp], q as [bq vq]. cbn [fst snd]. intros Hp Hq Np Nq H.
  assert (Hunw : forall v, plain_result v -> unwrap v = v) by (intros v [->|[->|(i & ->)]]; reflexivity).
  assert (Hwt : forall b v, b <> bSIr -> wt b v -> plain_result v).
  { intros b v Hb Hw. unfold plain_result. destruct b; cbn in Hw; try contradiction; try congruence.
    - destruct Hw as (i & s & -> & _); eauto.
    - destruct Hw as (i & -> & _); eauto.
    - destruct Hw as [-> | (i & s & e & -> & _)]; eauto. }
  assert (Hseg : forall b seg semi r0, wt bSI seg -> b = bS \/ b = bSr -> wt b semi -> intersect_segment_semiline seg semi = Ok r0 ->
     plain_result (match r0 with VNone => VList [] | _ => r0 end) /\
     (inside (match r0 with VNone => VList [] | _ => r0 end) x <-> inside seg x /\ inside semi x)).
  { intros b seg semi r0 H1 H2 H3 H4. destruct (segment_semiline_inside b _ _ _ x H1 H2 H3 H4) as [H5 H6]. rewrite <- H6.
    destruct H5 as [-> | [-> | (i & s & e & -> & _)]]; cbn; unfold plain_result; (split; [eauto | tauto]). }
  assert (Hss : forall ps pe s e r0, wt bS ps -> wt bSr pe -> vget i_start ps = Ok s -> vget i_end pe = Ok e ->
     (if Rltb s e then merge ps pe else Ok (VList [])) = Ok r0 -> plain_result r0 /\ (inside r0 x <-> inside ps x /\ inside pe x)).
  { intros ps pe s e r0 (i & s0 & -> & E1 & E2) (j & -> & E3) Hs He H1. vg. some.
    destruct (Rltb s e) eqn:El; cbn [merge] in H1; mon.
    - split; [unfold plain_result; eauto|]. ins. rewrite E1, E2, E3, He. cbn [or_else]. split.
      + intros [Ha Hb]. facts. repeat split; intros; some; auto.
      + intros [[Ha _] [_ Hb]]. facts. split; intros; some; auto.
    - split; [unfold plain_result; auto|]. ins. rewrite E1, E2, E3, He. split; [contradiction|].
      intros [[Ha _] [_ Hb]]. facts. lra. }
  unfold pair_plain in H. cbn [fst snd] in H.
  destruct bp; cbn in Hp; try contradiction; try congruence; destruct bq; cbn in Hq; try contradiction; try congruence;
    unfold in_pair, from_pair in H; cbn [fst snd base_eqb orb bind] in H.
  - mon. destruct (S_overlap_inside [vp; vq] a x) as [H1 H2]; [constructor; [exact Hp | constructor; [exact Hq | constructor]] | assumption|].
    rewrite Hunw by (eapply (Hwt bS); [discriminate | exact H1]). split; [eapply (Hwt bS); [discriminate | exact H1]|].
    rewrite H2, !Forall_cons_iff. intuition.
  - destruct (vget i_start vp) as [s|] eqn:E1; cbn [bind] in H; [|discriminate].
    destruct (vget i_end vq) as [e|] eqn:E2; cbn [bind] in H; [|discriminate]. eapply Hss; eassumption.
  - destruct (intersect_segment_semiline vq vp) eqn:E; cbn [bind] in H; [|discriminate]. injection H as <-.
    destruct (Hseg bS _ _ _ Hq (or_introl eq_refl) Hp E) as [H1 H2]. split; [exact H1|]. tauto.
  - destruct (vget i_start vq) as [s|] eqn:E1; cbn [bind] in H; [|discriminate].
    destruct (vget i_end vp) as [e|] eqn:E2; cbn [bind] in H; [|discriminate].
    destruct (Hss _ _ _ _ _ Hq Hp E1 E2 H) as [H1 H2]. split; [exact H1 | tauto].
  - mon. destruct (Sr_overlap_inside [vp; vq] a x) as [H1 H2]; [constructor; [exact Hp | constructor; [exact Hq | constructor]] | assumption|].
    rewrite Hunw by (eapply (Hwt bSr); [discriminate | exact H1]). split; [eapply (Hwt bSr); [discriminate | exact H1]|].
    rewrite H2, !Forall_cons_iff. intuition.
  - destruct (intersect_segment_semiline vq vp) eqn:E; cbn [bind] in H; [|discriminate]. injection H as <-.
    destruct (Hseg bSr _ _ _ Hq (or_intror eq_refl) Hp E) as [H1 H2]. split; [exact H1|]. tauto.
  - destruct (intersect_segment_semiline vp vq) eqn:E; cbn [bind] in H; [|discriminate]. injection H as <-.
    exact (Hseg bS _ _ _ Hp (or_introl eq_refl) Hq E).
  - destruct (intersect_segment_semiline vp vq) eqn:E; cbn [bind] in H; [|discriminate]. injection H as <-.
    exact (Hseg bSr _ _ _ Hp (or_intror eq_refl) Hq E).
  - mon. destruct (SI_overlap_inside [vp; vq] a x) as [H1 H2]; [constructor; [exact Hp | constructor; [exact Hq | constructor]] | assumption|].
    rewrite Hunw by (eapply (Hwt bSI); [discriminate | exact H1]). split; [eapply (Hwt bSI); [discriminate | exact H1]|].
    rewrite H2, !Forall_cons_iff. intuition.
Qed.

Lemma identify_wt v b v' : flat v -> identify_interval_type v = Ok (b, v') -> v' = v /\ wt b v /\ b <> bSIr.
Proof.
  destruct v as [|i|l]; cbn; intros Hf H; try discriminate; try contradiction.
  injection H as <- <-. split; [reflexivity|]. destruct (i_start i) as [s|] eqn:Es; [destruct (i_end i) as [e|] eqn:Ee|]; cbn; split; try discriminate; eauto.
  right. eauto 10.
Qed.
Definition list_result (v : val) : Prop := plain_result v \/ exists l, v = VList l /\ Forall flat l.
Lemma pair_list_inside o v r x :
  wt (fst o) (snd o) -> fst o <> bSIr -> wt bSIr v -> pair_list o v = Ok r ->
  list_result r /\ (inside r x <-> inside (snd o) x /\ inside v x).
Proof.
  intros Ho No (l & -> & Hl) H. cbn [pair_list pair_element] in H. mon.
  assert (H0 : Forall flat a /\ (inside (VList a) x <-> inside (snd o) x /\ inside (VList l) x)).
  { revert a E. induction l as [|v t IH]; intros a E; cbn in E.
    - mon. split; [constructor|]. cbn. tauto.
    - inversion Hl as [|? ? Hv Ht]; subst. mon.
      destruct (IH Ht _ eq_refl) as [IH1 IH2]; clear IH.
      assert (Hy : plain_result a0 /\ (inside a0 x <-> inside (snd o) x /\ inside v x)).
      { destruct v as [|i|vs]; cbn [pair_element] in E0; [discriminate | | contradiction].
        destruct (identify_interval_type (VIv i)) as [[b v']|] eqn:Ei; cbn [bind] in E0; [|discriminate].
        destruct (identify_wt (VIv i) _ _ I Ei) as (-> & Hw & Hb).
        exact (pair_plain_inside o (b, VIv i) a0 x Ho Hw No Hb E0). }
      destruct Hy as [Hy1 Hy2]. rewrite inside_list in IH2 |- *.
      destruct (is_empty_list a0) eqn:Ee.
      + destruct a0 as [| |[|]]; try discriminate Ee. cbn in Hy2. split; [exact IH1|]. rewrite IH2. cbn. tauto.
      + split.
        * constructor; [|exact IH1]. destruct Hy1 as [-> | [-> | (i & ->)]]; [exact I | discriminate Ee | exact I].
        * rewrite Exists_cons, IH2, Hy2. cbn. tauto. }
  destruct H0 as [H1 H2]. rewrite <- H2. destruct a as [|y [|z t]]; cbn [unwrap].
  - split; [left; right; now left | tauto].
  - split; [|cbn; tauto]. inversion H1 as [|? ? Hy _]; subst. left. destruct y as [|i|vs]; [now left | right; right; eauto | contradiction].
  - split; [right; eauto | tauto].
Qed.

Lemma pair_inside p q r x :
  wt (fst p) (snd p) -> wt (fst q) (snd q) -> simplify_sigmoidal_interval_pair p q = Ok r ->
  list_result r /\ (inside r x <-> inside (snd p) x /\ inside (snd q) x).
Proof.
  intros Hp Hq H. unfold simplify_sigmoidal_interval_pair in H.
  destruct (base_eqb (fst p) (fst q)) eqn:E1; [|destruct (base_eqb (fst p) bSIr) eqn:E2; [|destruct (base_eqb (fst q) bSIr) eqn:E3]].
  - apply base_eqb_spec in E1.
    assert (Np : fst p <> bSIr). { intros Ep. unfold pair_plain in H. rewrite <- E1, Ep in H. cbn in H. discriminate. }
    destruct (pair_plain_inside p q r x Hp Hq Np ltac:(congruence) H) as [H1 H2]. split; [now left | exact H2].
  - apply base_eqb_spec in E2.
    assert (Nq : fst q <> bSIr). { intros Eq. rewrite E2, Eq in E1. discriminate. }
    rewrite E2 in Hp. destruct (pair_list_inside q (snd p) r x Hq Nq Hp H) as [H1 H2]. split; [exact H1 | tauto].
  - apply base_eqb_spec in E3.
    assert (Np : fst p <> bSIr). { intros Ep. rewrite Ep in E2. discriminate. }
    rewrite E3 in Hq. exact (pair_list_inside p (snd q) r x Hp Np Hq H).
  - assert (Np : fst p <> bSIr). { intros Ep. rewrite Ep in E2. discriminate. }
    assert (Nq : fst q <> bSIr). { intros Eq. rewrite Eq in E3. discriminate. }
    destruct (pair_plain_inside p q r x Hp Hq Np Nq H) as [H1 H2]. split; [now left | exact H2].
Qed.
Lemma identify_result v b v' : list_result v -> identify_interval_type v = Ok (b, v') -> v' = v /\ wt b v.
Proof.
  intros Hr H. destruct v as [|i|l]; [discriminate| |].
  - destruct (identify_wt (VIv i) _ _ I H) as (-> & Hw & _). auto.
  - cbn in H. injection H as <- <-. split; [reflexivity|]. exists l. split; [reflexivity|].
    destruct Hr as [[Hr|[Hr|(i & Hr)]]|(l' & Hr & Hl')]; try discriminate; injection Hr as ->; [constructor | exact Hl'].
Qed.
Definition typed (p : base * val) : Prop := wt (fst p) (snd p).
Definition acc_inside (a : option (base * val)) (x : R) : Prop := match a with Some p => inside (snd p) x | None => False end.
Lemma fold_inside items a r x :
  Forall typed items -> (match a with Some p => typed p | None => True end) ->
  foldM simplify_sigmoidal_intervals_step items a = Ok r ->
  (match r with Some p => typed p | None => True end) /\
  (acc_inside r x <-> acc_inside a x /\ Forall (fun p => inside (snd p) x) items).
Proof.
  revert a. induction items as [|p t IH]; intros a Hi Ha H; cbn in H.
  - mon. split; [exact Ha|]. split; [intros; split; [assumption | constructor] | tauto].
  - inversion Hi as [|? ? Hp Ht]; subst. destruct a as [q|]; cbn [simplify_sigmoidal_intervals_step] in H.
    + destruct (simplify_sigmoidal_interval_pair q p) as [v|] eqn:E; cbn [bind] in H; [|discriminate].
      destruct (pair_inside _ _ _ x Ha Hp E) as [H1 H2]. rewrite Forall_cons_iff. cbn [acc_inside].
      assert (Hv : exists a', (match a' with Some p => typed p | None => True end) /\ (acc_inside a' x <-> inside v x) /\
                   foldM simplify_sigmoidal_intervals_step t a' = Ok r).
      { destruct v as [|i|l]; cbn [bind] in H.
        - exists None. split; [exact I|]. split; [cbn; tauto | exact H].
        - destruct (identify_interval_type (VIv i)) as [[b v']|] eqn:Ei; cbn [rmap bind] in H; [|discriminate].
          destruct (identify_result _ _ _ H1 Ei) as [-> Hw]. exists (Some (b, VIv i)). split; [exact Hw|]. split; [cbn; tauto | exact H].
        - destruct (identify_interval_type (VList l)) as [[b v']|] eqn:Ei; cbn [rmap bind] in H; [|discriminate].
          destruct (identify_result _ _ _ H1 Ei) as [-> Hw]. exists (Some (b, VList l)). split; [exact Hw|]. split; [cbn; tauto | exact H]. }
      destruct Hv as (a' & Hw & Hin & Hf). destruct (IH _ Ht Hw Hf) as [H3 H4]. split; [exact H3|].
      rewrite H4, Hin, H2. tauto.
    + cbn [bind] in H. destruct (IH None Ht I H) as [H3 H4]. split; [exact H3|]. rewrite H4. cbn. tauto.
Qed.

Lemma sigmoidals_inside fixed d s x : sigmoidals fixed d = Ok s ->
  Forall typed s /\ (Forall (fun p => inside (snd p) x) s <-> all_active d x).
Proof.
  revert s. induction d as [|[k ps] t IH]; intros s H; cbn in H.
  - mon. split; [constructor|]. split; [intros _ b ps p [] | intros; constructor].
  - assert (Hskip : forall s, (forall b, k = KBase b -> is_sigmoid b = false) -> sigmoidals fixed t = Ok s ->
       Forall typed s /\ (Forall (fun p => inside (snd p) x) s <-> all_active ((k, ps) :: t) x)).
    { intros s0 Hk Hs. destruct (IH _ Hs) as [H1 H2]. split; [exact H1|]. rewrite H2. split.
      - intros Ha b ps' p [Hb|Hin] Hsg Hp; [injection Hb as -> ->; rewrite (Hk _ eq_refl) in Hsg; discriminate | exact (Ha _ _ _ Hin Hsg Hp)].
      - intros Ha b ps' p Hin Hsg Hp. exact (Ha _ _ _ (or_intror Hin) Hsg Hp). }
    destruct k as [b| |c|l b]; try (apply Hskip; [intros ? Hk; discriminate Hk | exact H]).
    destruct (is_sigmoid b) eqn:Eb; [|apply Hskip; [intros ? Hk; injection Hk as <-; exact Eb | exact H]].
    clear Hskip. mon. destruct (IH _ eq_refl) as [H1 H2]. destruct (type_overlap_inside _ _ _ _ x Eb E) as [H3 H4].
    split; [constructor; assumption|]. rewrite Forall_cons_iff, H2. cbn [snd]. rewrite H4. split.
    + intros [Ha Hb] b' ps' p [Hk|Hin] Hsg Hp; [injection Hk as <- <-; auto | exact (Hb _ _ _ Hin Hsg Hp)].
    + intros Ha. split; [intros p Hp; exact (Ha _ _ _ (or_introl eq_refl) Eb Hp) | intros b' ps' p Hin Hsg Hp; exact (Ha _ _ _ (or_intror Hin) Hsg Hp)].
Qed.

(** C35 *)
Theorem intervals_exact fixed d l x :
  sigmoids_to_intervals fixed d = Ok (Some l) -> (exists v, In v l /\ inside v x) <-> all_active d x.
Proof.
  intros H. unfold sigmoids_to_intervals in H. destruct (sigmoidals fixed d) as [a|] eqn:E; cbn [bind] in H; [|discriminate].
  destruct (sigmoidals_inside _ _ _ x E) as [H1 H2]. rewrite <- H2.
  destruct a as [|p t]; [discriminate|]. cbn [simplify_sigmoidal_intervals] in H.
  destruct (foldM simplify_sigmoidal_intervals_step t (Some p)) as [[q|]|] eqn:E1; cbn [bind] in H; [|discriminate|discriminate].
  injection H as <-.
  inversion H1 as [|? ? Hp Ht]; subst. destruct (fold_inside _ (Some p) _ x Ht Hp E1) as [H3 H4]. cbn [acc_inside] in H4.
  rewrite Forall_cons_iff, <- H4, <- Exists_exists.
  destruct (snd q) as [|i|vs] eqn:Eq; [rewrite Exists_one; tauto | rewrite Exists_one; tauto | rewrite inside_list; tauto].
Qed.
Lemma sigmoidals_keys fixed d s b : sigmoidals fixed d = Ok s -> (In b (map fst s) <-> exists ps, In (KBase b, ps) d /\ is_sigmoid b = true).
Proof.
  revert s. induction d as [|[k ps] t IH]; intros s H; cbn in H.
  - mon. cbn. split; [contradiction | intros (ps & [] & _)].
  - assert (Hskip : forall s, (forall b, k = KBase b -> is_sigmoid b = false) -> sigmoidals fixed t = Ok s ->
       (In b (map fst s) <-> exists ps', In (KBase b, ps') ((k, ps) :: t) /\ is_sigmoid b = true)).
    { intros s0 Hk Hs. rewrite (IH _ Hs). split.
      - intros (ps' & Hin & Hsg). exists ps'. split; [now right | exact Hsg].
      - intros (ps' & [Hb|Hin] & Hsg); [injection Hb as -> ->; rewrite (Hk _ eq_refl) in Hsg; discriminate | eauto]. }
    destruct k as [b'| |c|l b']; try (apply Hskip; [intros ? Hk; discriminate Hk | exact H]).
    destruct (is_sigmoid b') eqn:Eb; [|apply Hskip; [intros ? Hk; injection Hk as <-; exact Eb | exact H]].
    clear Hskip. mon. cbn [map fst In]. rewrite (IH _ eq_refl). split.
    + intros [<-|(ps' & Hin & Hsg)]; [exists ps; split; [now left | exact Eb] | exists ps'; split; [now right | exact Hsg]].
    + intros (ps' & [Hk|Hin] & Hsg); [injection Hk as -> ->; now left | right; eauto].
Qed.
Theorem intervals_some fixed d o : sigmoids_to_intervals fixed d = Ok o ->
  (o = None <-> forall b ps, In (KBase b, ps) d -> is_sigmoid b = false).
Proof.
  intros H. unfold sigmoids_to_intervals in H. destruct (sigmoidals fixed d) as [a|] eqn:E; cbn [bind] in H; [|discriminate]. pose proof (fun b => sigmoidals_keys _ _ _ b E) as Hk.
  destruct a as [|[b v] t]; [injection H as <- | destruct (simplify_sigmoidal_intervals ((b, v) :: t)); cbn [bind] in H; [injection H as <- | discriminate]].
  - split; [intros _ b ps Hin | reflexivity]. destruct (is_sigmoid b) eqn:Eb; [|reflexivity].
    destruct (proj2 (Hk b)); eauto.
  - split; [discriminate|]. intros Hn. destruct (proj1 (Hk b)) as (ps & Hin & Hsg); [now left|]. rewrite (Hn _ _ Hin) in Hsg. discriminate.
Qed.
