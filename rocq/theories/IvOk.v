(** When the reduction to intervals and the description succeed. *)
From Coq Require Import String Reals List Bool Arith ZArith Lra Lia Permutation.
From Verif Require Import Py KexModel KexSpec KexProofs KernModel SemModel IvModel IvSpec IvProofs.
Import ListNotations.
Local Open Scope list_scope.
Local Open Scope R_scope.

(** Complete interval dictionaries: with the slopes of their ends. *)
Definition swt (b : base) (v : val) : Prop :=
  match b with
  | bS => exists s ss, v = VIv (Iv (Some s) None (Some ss) None)
  | bSr => exists e es, v = VIv (Iv None (Some e) None (Some es))
  | bSI => exists s e ss es, v = VIv (Iv (Some s) (Some e) (Some ss) (Some es))
  | _ => False
  end.
Definition piece (v : val) : Prop := exists b, swt b v.
Lemma swt_wt b v : swt b v -> wt b v.
Proof.
  intros H. destruct b; cbn in H |- *; try contradiction.
  - destruct H as (s & ss & ->). repeat eexists.
  - destruct H as (e & es & ->). repeat eexists.
  - destruct H as (s & e & ss & es & ->). right. repeat eexists.
Qed.
Lemma swt_SIr b v : swt b v -> b <> bSIr.
Proof. intros H ->. exact H. Qed.
Lemma swt_identify b v : swt b v -> identify_interval_type v = Ok (b, v).
Proof.
  intros H. destruct b; cbn in H; try contradiction.
  - destruct H as (s & ss & ->). reflexivity.
  - destruct H as (e & es & ->). reflexivity.
  - destruct H as (s & e & ss & es & ->). reflexivity.
Qed.
Ltac ex := cbn; repeat eexists; reflexivity.

Lemma pair_plain_ok p q : swt (fst p) (snd p) -> swt (fst q) (snd q) -> (fst p = bSI -> fst q = bSI -> exists x, inside (snd p) x /\ inside (snd q) x) ->
  exists r, pair_plain p q = Ok r /\ (piece r \/ r = VList []).
Proof.
  destruct p as [bp vp], q as [bq vq]. cbn [fst snd]. intros Hp Hq Hx.
  destruct bp; cbn in Hp; try contradiction; destruct bq; cbn in Hq; try contradiction;
    unfold pair_plain, in_pair, from_pair; cbn [fst snd base_eqb orb bind].
  - destruct Hp as (s & ss & ->), Hq as (s' & ss' & ->). cbn. destruct (Rltb s s'); cbn; eexists; (split; [reflexivity|]); left; exists bS; ex.
  - destruct Hp as (s & ss & ->), Hq as (e & es & ->). cbn. destruct (Rltb s e); cbn; eexists; (split; [reflexivity|]); [left; exists bSI; ex | now right].
  - destruct Hp as (s & ss & ->), Hq as (s' & e' & ss' & es' & ->). cbn. unfold intersect_segment_semiline. cbn.
    destruct (Rltb s e'); [destruct (Rltb s s')|]; cbn; eexists; (split; [reflexivity|]); [left; exists bSI; ex | left; exists bSI; ex | now right].
  - destruct Hp as (e & es & ->), Hq as (s & ss & ->). cbn. destruct (Rltb s e); cbn; eexists; (split; [reflexivity|]); [left; exists bSI; ex | now right].
  - destruct Hp as (s & ss & ->), Hq as (s' & ss' & ->). cbn. destruct (Rltb s' s); cbn; eexists; (split; [reflexivity|]); left; exists bSr; ex.
  - destruct Hp as (s & ss & ->), Hq as (s' & e' & ss' & es' & ->). cbn. unfold intersect_segment_semiline. cbn.
    destruct (Rltb s' s); [destruct (Rltb e' s)|]; cbn; eexists; (split; [reflexivity|]); [left; exists bSI; ex | left; exists bSI; ex | now right].
  - destruct Hq as (s & ss & ->), Hp as (s' & e' & ss' & es' & ->). cbn. unfold intersect_segment_semiline. cbn.
    destruct (Rltb s e'); [destruct (Rltb s s')|]; cbn; eexists; (split; [reflexivity|]); [left; exists bSI; ex | left; exists bSI; ex | now right].
  - destruct Hq as (s & ss & ->), Hp as (s' & e' & ss' & es' & ->). cbn. unfold intersect_segment_semiline. cbn.
    destruct (Rltb s' s); [destruct (Rltb e' s)|]; cbn; eexists; (split; [reflexivity|]); [left; exists bSI; ex | left; exists bSI; ex | now right].
  - destruct (Hx eq_refl eq_refl) as (x & H1 & H2).
    destruct Hp as (s & e & ss & es & ->), Hq as (s' & e' & ss' & es' & ->). cbn in H1, H2.
    destruct H1 as [A1 A2], H2 as [B1 B2]. facts.
    unfold SI_overlap, S_overlap, Sr_overlap. cbn [snd]. 
    assert (G : exists r, SI_overlap [VIv (Iv (Some s) (Some e) (Some ss) (Some es)); VIv (Iv (Some s') (Some e') (Some ss') (Some es'))] = Ok r /\ swt bSI r).
    { unfold SI_overlap, S_overlap, Sr_overlap. cbn.
      destruct (Rltb s s') eqn:E1; cbn; destruct (Rltb e' e) eqn:E2; cbn;
        match goal with |- context [Rltb ?a ?b] => replace (Rltb a b) with true by (symmetry; apply Rltb_true; lra) end;
        eexists; (split; [reflexivity | ex]). }
    destruct G as (r & G1 & G2). unfold SI_overlap, S_overlap, Sr_overlap in G1. rewrite G1. cbn [rmap].
    exists r. split; [|left; exists bSI; exact G2]. destruct G2 as (? & ? & ? & ? & ->). reflexivity.
Qed.

Lemma pair_list_ok o l : swt (fst o) (snd o) -> Forall piece l ->
  (fst o = bSI -> Forall (fun v => ~ swt bSI v) l) ->
  exists r, pair_list o (VList l) = Ok r /\ (piece r \/ exists l', r = VList l' /\ Forall piece l').
Proof.
  intros Ho Hl Hsi. cbn [pair_list pair_element].
  match goal with |- context [rmap _ ?m] => assert (G : exists rs, m = Ok rs /\ Forall piece rs) end.
  { induction l as [|v t IH].
    - exists []. split; [reflexivity | constructor].
    - inversion Hl as [|? ? (b & Hb) Ht]; subst. destruct IH as (rs & E & Hrs); [exact Ht | intros Hi; specialize (Hsi Hi); now inversion Hsi|].
      destruct (pair_plain_ok o (b, v) Ho Hb) as (r & Er & Hr).
      { cbn [fst snd]. intros H1 ->. specialize (Hsi H1). inversion Hsi; subst. contradiction. }
      assert (Ev : pair_element o v = Ok r).
      { pose proof (swt_identify _ _ Hb) as Hi. destruct v as [|i|vs]; [discriminate Hi| |].
        - cbn [pair_element]. rewrite Hi. cbn [bind]. exact Er.
        - destruct b; cbn in Hb; try contradiction; decompose [ex] Hb; discriminate. }
      rewrite Ev. cbn [bind]. rewrite E. cbn [bind].
      destruct Hr as [Hr | ->]; [|exists rs; split; [reflexivity | exact Hrs]].
      exists (r :: rs). split; [|constructor; assumption].
      assert (is_empty_list r = false) as ->; [|reflexivity].
      destruct Hr as (b' & Hr). destruct b'; cbn in Hr; try contradiction; decompose [ex] Hr; subst; reflexivity. }
  destruct G as (rs & -> & Hrs). cbn [rmap]. eexists. split; [reflexivity|].
  destruct rs as [|y [|z t]]; cbn [unwrap].
  - right. exists []. split; [reflexivity | constructor].
  - left. now inversion Hrs.
  - right. eexists; split; [reflexivity | exact Hrs].
Qed.

Lemma piece_identify v : piece v -> exists b, swt b v /\ identify_interval_type v = Ok (b, v).
Proof. intros (b & Hb). exists b. split; [exact Hb | now apply swt_identify]. Qed.
Lemma piece_notNone v : piece v -> exists i, v = VIv i.
Proof. intros (b & Hb). destruct b; cbn in Hb; try contradiction; decompose [ex] Hb; subst; eauto. Qed.

(** Without SIr, when there is a common point: one interval. *)
Lemma fold_plain_ok items p x :
  Forall (fun q => swt (fst q) (snd q)) items -> swt (fst p) (snd p) -> inside (snd p) x -> Forall (fun q => inside (snd q) x) items ->
  exists q, foldM simplify_sigmoidal_intervals_step items (Some p) = Ok (Some q) /\ swt (fst q) (snd q) /\ inside (snd q) x.
Proof.
  revert p. induction items as [|q t IH]; intros p Hi Hp Hx Hxs; cbn [foldM]; [eauto|].
  inversion Hi as [|? ? Hq Ht]; subst. inversion Hxs as [|? ? Hxq Hxt]; subst.
  cbn [simplify_sigmoidal_intervals_step].
  assert (Es : simplify_sigmoidal_interval_pair p q = pair_plain p q).
  { unfold simplify_sigmoidal_interval_pair. destruct (base_eqb (fst p) (fst q)) eqn:E; [reflexivity|].
    destruct (base_eqb (fst p) bSIr) eqn:E1; [apply base_eqb_spec in E1; exfalso; exact (swt_SIr _ _ Hp E1)|].
    destruct (base_eqb (fst q) bSIr) eqn:E2; [apply base_eqb_spec in E2; exfalso; exact (swt_SIr _ _ Hq E2)|]. reflexivity. }
  rewrite Es. destruct (pair_plain_ok p q Hp Hq) as (r & Er & Hr); [eauto|].
  destruct (pair_plain_inside p q r x (swt_wt _ _ Hp) (swt_wt _ _ Hq) (swt_SIr _ _ Hp) (swt_SIr _ _ Hq) Er) as [_ Hin].
  rewrite Er. cbn [bind]. destruct Hr as [Hr | ->]; [|exfalso; apply Hin; auto].
  destruct (piece_identify _ Hr) as (b & Hb & Ei). destruct (piece_notNone _ Hr) as (i & ->). rewrite Ei. cbn [rmap bind].
  apply IH; auto. cbn [snd]. apply Hin. auto.
Qed.
(** After SIr, with semilines only. *)
Definition lacc (p : base * val) : Prop := swt (fst p) (snd p) \/ (fst p = bSIr /\ exists l, snd p = VList l /\ Forall piece l).
Lemma lacc_identify r : (piece r \/ exists l', r = VList l' /\ Forall piece l') ->
  exists b, (match r with VNone => Ok None | _ => rmap Some (identify_interval_type r) end) = Ok (Some (b, r)) /\ lacc (b, r).
Proof.
  intros [Hr | (l & -> & Hl)].
  - destruct (piece_identify _ Hr) as (b & Hb & Ei). destruct (piece_notNone _ Hr) as (i & ->). exists b. split; [exact (f_equal (rmap Some) Ei) | left; exact Hb].
  - exists bSIr. split; [reflexivity|]. right. split; [reflexivity|]. exists l. split; [reflexivity | exact Hl].
Qed.
Lemma fold_semiline_ok items p :
  Forall (fun q => swt (fst q) (snd q) /\ fst q <> bSI) items -> lacc p ->
  exists q, foldM simplify_sigmoidal_intervals_step items (Some p) = Ok (Some q) /\ lacc q.
Proof.
  revert p. induction items as [|q t IH]; intros p Hi Hp; cbn [foldM]; [eauto|].
  inversion Hi as [|? ? [Hq Nq] Ht]; subst. cbn [simplify_sigmoidal_intervals_step].
  assert (Hstep : exists r, simplify_sigmoidal_interval_pair p q = Ok r /\ (piece r \/ exists l', r = VList l' /\ Forall piece l')).
  { unfold simplify_sigmoidal_interval_pair. destruct Hp as [Hp | (Ep & l & El & Hl)].
    - assert (E1 : base_eqb (fst p) bSIr = false).
      { destruct (base_eqb (fst p) bSIr) eqn:E1; [|reflexivity]. apply base_eqb_spec in E1. exfalso. exact (swt_SIr _ _ Hp E1). }
      assert (E2 : base_eqb (fst q) bSIr = false).
      { destruct (base_eqb (fst q) bSIr) eqn:E2; [|reflexivity]. apply base_eqb_spec in E2. exfalso. exact (swt_SIr _ _ Hq E2). }
      destruct (pair_plain_ok p q Hp Hq) as (r & Er & Hr); [intros _ H; contradiction|].
      rewrite E1, E2. destruct (base_eqb (fst p) (fst q)); rewrite Er; exists r; (split; [reflexivity|]);
        (destruct Hr as [Hr | ->]; [now left | right; exists []; split; [reflexivity | constructor]]).
    - rewrite Ep, El. destruct (base_eqb bSIr (fst q)) eqn:E; [apply base_eqb_spec in E; exfalso; exact (swt_SIr _ _ Hq (eq_sym E))|].
      change (base_eqb bSIr bSIr) with true. cbn match. apply pair_list_ok; [exact Hq | exact Hl | intros H; contradiction]. }
  destruct Hstep as (r & -> & Hr). cbn [bind]. destruct (lacc_identify _ Hr) as (b & -> & Hb). cbn [bind]. apply IH; assumption.
Qed.

(** What is computed for each type. *)
Lemma slope_ok (fixed : bool) b p : sigmoid_params fixed b p -> exists s, pget (slope1 fixed p) pSlope = Ok s.
Proof.
  intros (_ & _ & Hs). unfold slope1. destruct fixed; [|apply Hs; reflexivity]. exists 1. unfold pget. clear Hs.
  assert (H : dict_get pname_eqb (dict_set pname_eqb p pSlope 1) pSlope = Some 1); [|now rewrite H].
  induction p as [|[k v] t IH]; cbn; [reflexivity|]. destruct (pname_eqb k pSlope) eqn:E; cbn; rewrite E; [reflexivity | exact IH].
Qed.
Lemma mapM_ok {A B} (f : A -> res B) (P : B -> Prop) l : (forall x, In x l -> exists y, f x = Ok y /\ P y) -> exists r, mapM f l = Ok r /\ Forall P r /\ length r = length l.
Proof.
  induction l as [|x t IH]; intros H; cbn; [eauto|].
  destruct (H x (or_introl eq_refl)) as (y & -> & Hy). destruct IH as (r & -> & Hr & Hl); [intros z Hz; apply H; now right|].
  cbn. exists (y :: r). repeat split; [constructor; assumption | cbn; now rewrite Hl].
Qed.
Lemma nonempty_len {A B} (l : list A) (r : list B) : l <> [] -> length r = length l -> r <> [].
Proof. destruct l, r; cbn; congruence. Qed.
Lemma type_overlap_ok fixed b ps : is_sigmoid b = true -> b <> bSIr -> ps <> [] -> Forall (sigmoid_params fixed b) ps ->
  (exists x, forall p, In p ps -> active b p x) -> exists v, type_overlap fixed b ps = Ok v /\ swt b v.
Proof.
  intros Hb Nb Hne Hps (x & Hx). rewrite Forall_forall in Hps.
  destruct b; try discriminate Hb; try congruence; cbn [type_overlap]; rewrite check_slope_map, mapM_map; cbv beta.
  - destruct (mapM_ok (fun p : pdict => S_interval (slope1 fixed p)) (swt bS) ps) as (r & -> & Hr & Hlen).
    { intros p Hp. destruct (slope_ok _ _ _ (Hps _ Hp)) as (sl & Hsl). destruct (Hps _ Hp) as ((l & Hl) & _).
      unfold S_interval. rewrite pget_slope by discriminate. rewrite Hl, Hsl. cbn. eexists; split; [reflexivity | ex]. }
    cbn [bind]. rewrite Forall_forall in Hr.
    destruct (best_ok (fun a b => Rltb b a) (vget i_start) r) as (v & Hv); [exact (nonempty_len _ _ Hne Hlen)| |].
    { intros v Hv. destruct (Hr _ Hv) as (s & ss & ->). cbn. eauto. }
    unfold S_overlap. exists v. split; [exact Hv|]. apply Hr. exact (proj1 (S_overlap_spec _ _ Hv)).
  - destruct (mapM_ok (fun p : pdict => Sr_interval (slope1 fixed p)) (swt bSr) ps) as (r & -> & Hr & Hlen).
    { intros p Hp. destruct (slope_ok _ _ _ (Hps _ Hp)) as (sl & Hsl). destruct (Hps _ Hp) as ((l & Hl) & _).
      unfold Sr_interval. rewrite pget_slope by discriminate. rewrite Hl, Hsl. cbn. eexists; split; [reflexivity | ex]. }
    cbn [bind]. rewrite Forall_forall in Hr.
    destruct (best_ok Rltb (vget i_end) r) as (v & Hv); [exact (nonempty_len _ _ Hne Hlen)| |].
    { intros v Hv. destruct (Hr _ Hv) as (s & ss & ->). cbn. eauto. }
    unfold Sr_overlap. exists v. split; [exact Hv|]. apply Hr. exact (proj1 (Sr_overlap_spec _ _ Hv)).
  - destruct (mapM_ok (fun p : pdict => SI_interval (slope1 fixed p)) (swt bSI) ps) as (r & Er & Hr & Hlen).
    { intros p Hp. destruct (slope_ok _ _ _ (Hps _ Hp)) as (sl & Hsl). destruct (Hps _ Hp) as ((l & Hl) & Hw & _).
      destruct Hw as (w & _ & Hw); [now left|].
      unfold SI_interval, SI_ps_left, SI_ps_right. rewrite !pget_slope by discriminate. rewrite Hl, Hsl, Hw. cbn. eexists; split; [reflexivity | ex]. }
    rewrite Er. cbn [bind].
    pose proof Hr as Hr0. rewrite Forall_forall in Hr.
    destruct (best_ok (fun a b => Rltb b a) (vget i_start) r) as (v & Hv); [exact (nonempty_len _ _ Hne Hlen)| |].
    { intros v Hv. destruct (Hr _ Hv) as (s & e & ss & es & ->). cbn. eauto. }
    destruct (best_ok Rltb (vget i_end) r) as (v' & Hv'); [exact (nonempty_len _ _ Hne Hlen)| |].
    { intros w Hw. destruct (Hr _ Hw) as (s & e & ss & es & ->). cbn. eauto. }
    assert (Hov : exists u, SI_overlap r = Ok u /\ (u = VNone \/ swt bSI u)).
    { unfold SI_overlap, S_overlap, Sr_overlap. rewrite Hv. cbn [bind]. rewrite Hv'. cbn [bind].
      destruct (Hr _ (proj1 (S_overlap_spec _ _ Hv))) as (s & e & ss & es & ->).
      destruct (Hr _ (proj1 (Sr_overlap_spec _ _ Hv'))) as (s' & e' & ss' & es' & ->). cbn.
      destruct (Rltb s e'); eexists; (split; [reflexivity|]); [right; ex | now left]. }
    destruct Hov as (u & Hu & [-> | Hu2]); [exfalso | eauto].
    assert (Hto : type_overlap fixed bSI ps = Ok VNone).
    { cbn [type_overlap]. rewrite check_slope_map, mapM_map; cbv beta; rewrite Er. exact Hu. }
    destruct (type_overlap_inside _ _ _ _ x (eq_refl : is_sigmoid bSI = true) Hto) as [_ Hin]. exact (proj2 Hin Hx).
Qed.
Lemma type_overlap_SIr fixed p : sigmoid_params fixed bSIr p -> exists v1 v2, type_overlap fixed bSIr [p] = Ok (VList [v1; v2]) /\ swt bSr v1 /\ swt bS v2.
Proof.
  intros Hp. destruct (slope_ok _ _ _ Hp) as (sl & Hsl). destruct Hp as ((l & Hl) & Hw & _). destruct Hw as (w & _ & Hw); [now right|].
  cbn [type_overlap]. rewrite check_slope_map. cbn [map mapM]. unfold SIr_hole_interval, SI_ps_left, SI_ps_right.
  rewrite !pget_slope by discriminate. rewrite Hl, Hsl, Hw. cbn. eexists; eexists; split; [reflexivity|]. split; ex.
Qed.

Lemma sigmoidals_app fixed d1 d2 : sigmoidals fixed (d1 ++ d2) = (do a <- sigmoidals fixed d1; do b <- sigmoidals fixed d2; Ok (a ++ b)).
Proof.
  induction d1 as [|[k ps] t IH]; cbn [app sigmoidals].
  - cbn. destruct (sigmoidals fixed d2); reflexivity.
  - destruct k; [destruct (is_sigmoid b)| | |]; try exact IH.
    destruct (type_overlap fixed b ps); cbn [bind]; [|reflexivity]. rewrite IH.
    destruct (sigmoidals fixed t); cbn [bind]; [|reflexivity]. destruct (sigmoidals fixed d2); reflexivity.
Qed.
Lemma sigmoidals_ok fixed d x :
  (forall b ps, In (KBase b, ps) d -> is_sigmoid b = true -> b <> bSIr /\ ps <> [] /\ Forall (sigmoid_params fixed b) ps /\ forall p, In p ps -> active b p x) ->
  exists s, sigmoidals fixed d = Ok s /\ Forall (fun q => swt (fst q) (snd q)) s /\ Forall (fun q => inside (snd q) x) s /\ (forall b, In b (map fst s) -> exists ps, In (KBase b, ps) d).
Proof.
  induction d as [|[k ps] t IH]; intros H; cbn [sigmoidals].
  - exists []. repeat split; try constructor. intros b [].
  - destruct IH as (s & E & H1 & H2 & H3); [intros b ps' Hin; apply H; now right|].
    assert (H3' : forall b, In b (map fst s) -> exists ps', In (KBase b, ps') ((k, ps) :: t)).
    { intros b Hb. destruct (H3 b Hb) as (ps' & Hin). exists ps'. now right. }
    destruct k as [b| | |]; [destruct (is_sigmoid b) eqn:Eb| | |]; try (exists s; split; [exact E | split; [exact H1 | split; [exact H2 | exact H3']]]; fail).
    destruct (H b ps (or_introl eq_refl) Eb) as (Nb & Hne & Hps & Hact).
    destruct (type_overlap_ok fixed b ps Eb Nb Hne Hps (ex_intro _ x Hact)) as (v & Ev & Hv).
    destruct (type_overlap_inside _ _ _ _ x Eb Ev) as [_ Hin].
    rewrite Ev, E. cbn [bind]. exists ((b, v) :: s). split; [reflexivity|]. split; [constructor; assumption|]. split; [constructor; [apply Hin; exact Hact | assumption]|].
    intros b' [<-|Hb]; [exists ps; now left | exact (H3' _ Hb)].
Qed.

Lemma find_SIr (d : params) : NoDup (map fst d) ->
  (forall ps, ~ In (KBase bSIr, ps) d) \/
  exists d1 ps d2, d = d1 ++ (KBase bSIr, ps) :: d2 /\ (forall ps', ~ In (KBase bSIr, ps') d1) /\ (forall ps', ~ In (KBase bSIr, ps') d2).
Proof.
  induction d as [|[k ps] t IH]; intros Hn; [left; intros ps []|].
  inversion Hn as [|? ? Hk Ht]; subst. cbn [fst] in Hk.
  assert (Hdec : k = KBase bSIr \/ k <> KBase bSIr). { destruct k as [b| | |]; [destruct b|..]; (left; congruence) || (right; congruence). }
  destruct Hdec as [-> | Hne].
  - right. exists [], ps, t. split; [reflexivity|]. split; [intros ps' []|]. intros ps' Hin. apply Hk. exact (in_map fst _ _ Hin).
  - destruct (IH Ht) as [H | (d1 & ps1 & d2 & -> & H1 & H2)].
    + left. intros ps' [E|Hin]; [congruence | exact (H _ Hin)].
    + right. exists ((k, ps) :: d1), ps1, d2. split; [reflexivity|]. split; [|exact H2]. intros ps' [E|Hin]; [congruence | exact (H1 _ Hin)].
Qed.
Lemma piece_proper v : piece v -> proper_interval v.
Proof.
  intros (b & Hb). destruct b; cbn in Hb; try contradiction; decompose [ex] Hb; subst; eexists; (split; [reflexivity|]); cbn; (split; [(left; discriminate) || (right; discriminate) | split; intros; congruence]).
Qed.

(** C36, the part that holds. *)
Theorem intervals_succeed fixed d :
  fitted_sigmoids fixed d -> at_most_one_SIr d -> common_point d -> windows_before_holes d ->
  exists o, sigmoids_to_intervals fixed d = Ok o /\ forall l, o = Some l -> Forall proper_interval l.
Proof.
  intros [Hnd Hfit] H1 (x & Hx) Hwin.
  assert (Hpart : forall d', incl d' d -> (forall ps, ~ In (KBase bSIr, ps) d') ->
     exists s, sigmoidals fixed d' = Ok s /\ Forall (fun q => swt (fst q) (snd q)) s /\ Forall (fun q => inside (snd q) x) s /\ (forall b, In b (map fst s) -> exists ps, In (KBase b, ps) d')).
  { intros d' Hincl Hno. apply sigmoidals_ok. intros b ps Hin Hsg.
    assert (Nb : b <> bSIr) by (intros ->; exact (Hno _ Hin)). apply Hincl in Hin.
    destruct (Hfit _ _ Hin Hsg) as [Hne Hps]. repeat split; auto. intros p Hp. exact (Hx _ _ _ Hin Hsg Nb Hp). }
  unfold sigmoids_to_intervals.
  destruct (find_SIr d Hnd) as [Hno | (d1 & ps & d2 & Ed & Hn1 & Hn2)].
  - destruct (Hpart d (incl_refl d) Hno) as (s & -> & Hs & Hin & _). cbn [bind].
    destruct s as [|p t]; [exists None; split; [reflexivity | intros l Hl; discriminate Hl]|].
    inversion Hs as [|? ? Hp Ht]; subst. inversion Hin as [|? ? Hxp Hxt]; subst.
    destruct (fold_plain_ok t p x Ht Hp Hxp Hxt) as (q & Eq & Hq & _). cbn [simplify_sigmoidal_intervals]. rewrite Eq. cbn [bind].
    eexists. split; [reflexivity|]. intros l Hl. injection Hl as <-.
    destruct (piece_notNone (snd q)) as (i & Ei); [exists (fst q); exact Hq|]. rewrite Ei. constructor; [|constructor]. apply piece_proper. rewrite <- Ei. exists (fst q). exact Hq.
  - assert (Hi1 : incl d1 d) by (rewrite Ed; apply incl_appl, incl_refl).
    assert (Hi2 : incl d2 d) by (rewrite Ed; apply incl_appr, incl_tl, incl_refl).
    assert (Hin : In (KBase bSIr, ps) d) by (rewrite Ed; apply in_elt).
    destruct (Hpart d1 Hi1 Hn1) as (s1 & E1 & Hs1 & Hx1 & _). destruct (Hpart d2 Hi2 Hn2) as (s2 & E2 & Hs2 & Hx2 & Hk2).
    destruct (Hfit _ _ Hin eq_refl) as [Hne Hps]. pose proof (H1 _ Hin) as Hlen.
    destruct ps as [|p [|p' ps]]; [congruence | | cbn in Hlen; lia].
    inversion Hps as [|? ? Hp _]; subst. destruct (type_overlap_SIr fixed p Hp) as (v1 & v2 & Ev & Hv1 & Hv2).
    assert (Hsig : sigmoidals fixed (d1 ++ (KBase bSIr, [p]) :: d2) = Ok (s1 ++ (bSIr, VList [v1; v2]) :: s2)).
    { rewrite sigmoidals_app, E1. cbn [bind sigmoidals is_sigmoid]. rewrite Ev, E2. reflexivity. }
    rewrite Hsig. cbn [bind].
    assert (Hpc : Forall piece [v1; v2]) by (constructor; [exists bSr; exact Hv1 | constructor; [exists bS; exact Hv2 | constructor]]).
    (* the part after the SIr entry *)
    assert (Hrest : forall q, lacc q -> exists r, foldM simplify_sigmoidal_intervals_step s2 (Some q) = Ok (Some r) /\ lacc r).
    { intros q Hq. destruct Hwin as [Hwin | Hwin].
      - apply fold_semiline_ok; [|exact Hq]. rewrite Forall_forall in Hs2 |- *. intros y Hy. split; [exact (Hs2 _ Hy)|].
        intros Ey. destruct (Hk2 bSI) as (ps' & Hps'); [rewrite <- Ey; exact (in_map fst _ _ Hy)|]. exact (Hwin _ (Hi2 _ Hps')).
      - assert (s2 = []) as ->; [|exists q; split; [reflexivity | exact Hq]].
        destruct s2 as [|[b v] t]; [reflexivity|]. exfalso.
        destruct (proj1 (sigmoidals_keys _ _ _ b E2)) as (ps' & Hps' & Hsg); [now left|].
        rewrite (Hwin _ _ _ eq_refl _ _ Hps') in Hsg. discriminate. }
    assert (Hfin : exists r, simplify_sigmoidal_intervals (s1 ++ (bSIr, VList [v1; v2]) :: s2) = Ok (snd r) /\ lacc r).
    { destruct s1 as [|q t]; cbn [app simplify_sigmoidal_intervals].
      - assert (Hl0 : lacc (bSIr, VList [v1; v2])) by (right; split; [reflexivity | exists [v1; v2]; split; [reflexivity | exact Hpc]]).
        destruct (Hrest _ Hl0) as (r & -> & Hr). exists r. split; [reflexivity | exact Hr].
      - inversion Hs1 as [|? ? Hq Ht]; subst. inversion Hx1 as [|? ? Hxq Hxt]; subst.
        destruct (fold_plain_ok t q x Ht Hq Hxq Hxt) as (q' & Eq & Hq' & _).
        assert (Happ : forall A B (f : A -> B -> res A) l1 l2 a, foldM f (l1 ++ l2) a = (do a' <- foldM f l1 a; foldM f l2 a')).
        { intros A B f l1 l2. induction l1 as [|y l1 IH]; intros a; cbn; [reflexivity|]. destruct (f a y); cbn; [apply IH | reflexivity]. }
        rewrite Happ, Eq. cbn [bind foldM simplify_sigmoidal_intervals_step].
        assert (Hpl : simplify_sigmoidal_interval_pair q' (bSIr, VList [v1; v2]) = pair_list q' (VList [v1; v2])).
        { unfold simplify_sigmoidal_interval_pair. cbn [fst snd].
          destruct (base_eqb (fst q') bSIr) eqn:E; [apply base_eqb_spec in E; exfalso; exact (swt_SIr _ _ Hq' E)|]. reflexivity. }
        rewrite Hpl. destruct (pair_list_ok q' [v1; v2] Hq' Hpc) as (r & -> & Hr).
        { intros _. constructor; [|constructor; [|constructor]].
          - destruct Hv1 as (? & ? & ->). intros (? & ? & ? & ? & Hc). discriminate.
          - destruct Hv2 as (? & ? & ->). intros (? & ? & ? & ? & Hc). discriminate. }
        cbn [bind]. destruct (lacc_identify _ Hr) as (b & -> & Hb). cbn [bind].
        destruct (Hrest _ Hb) as (r' & -> & Hr'). exists r'. split; [reflexivity | exact Hr']. }
    destruct Hfin as (r & Er & Hr).
    assert (Hmatch : forall (B : Type) (l1 : list (base * val)) y l2 (a : B) (b : B), match l1 ++ y :: l2 with [] => a | _ :: _ => b end = b) by (intros B [|? ?] y l2 a b; reflexivity).
    rewrite Hmatch, Er. cbn [bind]. eexists. split; [reflexivity|]. intros l Hl. injection Hl as <-.
    destruct Hr as [Hr | (_ & l & El & Hl)].
    + destruct (piece_notNone (snd r)) as (i & Ei); [exists (fst r); exact Hr|]. rewrite Ei. constructor; [|constructor]. apply piece_proper. rewrite <- Ei. exists (fst r). exact Hr.
    + rewrite El. eapply Forall_impl; [|exact Hl]. exact piece_proper.
Qed.
