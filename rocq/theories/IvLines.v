(** Descriptions of components without change windows always succeed (C34, C36). *)
From Coq Require Import String Reals List Bool Arith ZArith Lra Lia Permutation.
From Verif Require Import Py KexModel KexSpec KexProofs KernModel SemModel IvModel IvSpec IvProofs IvOk.
Import ListNotations.
Local Open Scope list_scope.
Local Open Scope R_scope.

Lemma semiline_point fixed b ps : b = bS \/ b = bSr -> Forall (sigmoid_params fixed b) ps -> exists x, forall p, In p ps -> active b p x.
Proof.
  intros Hb F. induction F as [|p ps ((l & Hl) & _) F (x & IH)]; [exists 0; intros p []|].
  destruct Hb as [-> | ->].
  - exists (Rmax x (l + 1)). intros q [<-|I].
    + exists l. split; [exact Hl|]. pose proof (Rmax_r x (l + 1)). lra.
    + destruct (IH q I) as (l' & E & H). exists l'. split; [exact E|]. pose proof (Rmax_l x (l + 1)). lra.
  - exists (Rmin x (l - 1)). intros q [<-|I].
    + exists l. split; [exact Hl|]. pose proof (Rmin_r x (l - 1)). lra.
    + destruct (IH q I) as (l' & E & H). exists l'. split; [exact E|]. pose proof (Rmin_l x (l - 1)). lra.
Qed.
Lemma sigmoidals_semilines fixed d : no_windows d -> (forall b ps, In (KBase b, ps) d -> is_sigmoid b = true -> ps <> [] /\ Forall (sigmoid_params fixed b) ps) ->
  exists s, sigmoidals fixed d = Ok s /\ Forall (fun q => swt (fst q) (snd q) /\ fst q <> bSI) s.
Proof.
  induction d as [|[k ps] t IH]; intros N H; cbn [sigmoidals]; [exists []; split; [reflexivity|constructor]|].
  destruct IH as (s & E & Hs); [intros b ps' I; apply (N b ps'); right; exact I|intros b ps' I; apply H; right; exact I|].
  destruct k as [b| | |]; [destruct (is_sigmoid b) eqn:Eb| | |]; try (exists s; split; assumption).
  destruct (N b ps (or_introl eq_refl)) as [N1 N2]. destruct (H b ps (or_introl eq_refl) Eb) as [Hne Hps].
  assert (Hb : b = bS \/ b = bSr) by (destruct b; try discriminate Eb; auto; contradiction).
  destruct (type_overlap_ok fixed b ps Eb N2 Hne Hps (semiline_point fixed b ps Hb Hps)) as (v & Ev & Hv). rewrite Ev, E. cbn [bind]. exists ((b, v) :: s). split; [reflexivity|]. constructor; [split; assumption|exact Hs].
Qed.
Theorem intervals_no_windows fixed d : fitted_sigmoids fixed d -> no_windows d ->
  exists o, sigmoids_to_intervals fixed d = Ok o /\ forall l, o = Some l -> Forall proper_interval l.
Proof.
  intros [_ H] N. destruct (sigmoidals_semilines fixed d N H) as (s & E & Hs). unfold sigmoids_to_intervals. rewrite E. cbn [bind].
  destruct s as [|p t]; [exists None; split; [reflexivity|intros l D; discriminate D]|]. inversion Hs as [|? ? [Hp _] Ht]; subst.
  destruct (fold_semiline_ok t p Ht (or_introl Hp)) as (q & Eq & Hq). cbn [simplify_sigmoidal_intervals]. rewrite Eq. cbn [bind]. eexists. split; [reflexivity|]. intros l [= <-].
  destruct Hq as [Hq|(_ & l & El & Hl)].
  - destruct (piece_notNone (snd q)) as (i & Ei); [exists (fst q); exact Hq|]. rewrite Ei. constructor; [|constructor]. apply piece_proper. rewrite <- Ei. exists (fst q). exact Hq.
  - rewrite El. apply Forall_forall. intros v I. rewrite Forall_forall in Hl. apply piece_proper, Hl, I.
Qed.
