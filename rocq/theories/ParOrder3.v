(** Exactly which expressions can always be described after a fit (C34), concluded: values of the parameters for which a description fails. *)
From Coq Require Import Ascii String Reals Lra List Bool Arith ZArith Lia Permutation.
From Verif Require Import Py KexModel KexSpec KexProofs KernModel SemModel IvModel IvSpec IvProofs IvText ParModel ParSpec ParMatch ParMatch2 ParCov ParInv ParInv2 ParInv3 ParGroup ParComp ParSop ParSop2 ParSop3 ParProofs ParWit IvShape IvExact ParMore ParOrder ParOrder2.
Import ListNotations.
Local Open Scope list_scope.
Notation length := Datatypes.length.

(** ** The parameters of a change only *)
Definition narrow (fixed : bool) (b : base) (q : pdict) : pdict := map (fun n => (n, value q n 0%R)) (change_params fixed (match b with bSI | bSIr => CW | _ => CP end)).
Definition narrowed (fixed : bool) (d : params) : params := map (fun e => (fst e, match fst e with KBase b => map (narrow fixed b) (snd e) | _ => snd e end)) d.
Lemma narrow_values fixed b l w : (0 < w)%R -> sigmoid_values fixed b (narrow fixed b (IvShape.full l w)).
Proof.
  intros W. unfold sigmoid_values, change_values, narrow. split; [rewrite map_map; cbn [fst]; apply map_id|].
  intros n v I N. apply in_map_iff in I as (n' & E & I). injection E as -> <-. destruct b, fixed; cbn in I; unfold value; cbn; destruct n; intuition (try discriminate; try lra; try congruence).
Qed.
Lemma slopes_map (f : pdict -> res val) fixed ps : mapM f (check_slope fixed ps) = mapM (fun p => f (slope1 fixed p)) ps.
Proof.
  unfold check_slope, slope1. destruct fixed; [|reflexivity]. induction ps as [|p ps IH]; [reflexivity|]. cbn [map mapM]. now rewrite IH.
Qed.
Lemma narrow_mapM (f : pdict -> res val) fixed b ps : (forall l w, f (slope1 fixed (narrow fixed b (IvShape.full l w))) = f (slope1 fixed (IvShape.full l w))) ->
  Forall (fun q => exists l w, (0 < w)%R /\ q = IvShape.full l w) ps -> mapM f (check_slope fixed (map (narrow fixed b) ps)) = mapM f (check_slope fixed ps).
Proof.
  intros H F. rewrite !slopes_map. induction F as [|q ps (l & w & _ & ->) F IH]; [reflexivity|]. cbn [map mapM]. now rewrite H, IH.
Qed.
Lemma narrow_overlap fixed b ps : is_sigmoid b = true -> Forall (fun q => exists l w, (0 < w)%R /\ q = IvShape.full l w) ps ->
  type_overlap fixed b (map (narrow fixed b) ps) = type_overlap fixed b ps.
Proof. intros S F. destruct b; try discriminate S; unfold type_overlap; (rewrite narrow_mapM; [reflexivity| |exact F]); intros l w; destruct fixed; reflexivity. Qed.
Lemma narrowed_sigmoidals fixed d : plain d -> sigmoidals fixed (narrowed fixed d) = sigmoidals fixed d.
Proof.
  induction d as [|[k ps] d IH]; intros P; [reflexivity|]. assert (P' : plain d) by (intros k' ps' I; apply (P k' ps'); right; exact I).
  destruct (P k ps (or_introl eq_refl)) as [(b & -> & S) F]. unfold narrowed in *. cbn [map fst snd sigmoidals]. rewrite S, (narrow_overlap fixed b ps S F), (IH P'). reflexivity.
Qed.
Lemma counted_possible l : Forall (fun b => is_sigmoid b = true) l -> possible_shape (counted l).
Proof.
  intros F. rewrite Forall_forall in F. split.
  - unfold counted. rewrite map_map. cbn [fst]. rewrite map_id. apply firsts_nodup.
  - intros b n I. unfold counted in I. apply in_map_iff in I as (c & E & I). injection E as -> <-. apply (proj1 (firsts_in l b)) in I. split; [apply F, I|]. unfold times.
    assert (J : In b (filter (base_eqb b) l)) by (apply filter_In; split; [exact I|apply base_eqb_refl]). destruct (filter (base_eqb b) l); [destruct J|cbn; lia].
Qed.
Lemma skeys_sigmoid l : Forall (fun b => is_sigmoid b = true) (skeys l).
Proof. apply Forall_forall. intros b I. apply filter_In in I. apply I. Qed.
Lemma mapM_each {A B} (f : A -> res B) l ys : mapM f l = Ok ys -> forall x, In x l -> exists y, f x = Ok y.
Proof.
  revert ys. induction l as [|a l IH]; intros ys E x I; [destruct I|]. cbn [mapM] in E. destruct (f a) as [y|] eqn:Ea; [|discriminate E]. cbn [bind] in E. destruct (mapM f l) as [zs|]; [|discriminate E].
  destruct I as [<-|I]; [exists y; exact Ea|]. exact (IH zs eq_refl x I).
Qed.

Section Exact.
  Context (offset fixed : bool).
  Lemma described_each fmt cts t : get_interpretation offset fixed fmt (PComm KSum [] [] cts) = Ok t -> forall ct, In ct cts -> exists t', base_factors_interpretation fixed offset fmt (parameters_of ct) = Ok t'.
  Proof.
    unfold get_interpretation. change (csum [] =? 0)%Z with true. cbv iota. intros E ct I. destruct (mapM _ cts) as [ts|] eqn:M; [|discriminate E]. destruct (mapM_each _ _ _ M ct I) as (y & Ey).
    destruct (base_factors_interpretation fixed offset fmt (parameters_of ct)) as [t'|]; [exists t'; reflexivity|discriminate Ey].
  Qed.
  (** A term with a late window: some fitted values for which the description raises. *)
  Theorem late_window_fit e k p m : fit_of offset fixed e k p -> base_term_everywhere e -> In m (expansion e) -> windows_first (counted (filter is_sigmoid m)) \/
    exists k' p' s, fit_of offset fixed e k' p' /\ sum_of_prods_form offset p' = Ok s /\ forall fmt t, get_interpretation offset fixed fmt s <> Ok t.
  Proof.
    intros F B I. change (filter is_sigmoid m) with (skeys m). destruct (late_window_plain fixed (counted (skeys m)) (counted_possible _ (skeys_sigmoid m))) as [D|(d & Fd & Sd & Pd & Gd)]; [left; exact D|]. right.
    assert (Kd : forall k ps, In (k, ps) d -> sigmoid_key k = true) by (intros k0 ps I0; destruct (Pd k0 ps I0) as [(b & -> & S) _]; exact S).
    assert (L : lengths (narrowed fixed d) = as_keys (counted (skeys m))).
    { rewrite <- (proj2 (lengths_shape d _ Kd) Sd). unfold lengths, narrowed. rewrite map_map. apply map_ext. intros [k0 ps]. cbn [fst snd]. destruct k0; rewrite ?map_length; reflexivity. }
    destruct (ungroup (skeys m) (skeys_sigmoid m) (narrowed fixed d) L) as (s & Es & Gs & Hs).
    assert (Os : of_sigmoids fixed s).
    { intros b q J. destruct (Hs _ _ J) as (ps & J1 & J2). unfold narrowed in J1. apply in_map_iff in J1 as ([k0 ps0] & E & J1). cbn [fst snd] in E. injection E as -> <-. apply in_map_iff in J2 as (q0 & <- & J2).
      destruct (Pd _ _ J1) as [_ Fq]. rewrite Forall_forall in Fq. destruct (Fq q0 J2) as (l & w & W & ->). apply narrow_values, W. }
    destruct (fit_facts offset fixed e k p F) as (Er & A & V & _ & _). pose proof (fit_wf offset fixed e k p F) as Wf. rewrite <- Er in Wf, I.
    destruct (realise offset fixed p k A V Wf m I s Es Os) as (K' & SK & HK). destruct F as (g & N & NE & Eg & Fg & _). pose proof (skel_fitted offset fixed g k Fg K' SK) as Fg'.
    destruct (matched_root offset fixed e g K' N NE Eg Fg') as (p' & Ep' & Er' & A'). destruct (HK p' (eq_trans Er' (eq_sym Er)) A') as (m2 & I2 & S2).
    assert (F' : fit_of offset fixed e K' p') by (exists g; repeat split; assumption).
    destruct (sop_success offset fixed e K' p' F' B) as (cts & ms & E & P & C). exists K', p', (PComm KSum [] [] cts). split; [exact F'|]. split; [exact E|]. intros fmt t T.
    assert (X : exists ct, In ct cts /\ comp offset fixed m2 ct).
    { assert (J : In m2 ms) by (eapply Permutation_in; [symmetry; exact P|exact I2]). clear -C J. induction C as [|m ct ms cts Hc C IH]; [destruct J|]. destruct J as [->|J]; [exists ct; split; [left; reflexivity|exact Hc]|]. destruct (IH J) as (ct' & I' & H'). exists ct'. split; [right; exact I'|exact H']. }
    destruct X as (ct & Ic & Hc). destruct (described_each fmt cts t T ct Ic) as (t' & T'). destruct (comp_facts offset fixed m2 ct Hc) as (bts' & ps' & -> & _ & Hcomp & _). cbn [parameters_of] in T'.
    destruct Hc as (bts & ps & Eq & Vc & _). injection Eq as <- <-. destruct Vc as (_ & _ & _ & _ & _ & SG & _).
    revert T'. apply failing_text; [apply Hcomp|intros k0 l0 I0; apply (proj1 (proj2 Hcomp) k0 l0 I0)|].
    unfold sigmoids_to_intervals. rewrite <- sg_sigmoidals, SG, <- group_sigs, S2, Gs, (narrowed_sigmoidals fixed d Pd). exact Gd.
  Qed.
  Theorem interpretation_exact e : (exists k p, fit_of offset fixed e k p) ->
    (forall fmt k p, fit_of offset fixed e k p -> exists s t, sum_of_prods_form offset p = Ok s /\ get_interpretation offset fixed fmt s = Ok t)
    <-> base_term_everywhere e /\ windows_come_first e.
  Proof.
    intros (k & p & F). split.
    - intros H. assert (B : base_term_everywhere e).
      { destruct (fit_facts offset fixed e k p F) as (_ & _ & _ & V & Fu). apply Fu. destruct (ParSop.full p) eqn:E; [reflexivity|]. exfalso.
        destruct (H (fun _ => EmptyString) k p F) as (s & t & Es & _). rewrite (proj2 (sop_all offset fixed p V) E) in Es. discriminate Es. }
      split; [exact B|]. intros m I. destruct (late_window_fit e k p m F B I) as [W|(k' & p' & s & F' & E & X)]; [exact W|]. exfalso.
      destruct (H (fun _ => EmptyString) k' p' F') as (s' & t & Es & Et). rewrite E in Es. injection Es as <-. exact (X _ t Et).
    - intros [B W] fmt k' p' F'. exact (first_windows_interpretation offset fixed fmt e k' p' F' B W).
  Qed.
End Exact.

(** A window inside two change points, and one around them. *)
Definition window_inside : kex := Comm KSum [(bLIN, 1%Z)] [Change CP (inr (Change CP (inr (Change CW (inl bLIN) (inl bPER))) (inl bPER))) (inl bLIN)].
Definition window_around : kex := Comm KSum [(bLIN, 1%Z)] [Change CW (inr (Change CP (inr (Change CP (inl bLIN) (inl bPER))) (inl bPER))) (inl bLIN)].
Lemma windows_example : (forall fixed, (exists k p, fit_of true fixed window_inside k p) /\ (exists k p, fit_of true fixed window_around k p))
  /\ base_term_everywhere window_inside /\ windows_come_first window_inside /\ base_term_everywhere window_around /\ ~ windows_come_first window_around.
Proof.
  split; [intro fixed; split; (apply fit_exists; [reflexivity|reflexivity|eexists; reflexivity])|]. split; [apply basesb_sound; reflexivity|]. split; [|split; [apply basesb_sound; reflexivity|unfold not]].
  - intros m H. vm_compute in H. intros i b n E Hb. destruct H as [<- | [<- | [<- | [<- | [<- | []]]]]]; vm_compute in E; destruct i as [|[|[|i]]]; try discriminate E;
      try (destruct i; discriminate E); injection E as E1 E2; subst b n; (destruct Hb as [Hb|Hb]; [first [discriminate Hb | split; [reflexivity|lia]] | first [discriminate Hb | split; [reflexivity|lia]]]).
  - intro W. unfold windows_come_first in W. specialize (W [bPER; bS; bSr; bSIr]). assert (I : In [bPER; bS; bSr; bSIr] (expansion window_around)) by (vm_compute; tauto).
    destruct (W I 2%nat bSIr 1%nat eq_refl (or_intror eq_refl)). lia.
Qed.
