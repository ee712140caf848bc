(** Which expressions with change windows can always be described after a fit (C34). *)
From Coq Require Import Ascii String Reals Lra List Bool Arith ZArith Lia Permutation.
From Verif Require Import Py KexModel KexSpec KexProofs KernModel SemModel IvModel IvSpec IvProofs IvText ParModel ParSpec ParMatch ParMatch2 ParCov ParInv ParInv2 ParInv3 ParComp ParSop ParSop2 ParSop3 ParProofs ParWit IvShape.
Import ListNotations.
Local Open Scope list_scope.
Notation length := Datatypes.length.

Section More.
  Context (offset fixed : bool).
  Lemma shape_in d b n : In (b, n) (shape d) -> exists ps, In (KBase b, ps) d /\ n = length ps /\ is_sigmoid b = true.
  Proof.
    unfold shape. intro I. apply in_flat_map in I as [[k ps] [I J]]. cbn [fst snd] in J. destruct k as [c| | |]; try contradiction. destruct (is_sigmoid c) eqn:E; [|contradiction].
    destruct J as [J|[]]. injection J as -> <-. exists ps. auto.
  Qed.
  Lemma shape_possible d : fitted_sigmoids fixed d -> possible_shape (shape d).
  Proof.
    intros [N F]. split.
    - clear F. induction d as [|[k ps] d IH]; [constructor|]. cbn [map fst] in N. inversion N as [|? ? N1 N2]; subst. unfold shape in *. cbn [flat_map fst snd].
      destruct k as [b| | |]; try (apply IH, N2). destruct (is_sigmoid b) eqn:E; [|apply IH, N2]. cbn [app map fst]. constructor; [|apply IH, N2].
      intro I. apply in_map_iff in I as [[c n] [Ec I]]. cbn in Ec. subst c. destruct (shape_in d b n I) as (qs & J & _). apply N1. apply (in_map fst) in J. exact J.
    - intros b n I. destruct (shape_in d b n I) as (ps & J & -> & E). split; [exact E|]. destruct (F b ps J E) as [Ne _]. destruct ps; [contradiction | cbn; lia].
  Qed.
  Lemma few_first d (m : list base) : fitted_sigmoids fixed d -> (forall b ps, In (KBase b, ps) d -> (length ps <= times b m)%nat /\ In b m) ->
    (In bSI m \/ In bSIr m -> (times bSI m <= 1)%nat /\ (times bSIr m <= 1)%nat /\ exists a b, forall x, In x m -> is_sigmoid x = true -> x = a \/ x = b) ->
    windows_first (shape d).
  Proof.
    intros F H W i b n I Hb. pose proof (shape_possible d F) as [N P]. assert (Is : In (b, n) (shape d)) by (eapply nth_error_In, I).
    destruct (shape_in d b n Is) as (ps & J & -> & E). destruct (H b ps J) as [L Im]. destruct (P _ _ Is) as [_ L0].
    destruct W as (W1 & W2 & x & y & W3); [destruct Hb as [-> | ->]; auto|]. split; [destruct Hb as [-> | ->]; lia|].
    assert (All : forall c, In c (map fst (shape d)) -> In c [x; y]).
    { intros c Ic. apply in_map_iff in Ic as [[c' k] [Ec Ic]]. cbn in Ec. subst c'. destruct (shape_in d c k Ic) as (qs & Jc & _ & Sc).
      destruct (W3 c) as [-> | ->]; [apply (H c qs Jc) | exact Sc | left; reflexivity | right; left; reflexivity]. }
    pose proof (NoDup_incl_length N All) as LL. rewrite map_length in LL. cbn in LL. assert (i < length (shape d))%nat by (apply nth_error_Some; rewrite I; discriminate). lia.
  Qed.
  Theorem few_windows_interpretation fmt e k p : fit_of offset fixed e k p -> base_term_everywhere e -> few_windows e ->
    exists s t, sum_of_prods_form offset p = Ok s /\ get_interpretation offset fixed fmt s = Ok t.
  Proof.
    intros F B W. destruct (sop_success offset fixed e k p F B) as (cts & ms & E & P & C). exists (PComm KSum [] [] cts).
    destruct (fit_facts offset fixed e k p F) as (Er & A & _ & _ & _). pose proof (fit_wf offset fixed e k p F) as Wf. rewrite <- Er in Wf. destruct (monos_factors p k A Wf) as (L & PL & FL). rewrite Er in PL.
    assert (X : forall m, In m ms -> exists m', In m' (expansion e) /\ Permutation (factors m) m').
    { intros m I0. assert (I : In m (monos p)) by (eapply Permutation_in; eassumption). clear I0.
      assert (X : exists m', In m' L /\ Permutation (factors m) m'). { clear -FL I. revert L FL. induction (monos p) as [|n l IH]; intros L FL; [destruct I|]. inversion FL as [|? n' ? L' Pn FL']; subst. destruct I as [->|I]; [exists n'; split; [left; reflexivity|exact Pn]|]. destruct (IH I L' FL') as (m' & J & Q). exists m'. split; [right; exact J|exact Q]. }
      destruct X as (m' & Im & Pm). exists m'. split; [eapply Permutation_in; eassumption | exact Pm]. }
    destruct (describe_all offset fixed fmt cts) as (t & Et); [|exists t; split; assumption].
    clear - C X W. induction C as [|m ct ms cts Hc C IH]; constructor; [|apply IH; intros m' I; apply X; right; exact I].
    destruct (X m (or_introl eq_refl)) as (m' & Im & Pm). specialize (W m' Im).
    destruct Hc as (bts & ps & -> & V & Rest). destruct (comp_facts offset fixed m (PComm KProd bts ps [])) as (bts' & ps' & Eq & HC & Hcomp & Hpar & Hsig & Hin).
    { exists bts, ps. split; [reflexivity|]. split; assumption. }
    injection Eq as <- <-. cbn [parameters_of]. destruct V as (_ & _ & B2 & _ & _).
    destruct (windows_first_ok fixed ps Hsig (shape_possible ps Hsig)) as (o & Eo & Ho); [|eapply description_ok; eassumption].
    apply (few_first ps m' Hsig); [|exact W]. intros b l I. pose proof (Hin b l I) as J. split; [|eapply Permutation_in; eassumption].
    specialize (B2 b). rewrite (pars_in _ _ ps (proj1 Hcomp) I) in B2. rewrite times_count, <- (proj1 (Permutation_count_occ base_eq_dec _ _) Pm), <- occ_factors. exact B2.
  Qed.
End More.

(** A window with a change point around it, and a term without. *)
Definition window_in_point : kex := Comm KSum [(bLIN, 1%Z)] [Change CP (inr (Change CW (inl bLIN) (inl bPER))) (inl bPER)].
Lemma window_in_point_ok : (forall fixed, exists k p, fit_of true fixed window_in_point k p) /\ base_term_everywhere window_in_point /\ few_windows window_in_point
  /\ ~ windowless window_in_point.
Proof.
  split; [|split; [apply basesb_sound; reflexivity|split]].
  - intro fixed. apply fit_exists; [reflexivity|reflexivity|eexists; reflexivity].
  - intros m H _. vm_compute in H.
    destruct H as [<- | [<- | [<- | [<- | []]]]]; (split; [vm_compute; lia|]); (split; [vm_compute; lia|]);
      [exists bS, bS | exists bSIr, bSr | exists bSI, bSr | exists bS, bS]; intros x J S; cbn in J; intuition (subst; discriminate || auto).
  - intro W. apply (W (inl bLIN) (inl bPER)). eapply node_comm; [left; reflexivity|]. apply node_left. constructor.
Qed.
