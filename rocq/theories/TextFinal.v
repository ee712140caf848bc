(** The description of a whole fitted expression (C68). *)
From Coq Require Import Ascii String Reals List Bool Arith ZArith Permutation.
From Verif Require Import Py KexModel KexSpec KernModel SemModel IvModel IvSpec IvText ParNames ParModel ParSpec ParCov ParInv ParComp ParSop ParSop2 ParSop3 ParProofs TextSpec TextProofs.
Import ListNotations.
Local Open Scope list_scope.

Lemma lines fixed offset fmt cts ts : mapM (fun ct => do t <- base_factors_interpretation fixed offset fmt (parameters_of ct); Ok (String "010"%char (String "009"%char "") ++ t)%string) cts = Ok ts ->
  exists us, ts = map line us /\ Forall2 (fun ct u => base_factors_interpretation fixed offset fmt (parameters_of ct) = Ok u) cts us.
Proof.
  revert ts. induction cts as [|ct cts IH]; intros ts E; cbn [mapM] in E; [apply ok_inj in E; subst; exists []; split; constructor|].
  apply bind_ok in E as (x & Ex & E). apply bind_ok in Ex as (u & Eu & Ex). apply ok_inj in Ex. apply bind_ok in E as (us' & Eus & E). apply ok_inj in E. destruct (IH us' Eus) as (us & -> & F).
  exists (u :: us). split; [subst; reflexivity|constructor; assumption].
Qed.

Theorem interpretation_says offset fixed fmt e k p s t : fit_of offset fixed e k p -> sum_of_prods_form offset p = Ok s -> get_interpretation offset fixed fmt s = Ok t ->
  exists cts us, sum_of_products s cts /\ Forall2 (fun ct u => describes fixed offset fmt (parameters_of ct) u) cts us /\ t = summary (number_of_terms e) us.
Proof.
  intros F E H. destruct (sop_inv offset fixed e k p s F E) as (_ & cts & ms & Es & _ & C). destruct (sum_of_products_shape offset fixed e k p s F E) as (cts' & _ & [Es' Pp] & _ & _ & N).
  assert (cts' = cts) by congruence. subst cts'. subst s. unfold get_interpretation in H. change (csum [] =? 0)%Z with true in H.
  apply bind_ok in H as (ts & Et & H). apply ok_inj in H. destruct (lines _ _ _ _ _ Et) as (us & -> & D). exists cts, us. split; [split; [reflexivity|exact Pp]|]. split.
  - clear -C D. revert us D. induction C as [|m ct ms cts Hc C IH]; intros us D; inversion D as [|? u ? us' Eu D']; subst; constructor; [|apply IH, D'].
    destruct (comp_facts offset fixed m ct Hc) as (bts & ps & -> & _ & (Nd & Hk & _) & _). cbn [parameters_of] in *. apply description_says; [exact Nd| |exact Eu]. intros q l I. apply (Hk q l I).
  - rewrite H, <- N. reflexivity.
Qed.

(** ** Slopes (C69) *)
Lemma within_left x t u : within_text x t -> within_text x (t ++ u).
Proof. intros (a & b & ->). exists a, (b ++ u)%string. rewrite !sapp_assoc. reflexivity. Qed.
Lemma within_right x t u : within_text x u -> within_text x (t ++ u).
Proof. intros (a & b & ->). exists (t ++ a)%string, b. rewrite !sapp_assoc. reflexivity. Qed.
Lemma within_self x : within_text x x.
Proof. exists ""%string, ""%string. rewrite sapp_nil_r. reflexivity. Qed.
Lemma within_concat sep x l : In x l -> within_text x (String.concat sep l).
Proof.
  induction l as [|y l IH]; intros I; [destruct I|]. destruct l as [|z l]; [destruct I as [->|[]]; apply within_self|].
  change (String.concat sep (y :: z :: l)) with (y ++ sep ++ String.concat sep (z :: l))%string. destruct I as [->|I]; [apply within_left, within_self|apply within_right, within_right, IH, I].
Qed.
Lemma within_listing x l : In x l -> within_text x (listing l).
Proof.
  intros I. destruct l as [|y [|z l]]; [destruct I|destruct I as [->|[]]; apply within_self|]. unfold listing.
  rewrite (app_removelast_last (l := y :: z :: l) ""%string) in I by discriminate. apply in_app_or in I as [I|[<-|[]]]; [apply within_left, within_concat, I|apply within_right, within_right, within_self].
Qed.
(** For the other intervals the slope is there. *)
Lemma slope_stated offset fmt d t l i : NoDup (map fst d) -> (forall k ps, In (k, ps) d -> ps <> []) -> sigmoids_to_intervals false d = Ok (Some l) ->
  base_factors_interpretation false offset fmt d = Ok t -> In (VIv i) l -> i_start i = None \/ i_end i = None ->
  exists s, (i_start i = None -> i_eslope i = Some s) /\ (i_end i = None -> i_sslope i = Some s) /\ within_text (" (with change slope " ++ fmt s ++ ")") t.
Proof.
  intros Nd Ne Eo E I H. destruct (description_says _ _ _ _ _ Nd Ne E) as (b & ps & t1 & t2 & t3 & o & t4 & q & qs & v & _ & _ & _ & _ & _ & Eo' & Ha & _ & _ & ->).
  assert (o = Some l) by congruence. subst o. destruct Ha as (ts & F & ->).
  assert (G : exists u s, In u ts /\ (i_start i = None -> i_eslope i = Some s) /\ (i_end i = None -> i_sslope i = Some s) /\ within_text (" (with change slope " ++ fmt s ++ ")") u).
  { clear -F I H. induction F as [|w u l ts P F IH]; [destruct I|]. destruct I as [->|I]; [|destruct (IH I) as (u' & s & Iu & R); exists u', s; split; [right; exact Iu|exact R]].
    destruct P as (i' & E & P). injection E as <-. destruct (i_start i) as [a|], (i_end i) as [e|]; try (destruct P; fail); try (destruct H; discriminate).
    - destruct P as (s & Es & ->). exists ("from " ++ fmt a ++ " (with change slope " ++ fmt s ++ ")")%string, s. split; [left; reflexivity|]. split; [discriminate|]. split; [intros _; exact Es|]. apply within_right, within_right, within_self.
    - destruct P as (s & Es & ->). exists ("until " ++ fmt e ++ " (with change slope " ++ fmt s ++ ")")%string, s. split; [left; reflexivity|]. split; [intros _; exact Es|]. split; [discriminate|]. apply within_right, within_right, within_self. }
  destruct G as (u & s & Iu & H1 & H2 & W). exists s. split; [exact H1|]. split; [exact H2|]. do 3 apply within_right. apply within_left. apply within_left.
  destruct ts as [|u0 ts]; [destruct Iu|]. apply within_right. destruct W as (a & c & ->). destruct (within_listing _ _ Iu) as (a' & c' & ->). exists (a' ++ a)%string, (c ++ c')%string. rewrite !sapp_assoc. reflexivity.
Qed.
