(** Lemmas about GPModel histories. *)
From Coq Require Import String List Bool ZArith Lia.
From Verif Require Import Py KexModel GpModel GpSpec.
Import ListNotations.
Local Open Scope list_scope.

Section GPModel.
  Context {W P C T Sc : Type}.
  Context (build : W -> kex -> W * res P) (optimise : W -> P -> Z -> W * (P * res unit)) (canonical : P -> kex -> res C) (describe : C -> res T).
  Notation step := (step (C := C) (Sc := Sc) build optimise canonical describe).
  Notation after := (after (C := C) (Sc := Sc) build optimise canonical describe).

  Lemma after_snoc w k h c : after w k (h ++ [c]) = step (after w k h) c.
  Proof. unfold GpModel.after. rewrite fold_left_app. reflexivity. Qed.

  Ltac fin := split; [congruence|]; split; [try (intros []; exact I); intros _; split; congruence|];
                split; [try (intros []; exact I); intros _; congruence|intros _; left; congruence].
  (** What each call does to each field. *)
  Lemma step_fields wm c : let m := snd wm in let m' := snd (step wm c) in
    kernel_expression m' = kernel_expression m
    /\ (~ is_fit c -> model m' = model m /\ restarts m' = restarts m)
    /\ (~ describing c -> sum_of_prods_cache m' = sum_of_prods_cache m)
    /\ (describing c -> sum_of_prods_cache m' = sum_of_prods_cache m
                        \/ sum_of_prods_cache m = None
                           /\ exists p x, model m = Some p /\ canonical p (kernel_expression m) = Ok x /\ sum_of_prods_cache m' = Some x).
  Proof.
    destruct wm as [w m], c; simpl.
    - unfold fit. destruct r as [n|]; simpl.
      + destruct (build w (kernel_expression m)) as [w1 [p|e]]; simpl; [destruct (optimise w1 p n) as [w2 [p' r']]|]; simpl; fin.
      + destruct (restarts m) as [n|]; simpl; [|fin].
        destruct (build w (kernel_expression m)) as [w1 [p|e]]; simpl; [destruct (optimise w1 p n) as [w2 [p' r']]|]; simpl; fin.
    - unfold sum_of_prods_kex. destruct (model m) as [p|] eqn:E1; simpl; [|fin]. destruct (sum_of_prods_cache m) as [x|] eqn:E2; simpl; [fin|].
      destruct (canonical p (kernel_expression m)) eqn:E3; simpl; [|fin]. split; [reflexivity|]. split; [intros _; split; congruence|]. split; [intros []; exact I|]. right. eauto 10.
    - unfold interpret, sum_of_prods_kex. destruct (model m) as [p|] eqn:E1; simpl; [|fin]. destruct (sum_of_prods_cache m) as [x|] eqn:E2; simpl; [fin|].
      destruct (canonical p (kernel_expression m)) eqn:E3; simpl; [|fin]. split; [reflexivity|]. split; [intros _; split; congruence|]. split; [intros []; exact I|]. right. eauto 10.
    - unfold compute_utility. destruct (model m) as [p|] eqn:E1; simpl; [|fin]. destruct (score p); simpl; fin.
    - fin.
  Qed.

  Lemma describing_dec (c : call P Sc) : {describing c} + {~ describing c}.
  Proof. destruct c; simpl; auto. Qed.

  Lemma after_kex w k h : kernel_expression (snd (after w k h)) = k.
  Proof.
    induction h as [|c h IH] using rev_ind; [reflexivity|]. rewrite after_snoc. destruct (step_fields (after w k h) c) as (H & _). rewrite H. exact IH.
  Qed.

  (** The cache holds the canonical form at the time of an earlier describing call. *)
  Lemma after_cache w k h x : sum_of_prods_cache (snd (after w k h)) = Some x ->
    exists h1 c h2 p, h = h1 ++ c :: h2 /\ describing c /\ model (snd (after w k h1)) = Some p /\ canonical p k = Ok x.
  Proof.
    induction h as [|c h IH] using rev_ind; [discriminate|]. rewrite after_snoc. intros H.
    destruct (step_fields (after w k h) c) as (_ & _ & H2 & H3). rewrite after_kex in H3.
    assert (HH : sum_of_prods_cache (snd (after w k h)) = Some x -> exists h1 c0 h2 p, h ++ [c] = h1 ++ c0 :: h2 /\ describing c0 /\ model (snd (after w k h1)) = Some p /\ canonical p k = Ok x).
    { intros HH. destruct (IH HH) as (h1 & c0 & h2 & p & -> & Hd & Hm & Hc). exists h1, c0, (h2 ++ [c]), p. rewrite <- app_assoc. auto. }
    destruct (describing_dec c) as [Hc|Hc].
    - destruct (H3 Hc) as [He|(_ & p & y & Hp & Hy & He)].
      + apply HH. congruence.
      + exists h, c, [], p. split; [reflexivity|]. split; [exact Hc|]. split; [exact Hp|]. congruence.
    - apply HH. rewrite <- (H2 Hc). exact H.
  Qed.

  Lemma after_no_cache w k h : (forall c, In c h -> ~ describing c) -> sum_of_prods_cache (snd (after w k h)) = None.
  Proof.
    intros H. destruct (sum_of_prods_cache (snd (after w k h))) as [x|] eqn:E; [|reflexivity].
    destruct (after_cache w k h x E) as (h1 & c & h2 & p & -> & Hd & _). exfalso. apply (H c); [apply in_or_app; right; left; reflexivity|exact Hd].
  Qed.

  Lemma after_no_model w k h : (forall c, In c h -> ~ is_fit c) -> model (snd (after w k h)) = None.
  Proof.
    induction h as [|c h IH] using rev_ind; intros H; [reflexivity|]. rewrite after_snoc.
    destruct (step_fields (after w k h) c) as (_ & H1 & _). destruct H1 as [H1 _]; [apply H, in_or_app; right; left; reflexivity|].
    rewrite H1. apply IH. intros c' Hc. apply H, in_or_app. left. exact Hc.
  Qed.

  (** The first describing call describes the current model. *)
  Lemma first_interpret w k h m : (forall c, In c h -> ~ describing c) -> snd (after w k h) = m ->
    snd (interpret canonical describe m) = description canonical describe k (model m).
  Proof.
    intros H <-. unfold interpret, sum_of_prods_kex, description. rewrite (after_no_cache w k h H), after_kex.
    destruct (model (snd (after w k h))) as [p|]; [|reflexivity]. unfold bind. destruct (canonical p k); reflexivity.
  Qed.

  Lemma unfitted_interpret w k h m : (forall c, In c h -> ~ is_fit c) -> snd (after w k h) = m ->
    snd (interpret canonical describe m) = Raise EValueError.
  Proof. intros H <-. unfold interpret, sum_of_prods_kex. rewrite (after_no_model w k h H). reflexivity. Qed.

  (** Every later one describes the model at the time of the first successful describing call. *)
  Lemma any_interpret w k h m t : snd (after w k h) = m -> snd (interpret canonical describe m) = Ok t ->
    exists h1 h2 p, h ++ [CInterpret] = h1 ++ h2 /\ (exists c t', h2 = c :: t' /\ describing c)
                    /\ model (snd (after w k h1)) = Some p /\ description canonical describe k (Some p) = Ok t.
  Proof.
    intros <-. unfold interpret, sum_of_prods_kex. rewrite after_kex. destruct (model (snd (after w k h))) as [p|] eqn:E1; [|discriminate].
    destruct (sum_of_prods_cache (snd (after w k h))) as [x|] eqn:E2; intros H.
    - destruct (after_cache w k h x E2) as (h1 & c & h2 & p1 & -> & Hd & Hm & Hx). exists h1, (c :: h2 ++ [CInterpret]), p1.
      split; [rewrite <- app_assoc; reflexivity|]. split; [eauto|]. split; [exact Hm|]. simpl. rewrite Hx. exact H.
    - exists h, [CInterpret], p. split; [reflexivity|]. split; [exists CInterpret, []; split; [reflexivity|exact I]|]. split; [exact E1|].
      destruct (canonical p k) as [x|] eqn:E3; simpl in H; [|discriminate]. simpl. rewrite E3. exact H.
  Qed.

  (** fit without an argument uses the last restarts value given. *)
  Lemma after_restarts w k h : restarts (snd (after w k h)) = last_restarts h.
  Proof.
    induction h as [|c h IH] using rev_ind; [reflexivity|]. rewrite after_snoc. unfold last_restarts. rewrite fold_left_app. fold (last_restarts h). rewrite <- IH.
    destruct (after w k h) as [w0 m0]. clear. simpl.
    destruct c as [[n|]| | |sc nm|]; simpl; try reflexivity.
    - unfold fit. destruct (build w0 (kernel_expression (with_restarts m0 (Some n)))) as [w1 [p|e]]; simpl; [destruct (optimise w1 p n) as [w2 [p' r']]|]; reflexivity.
    - unfold fit. destruct (restarts m0) as [n|] eqn:E; simpl; [|exact E]. destruct (build w0 (kernel_expression m0)) as [w1 [p|e]]; simpl; [destruct (optimise w1 p n) as [w2 [p' r']]|]; exact E.
    - destruct (step_fields (w0, m0) CSumOfProds) as (_ & H & _). apply H. intros [].
    - destruct (step_fields (w0, m0) CInterpret) as (_ & H & _). apply H. intros [].
    - destruct (step_fields (w0, m0) (CUtility sc nm)) as (_ & H & _). apply H. intros [].
  Qed.

  Lemma fit_last_restarts w k h w' m r : after w k h = (w', m) ->
    snd (fit build optimise w' m r)
    = match r, last_restarts h with
      | None, None => Raise EValueError
      | Some n, _ | None, Some n =>
          match build w' k with (w1, Raise e) => Raise e | (w1, Ok p) => snd (snd (optimise w1 p n)) end
      end.
  Proof.
    intros E. pose proof (after_restarts w k h) as Hr. pose proof (after_kex w k h) as Hk. rewrite E in Hr, Hk. simpl in Hr, Hk. unfold fit.
    destruct r as [n|]; simpl; [rewrite Hk|rewrite Hr; destruct (last_restarts h) as [n|]; simpl; [rewrite Hk|reflexivity]];
      (destruct (build w' k) as [w1 [p|e]]; [|reflexivity]); destruct (optimise w1 p n) as [w2 [p' r']]; reflexivity.
  Qed.

  (** Without describing calls, interpret describes what the optimisation of the latest fit made. *)
  Lemma latest_interpret w k h1 r h2 w1 n w2 p w3 p' o m : (forall c, In c (h1 ++ CFit r :: h2) -> ~ describing c) -> (forall c, In c h2 -> ~ is_fit c) ->
    fst (after w k h1) = w1 -> used_restarts r h1 = Some n -> build w1 k = (w2, Ok p) -> optimise w2 p n = (w3, (p', o)) ->
    snd (after w k (h1 ++ CFit r :: h2)) = m -> snd (interpret canonical describe m) = description canonical describe k (Some p').
  Proof.
    intros Hd Hf Ew Hn Eb Eo Em. rewrite (first_interpret w k _ m Hd Em). f_equal. rewrite <- Em. clear Em Hd.
    induction h2 as [|c h2 IH] using rev_ind.
    - rewrite after_snoc. pose proof (after_restarts w k h1) as Hr. pose proof (after_kex w k h1) as Hk. destruct (after w k h1) as [w0 m0]. cbn [fst snd] in *. subst w0.
      cbn [GpModel.step]. unfold fit. unfold used_restarts in Hn. destruct r as [n0|].
      + injection Hn as ->. cbn [kernel_expression with_restarts]. rewrite Hk, Eb, Eo. reflexivity.
      + rewrite Hr, Hn. cbn [option_map]. rewrite Hk, Eb, Eo. reflexivity.
    - rewrite app_comm_cons, app_assoc, after_snoc. destruct (step_fields (after w k (h1 ++ CFit r :: h2)) c) as (_ & H1 & _).
      destruct H1 as [H1 _]; [apply Hf, in_or_app; right; left; reflexivity|]. rewrite H1. apply IH. intros c' Hc. apply Hf, in_or_app. left. exact Hc.
  Qed.

  (** A fit that fails before the optimisation leaves the model. *)
  Lemma fit_build_fails w (m : gpmodel P C Sc) r w1 e : build w (kernel_expression m) = (w1, Raise e) ->
    model (snd (fst (fit build optimise w m r))) = model m.
  Proof.
    intros H. unfold fit. destruct r as [n|]; simpl; [|destruct (restarts m) as [n|]; simpl; [|reflexivity]]; rewrite H; reflexivity.
  Qed.
End GPModel.

(** A regression object whose parameter is a counter of fits. *)
Definition count_build (w : nat) (k : kex) : nat * res nat := (S w, Ok w).
Definition count_optimise (w : nat) (p : nat) (n : Z) : nat * (nat * res unit) := (w, (p, Ok tt)).
Definition count_canonical (p : nat) (k : kex) : res nat := Ok p.
Definition count_describe (c : nat) : res nat := Ok c.
Definition count_after (h : list (call nat nat)) : nat * gpmodel nat nat nat := after count_build count_optimise count_canonical count_describe 0 (Comm KSum [(bWN, 1%Z)] []) h.

(** Optimisation fails in the second fit. *)
Definition failing_optimise (w : nat) (p : nat) (n : Z) : nat * (nat * res unit) := (w, (p, if Nat.eqb w 2 then Raise EValueError else Ok tt)).
