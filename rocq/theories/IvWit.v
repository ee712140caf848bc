(** Witnesses for the interval reduction and the description. *)
From Coq Require Import String Reals List Bool Arith ZArith Lra Lia.
From Verif Require Import Py KexModel KexSpec KexProofs KernModel SemModel IvModel IvSpec IvProofs IvOk IvText.
Import ListNotations.
Local Open Scope list_scope.
Local Open Scope R_scope.

Definition sigmoid_at (l : R) : pdict := [(pLocation, l)].
Definition window_at (l w : R) : pdict := [(pLocation, l); (pWidth, w)].

Lemma Rltb_t a b : a < b -> Rltb a b = true. Proof. apply Rltb_true. Qed.
Lemma Rltb_f a b : b <= a -> Rltb a b = false. Proof. apply Rltb_false. Qed.
(** Evaluate comparisons of concrete numbers. *)
Ltac rl :=
  repeat (cbv -[Rltb Rplus IZR]; match goal with
  | |- context [Rltb ?a ?b] => first [rewrite (Rltb_t a b) by lra | rewrite (Rltb_f a b) by lra]
  end); cbv -[Rltb Rplus IZR].
Lemma sigmoid_at_ok l b : b <> bSI -> b <> bSIr -> sigmoid_params true b (sigmoid_at l).
Proof. intros H1 H2. split; [exists l; reflexivity|]. split; [intros [H|H]; congruence | discriminate]. Qed.
Lemma window_at_ok l w b : 0 < w -> sigmoid_params true b (window_at l w).
Proof. intros H. split; [exists l; reflexivity|]. split; [intros _; exists w; split; [exact H | reflexivity] | discriminate]. Qed.
Ltac fit :=
  split; [repeat (constructor; [cbn; intuition discriminate|]); constructor|];
  intros b ps Hin Hsg; cbn in Hin; decompose [or] Hin; try contradiction;
  match goal with H : (_, _) = (_, _) |- _ => injection H as <- <- end;
  (split; [discriminate|]); repeat constructor;
  try (apply window_at_ok; lra); try (apply sigmoid_at_ok; discriminate).

(** Two windows to be avoided, the later one first: KeyError 'slope'. *)
Definition two_holes : params := [(KBase bSIr, [window_at 5 1; window_at 0 1])].
Lemma two_holes_fitted : fitted_sigmoids true two_holes.
Proof.
  split; [repeat (constructor; [cbn; intuition discriminate|]); constructor|].
  intros b ps [E|[]] _. injection E as <- <-. split; [discriminate|]. constructor; [apply window_at_ok; lra | constructor; [apply window_at_ok; lra | constructor]].
Qed.
Lemma two_holes_fail : sigmoids_to_intervals true two_holes = Raise EKeyError.
Proof. unfold sigmoids_to_intervals, two_holes. rl. reflexivity. Qed.

(** Two disjoint windows and a sigmoid: TypeError. *)
Definition disjoint_windows : params := [(KBase bSI, [window_at 0 1; window_at 5 1]); (KBase bS, [sigmoid_at 2])].
Lemma disjoint_fitted : fitted_sigmoids true disjoint_windows.
Proof.
  split; [repeat (constructor; [cbn; intuition discriminate|]); constructor|].
  intros b ps [E|[E|[]]] _; injection E as <- <-; (split; [discriminate|]); repeat apply Forall_cons; try apply Forall_nil;
    try (apply window_at_ok; lra); apply sigmoid_at_ok; discriminate.
Qed.
Lemma disjoint_fail : sigmoids_to_intervals true disjoint_windows = Raise ETypeError.
Proof. unfold sigmoids_to_intervals, disjoint_windows. rl. reflexivity. Qed.

(** A component that is active between 3 and 5 has None among its intervals. *)
Definition with_none : params := [(KBase bSIr, [window_at 0 1]); (KBase bS, [sigmoid_at (-5)]); (KBase bSI, [window_at 3 2])].
Lemma with_none_fitted : fitted_sigmoids true with_none.
Proof.
  split; [repeat (constructor; [cbn; intuition discriminate|]); constructor|].
  intros b ps [E|[E|[E|[]]]] _; injection E as <- <-; (split; [discriminate|]); repeat apply Forall_cons; try apply Forall_nil;
    try (apply window_at_ok; lra); apply sigmoid_at_ok; discriminate.
Qed.
Lemma with_none_active : all_active with_none 4.
Proof.
  intros b ps p [E|[E|[E|[]]]] _ Hp; injection E as <- <-; destruct Hp as [<-|[]].
  - exists 0. split; [reflexivity|]. exists 1. split; [reflexivity | right; lra].
  - exists (-5). split; [reflexivity | lra].
  - exists 3. split; [reflexivity|]. exists 2. split; [reflexivity | lra].
Qed.
Lemma with_none_result : exists l, sigmoids_to_intervals true with_none = Ok (Some l) /\ In VNone l.
Proof. eexists. split; [unfold sigmoids_to_intervals, with_none; rl; reflexivity | now left]. Qed.
Lemma with_none_text offset fmt : exists d, (forall k ps, In (k, ps) with_none -> In (k, ps) d) /\ NoDup (map fst d) /\
  cardinality offset KProd [(bLIN, 1%Z); (bSIr, 1%Z); (bS, 1%Z); (bSI, 1%Z)] 0 /\
  component [(bLIN, 1%Z); (bSIr, 1%Z); (bS, 1%Z); (bSI, 1%Z)] d /\ complete_params offset d /\
  base_factors_interpretation true offset fmt d = Raise ETypeError.
Proof.
  exists ((KProduct, [[(pVariance, 1)]]) :: (KBase bLIN, [[(pOffset, 2)]]) :: with_none).
  assert (Hnd : NoDup (map fst ((KProduct, [[(pVariance, 1)]]) :: (KBase bLIN, [[(pOffset, 2)]]) :: with_none))).
  { repeat (constructor; [cbn; intuition discriminate|]). constructor. }
  split; [intros k ps H; right; right; exact H|]. split; [exact Hnd|].
  split; [cbn; repeat split; lia|].
  split; [split; [exact Hnd|]; split|split; [split|]].
  - intros k ps Hin. cbn in Hin. decompose [or] Hin; try contradiction;
      match goal with H : (_, _) = (_, _) |- _ => injection H as <- <- end; (split; [discriminate|]); [left; reflexivity | right; eexists; split; reflexivity ..].
  - exists bLIN, [[(pOffset, 2)]]. split; [right; now left | reflexivity].
  - intros b ps Hin. cbn in Hin. decompose [or] Hin; try contradiction; try discriminate;
      match goal with H : (_, _) = (_, _) |- _ => injection H as <- <- end; repeat apply Forall_cons; try apply Forall_nil; cbn; auto; intros; repeat eexists; reflexivity.
  - exists [(pVariance, 1)], [], 1. split; [now left | reflexivity].
  - unfold base_factors_interpretation.
    assert (E : exists l, sigmoids_to_intervals true ((KProduct, [[(pVariance, 1)]]) :: (KBase bLIN, [[(pOffset, 2)]]) :: with_none) = Ok (Some (VNone :: l))).
    { eexists. unfold sigmoids_to_intervals, with_none. rl. reflexivity. }
    destruct E as (l & ->). reflexivity.
Qed.

(** A case where everything succeeds: a periodic component before 8, outside of the window from 2 to 3. *)
Definition good : params :=
  [(KProduct, [[(pVariance, 4)]]); (KBase bPER, [[(pPeriod, 1); (pLengthscale, 2)]]); (KBase bLIN, [[(pOffset, 3)]; [(pOffset, 5)]]);
   (KBase bSr, [sigmoid_at 8; sigmoid_at 9]); (KBase bSIr, [window_at 2 1])].
Definition good_bts : counter := [(bPER, 1%Z); (bLIN, 2%Z); (bSr, 2%Z); (bSIr, 1%Z)].
Lemma good_intervals : sigmoids_to_intervals true good =
  Ok (Some [VIv (Iv None (Some 2) None (Some 1)); VIv (Iv (Some (2 + 1)) (Some 8) (Some 1) (Some 1))]).
Proof. unfold sigmoids_to_intervals, good. rl. reflexivity. Qed.
Lemma good_fitted : fitted_sigmoids true good.
Proof.
  split; [repeat (constructor; [cbn; intuition discriminate|]); constructor|].
  intros b ps [E|[E|[E|[E|[E|[]]]]]] Hs; try discriminate E; injection E as <- <-; try discriminate Hs; (split; [discriminate|]); repeat apply Forall_cons; try apply Forall_nil;
    try (apply window_at_ok; lra); apply sigmoid_at_ok; discriminate.
Qed.
Lemma good_common : at_most_one_SIr good /\ common_point good /\ windows_before_holes good.
Proof.
  split; [|split].
  - intros ps [E|[E|[E|[E|[E|[]]]]]]; try discriminate E. injection E as <-. cbn. lia.
  - exists 0. intros b ps p [E|[E|[E|[E|[E|[]]]]]] Hs Hn Hp; try discriminate E; injection E as <- <-; try discriminate Hs; try congruence.
    destruct Hp as [<-|[<-|[]]]; eexists; (split; [reflexivity | lra]).
  - left. intros ps [E|[E|[E|[E|[E|[]]]]]]; discriminate E.
Qed.
Lemma good_component offset : cardinality offset KProd good_bts 0 /\ component good_bts good /\ complete_params offset good.
Proof.
  split; [cbn; repeat split; try lia|]. split; [split; [|split]|split].
  - repeat (constructor; [cbn; intuition discriminate|]). constructor.
  - intros k ps Hin. cbn in Hin. decompose [or] Hin; try contradiction;
      match goal with H : (_, _) = (_, _) |- _ => injection H as <- <- end; (split; [discriminate|]); [left; reflexivity | right; eexists; split; reflexivity ..].
  - exists bPER, [[(pPeriod, 1); (pLengthscale, 2)]]. split; [right; now left | reflexivity].
  - intros b ps Hin. cbn in Hin. decompose [or] Hin; try contradiction; try discriminate;
      match goal with H : (_, _) = (_, _) |- _ => injection H as <- <- end; repeat apply Forall_cons; try apply Forall_nil; cbn; auto; intros; repeat eexists; reflexivity.
  - exists [(pVariance, 4)], [], 4. split; [now left | reflexivity].
Qed.
