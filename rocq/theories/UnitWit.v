(** Cases for C66. *)
From Coq Require Import Reals Lra List Bool Arith ZArith Lia FunctionalExtensionality.
From Verif Require Import Py KexModel KexSpec KexCheck KernModel KernSpec KernGrad KernPsd SemModel SemSpec SemProofs SemSimp SemKernel DataModel PredSpec UnitSpec UnitProofs.
Import ListNotations.
Local Open Scope R_scope.

Definition c_kex : kex := Comm KSum [(bC, 1%Z)] [].
Definition wn_kex : kex := Comm KSum [(bWN, 1%Z)] [].
Definition ex_units : kex := Comm KProd [(bPER, 1%Z); (bLIN, 1%Z)] [Comm KSum [(bLIN, 2%Z); (bC, 1%Z)] []].
Definition ex_units_change : kex := Change CW (inl bLIN) (inr (Comm KSum [(bPER, 1%Z)] [Change CP (inl bC) (inl bWN)])).
Lemma ex_units_free : change_free ex_units.
Proof.
  intros c l r H. inversion H as [|n k bts cts c' I N| |]; subst. destruct I as [<-|[]]. inversion N as [|n' k bts cts c' I N'| |]; subst. destruct I.
Qed.
Lemma two_points : attainable true (GBase bC true) 2 (fun i => INR i) (fun i => INR i)
  (- / 2 * (2 / 3) - / 2 * ln 3 - 1 * ln (2 * PI)).
Proof.
  exists (fun _ _ _ => 1), 1. split; [apply base_kernel; [reflexivity|]; exists 1; split; [lra|auto]|]. split; [lra|].
  exists (fun i j => if Nat.eqb i j then 2 / 3 else - / 3). split; [|split].
  - intros i j Hi Hj. destruct i as [|[|i]]; [| |lia]; (destruct j as [|[|j]]; [| |lia]); unfold delta; simpl; lra.
  - unfold delta. simpl. lra.
  - unfold delta. simpl. replace (0 + (-1) ^ 0) with 1 by (simpl; lra).
    match goal with |- _ = _ - / 2 * ln ?d - _ => replace d with 3 by (simpl; lra) end. lra.
Qed.
Lemma ln_lower t : 0 < t -> 1 - / t <= ln t.
Proof.
  intros H. pose proof (Rinv_0_lt_compat t H) as P. assert (E : ln (/ t) <= / t - 1).
  { destruct (Rle_or_lt (ln (/ t)) (/ t - 1)) as [L|L]; [exact L|]. pose proof (exp_ineq1_le (ln (/ t))) as X. rewrite exp_ln in X by exact P. lra. }
  rewrite ln_Rinv in E by exact H. lra.
Qed.
(** One observation: any covariance at the point can be expressed. *)
Lemma one_point b : is_sigmoid b = false -> (forall K, base_family true b K -> 0 < K (fun _ => 0) 0%nat 0%nat) ->
  (exists K, base_family true b K /\ K (fun _ => 0) 0%nat 0%nat = / 2) ->
  is_lub (attainable true (GBase b true) 1 (fun _ => 0) (fun _ => 1)) (- / 2 - / 2 * ln (2 * PI)).
Proof.
  intros NS Pos (K0 & F0 & V0). split.
  - intros L (K & s & F & Hs & (W & HW & HD & HL)). apply base_kernel in F; [|exact NS]. pose proof (Pos K F) as P.
    destruct (HW 0%nat 0%nat) as [HW1 _]; [lia|lia|]. unfold delta in *. simpl in HW1, HD, HL. set (v := K (fun _ => 0) 0%nat 0%nat) in *.
    assert (W00 : W 0%nat 0%nat = / (v + s)). { apply (Rmult_eq_reg_l (v + s)); [|apply Rgt_not_eq; lra]. rewrite Rinv_r by lra. lra. }
    rewrite W00 in HL. replace (0 + 1 * (v + s * 1) * 1) with (v + s) in HL by ring.
    pose proof (ln_lower (v + s) ltac:(lra)). lra.
  - intros B HB. apply HB. exists K0, (/ 2). split; [apply base_kernel; assumption|]. split; [lra|].
    exists (fun _ _ => 1). unfold delta. simpl. rewrite V0. split; [|split].
    + intros i j Hi Hj. destruct i as [|]; [|lia]. destruct j; [|lia]. unfold delta. simpl. rewrite V0. split; lra.
    + lra.
    + replace (0 + 1 * (/ 2 + / 2 * 1) * 1) with 1 by lra. rewrite ln_1. lra.
Qed.
Lemma best_c : is_lub (attainable true (GBase bC true) 1 (fun _ => 0) (fun _ => 1)) (- / 2 - / 2 * ln (2 * PI)).
Proof.
  apply one_point; [reflexivity| |].
  - intros K (v & Hv & H). rewrite H. exact Hv.
  - exists (fun _ _ _ => / 2). split; [|reflexivity]. exists (/ 2). split; [lra|auto].
Qed.
Lemma best_wn : is_lub (attainable true (GBase bWN true) 1 (fun _ => 0) (fun _ => 1)) (- / 2 - / 2 * ln (2 * PI)).
Proof.
  apply one_point; [reflexivity| |].
  - intros K (v & Hv & H). rewrite H. exact Hv.
  - exists (fun _ i j => if Nat.eqb i j then / 2 else 0). split; [|reflexivity]. exists (/ 2). split; [lra|auto].
Qed.
Lemma ex_units_ok e : okb e = true -> exists g K, wf e /\ non_empty e /\ sigmoid_free e /\ to_kernel e = Ok g /\ kernel_family true g K.
Proof.
  intros H. destruct (okb_sound e H) as (A & B & C). destruct (to_kernel_family true e A B C) as (g & E & F). destruct (covariances_inhabited true e) as (K & HK).
  exists g, K. refine (conj A (conj B (conj C (conj E _)))). apply F, HK.
Qed.
