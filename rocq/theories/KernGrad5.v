(** Counterexamples about gradients. *)
From Coq Require Import Reals List Bool Arith Lra Lia.
From Coquelicot Require Import Coquelicot.
From Verif Require Import Py KernModel KernSpec KernSig KernGrad KernGrad2 KernGrad3 KernBessel KernGrad4.
Import ListNotations.
Local Open Scope R_scope.

Lemma gradient_unique n m w K p g d : is_gradient n m w K p g -> is_derive (fun q => weighted_sum n m w (K q)) p d -> g = d.
Proof. unfold is_gradient. rewrite <- is_derive_Reals. intros H1 H2. rewrite <- (is_derive_unique _ _ _ H1). apply (is_derive_unique _ _ _ H2). Qed.

Lemma sig_0 : sigmoid_function 0 = 1 / 2.
Proof. rewrite sigmoid_core, core_0. lra. Qed.
Lemma sig_d_0 : sigmoid_function_d 0 = 1 / 2.
Proof. unfold sigmoid_function_d. rewrite Rabs_R0. change 0.5 with (5 / 10). field. Qed.

Lemma zero_arg : (0 - 0) / 1 = 0.
Proof. field. Qed.

Lemma derive_two_squares (f h : R -> R) p df dh : is_derive f p df -> is_derive h p dh ->
  is_derive (fun q => 1 * (1 * (f q * f q)) + 1 * (1 * (h q * h q))) p (2 * f p * df + 2 * h p * dh).
Proof.
  intros Hf Hh. evar_last. { auto_derive; [|reflexivity]. repeat split; (exists df; exact Hf) || (exists dh; exact Hh). }
  replace (Derive (fun x => f x) p) with df by (symmetry; exact (is_derive_unique _ _ _ Hf)). replace (Derive (fun x => h x) p) with dh by (symmetry; exact (is_derive_unique _ _ _ Hh)). ring.
Qed.

(** Two equal constant values on the two sides: moving the change point has no first-order effect at the change point itself. *)
Lemma change_location_wrong : ~ gradient_right (fun l => change_kernel (ChangePoint l 1) (lin_kernel 1 1) (lin_kernel 1 1)) (own_gradients (ChangePoint 0 1) (lin_kernel 1 1) (lin_kernel 1 1)) 0 0.
Proof.
  intros H. set (dL := {| nr := 1; nc := 1; ent := fun _ _ => 1 |}).
  destruct (H 1%nat (fun _ => 0) dL) as (g & gk & K & E & Hn & HK & Hg). { repeat split; reflexivity. } { intros i j _ _. reflexivity. }
  unfold own_gradients, change_update_gradients_full in E. cbn -[sigmoid_function sigmoid_function_d phi_S] in E. injection E as <-. cbn [nth_error] in Hn. injection Hn as <-.
  assert (HD : is_derive (fun q => weighted_sum 1 1 (ent dL) (K q)) 0 0).
  { apply (is_derive_ext (fun q => change_entry (ChangePoint q 1) 0 0 1 1)).
    - intros q. pose proof (lin_entries 1 1 1 (fun _ => 0) None) as HL. simpl in HL.
      pose proof (computes_ext _ _ _ _ _ (HK q) (change_entries (ChangePoint q 1) (lin_kernel 1 1) (lin_kernel 1 1) 1 (fun _ => 0) _ _ HL HL) 0%nat 0%nat (Nat.lt_0_succ 0) (Nat.lt_0_succ 0)) as HE.
      unfold weighted_sum, dL. simpl. rewrite HE. unfold change_entry. simpl.
      match goal with |- ?a = ?b => change (@eq R a b) end. ring.
    - unfold change_entry. cbn [change_phi].
      pose proof (phi_S_dl 0 1 true 0 ltac:(lra)) as D1. pose proof (phi_S_dl 0 1 false 0 ltac:(lra)) as D2. rewrite zero_arg, sig_d_0 in D1, D2. unfold sign in D1, D2.
      evar_last. { apply (derive_two_squares _ _ _ _ _ D1 D2). }
      match goal with |- ?a = ?b => change (@eq R a b) end.
      unfold phi_S. rewrite zero_arg, sig_0. field. }
  pose proof (gradient_unique _ _ _ _ _ _ _ Hg HD) as HC. unfold phi_S in HC. rewrite zero_arg, sig_0, sig_d_0 in HC. replace (1 / 2 / - (1)) with (- (1 / 2)) in HC by field. lra.
Qed.

(** An offset gradient with weights on one side of the diagonal only. *)
Lemma lin_offset_wrong : ~ gradient_right_everywhere (fun o => lin_kernel 1 o) (kgrad (lin_kernel 1 0)) 0 1.
Proof.
  intros H. set (dL := {| nr := 2; nc := 2; ent := fun i j => match i, j with O, S O => 1 | _, _ => 0 end |}).
  specialize (H 2%nat (fun i => match i with O => 0 | S _ => 1 end) None dL). simpl other in H. cbv iota in H.
  destruct H as (g & gk & K & E & Hn & HK & Hg). { repeat split; reflexivity. }
  cbn in E. injection E as <-. cbn [nth_error] in Hn. injection Hn as <-.
  assert (HD : is_derive (fun q => weighted_sum 2 2 (ent dL) (K q)) 0 (-1)).
  { apply (is_derive_ext (fun q => 1 * (0 - q) * (1 - q))).
    - intros q. pose proof (lin_entries 1 q 2 (fun i => match i with O => 0 | S _ => 1 end) None) as HL. simpl in HL.
      pose proof (computes_ext _ _ _ _ _ (HK q) HL 0%nat 1%nat ltac:(lia) ltac:(lia)) as HE. unfold weighted_sum, dL. simpl. rewrite HE.
      match goal with |- ?a = ?b => change (@eq R a b) end. ring.
    - auto_derive; [trivial|]. ring. }
  pose proof (gradient_unique _ _ _ _ _ _ _ Hg HD) as HC. lra.
Qed.

(** A second data set of another size. *)
Lemma lin_other_raises : exists dL, array dL 3 2 (ent dL) /\ kgrad (lin_kernel 1 0) dL (column 3 (fun _ => 0)) (Some (column 2 (fun _ => 0))) = Raise EValueError.
Proof. exists {| nr := 3; nc := 2; ent := fun _ _ => 1 |}. split; [repeat split|reflexivity]. Qed.
Lemma S_other_raises : exists dL, array dL 3 2 (ent dL) /\ kgrad (S_kernel 1 0 1 false) dL (column 3 (fun _ => 0)) (Some (column 2 (fun _ => 0))) = Raise EValueError.
Proof. exists {| nr := 3; nc := 2; ent := fun _ _ => 1 |}. split; [repeat split|reflexivity]. Qed.
Lemma SI_other_raises : exists dL, array dL 3 2 (ent dL) /\ kgrad (SI_kernel 1 0 1 1 false) dL (column 3 (fun _ => 0)) (Some (column 2 (fun _ => 0))) = Raise EValueError.
Proof. exists {| nr := 3; nc := 2; ent := fun _ _ => 1 |}. split; [repeat split|reflexivity]. Qed.

(** The lengthscale above 10^4: K does not depend on it, the gradient is not zero. *)
Lemma per_lengthscale_wrong i0 i1 : ~ gradient_right (fun l => per_kernel i0 i1 1 1 l) (kgrad (per_kernel i0 i1 1 1 20000)) 20000 2.
Proof.
  intros H. set (dL := {| nr := 1; nc := 1; ent := fun _ _ => 1 |}).
  destruct (H 1%nat (fun _ => 0) dL) as (g & gk & K & E & Hn & HK & Hg). { repeat split; reflexivity. } { intros i j _ _. reflexivity. }
  cbn [per_kernel kgrad] in E. pose proof (per_run i0 i1 1 1 20000 1 (fun _ => 0) None dL) as HR. simpl in HR. rewrite HR in E by (repeat split). clear HR. cbn [bind] in E. injection E as <-. cbn [nth_error] in Hn. injection Hn as <-.
  assert (HD : is_derive (fun q => weighted_sum 1 1 (ent dL) (K q)) 20000 0).
  { apply (is_derive_ext_loc (fun _ => 1 * cos (2 * PI / 1 * (0 - 0)))); [|apply (is_derive_const (V := R_NormedModule) _ 20000)].
    assert (HL : locally 20000 (fun q => 10000 < q)) by (apply (open_gt 10000); lra). revert HL. apply filter_imp. intros q Hq.
    pose proof (per_entries i0 1 1 q 1 (fun _ => 0) None) as HE. simpl in HE. pose proof (computes_ext _ _ _ _ _ (HK q) HE 0%nat 0%nat ltac:(lia) ltac:(lia)) as He.
    unfold weighted_sum, dL. simpl. rewrite He. unfold per_entry. rewrite (Rltb_true _ _ Hq). match goal with |- ?a = ?b => change (@eq R a b) end. ring. }
  pose proof (gradient_unique _ _ _ _ _ _ _ Hg HD) as HC. unfold weighted_sum, dL in HC. cbn [sum_to ent] in HC. unfold per_dK in HC. rewrite (Rltb_true 10000 20000) in HC by lra. cbn [snd] in HC. lra.
Qed.
