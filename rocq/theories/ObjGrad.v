(** Gradients of the base kernels, sums and products (C55). *)
From Coq Require Import Reals List Bool Arith Lra Lia.
From Coquelicot Require Import Coquelicot.
From Verif Require Import Py KernModel KernSpec KernSig KernGrad KernGrad2 KernGrad3 KernBessel KernGrad4 KernPsd KernProper.
Import ListNotations.
Local Open Scope R_scope.

Lemma everywhere_right ker G p k : gradient_right_everywhere ker G p k -> gradient_right ker G p k.
Proof. intros H n x dL HdL _. exact (H n x None dL HdL). Qed.

Lemma white_gradient v : gradient_right white_kernel (kgrad (white_kernel v)) v 0.
Proof.
  intros n x dL HdL Hs. exists [rsum n (fun i => ent dL i i)], (rsum n (fun i => ent dL i i)), (fun q i j => if Nat.eqb i j then q else 0).
  split; [reflexivity|]. split; [reflexivity|]. split.
  - intros q. eexists. split; [reflexivity|]. repeat split.
  - apply (gradient_intro n n _ _ v (fun i j => if Nat.eqb i j then 1 else 0)).
    + intros i j _ _. destruct (Nat.eqb i j); [apply (is_derive_id v)|apply (is_derive_const (V := R_NormedModule) 0 v)].
    + rewrite rsum_sum_to. apply sum_to_ext. intros i Hi. symmetry.
      rewrite (sum_to_single n i); [rewrite Nat.eqb_refl; lra|exact Hi|]. intros j _ Hj. destruct (Nat.eqb_spec i j); [congruence|lra].
Qed.
Lemma bias_gradient v : gradient_right bias_kernel (kgrad (bias_kernel v)) v 0.
Proof.
  intros n x dL HdL Hs. exists [msum dL], (msum dL), (fun q _ _ => q). split; [reflexivity|]. split; [reflexivity|]. split.
  - intros q. eexists. split; [reflexivity|]. repeat split.
  - apply (gradient_intro n n _ _ v (fun _ _ => 1)).
    + intros i j _ _. apply (is_derive_id v).
    + rewrite (array_sum _ _ _ _ HdL). apply sum2_ext. intros; lra.
Qed.

Lemma rbf_run v l n x dL : array dL n n (ent dL) ->
  kgrad (rbf_kernel v l) dL (column n x) None = Ok [sum_to n (fun i => sum_to n (fun j => ent dL i j * exp (- (x i - x j) ^ 2 / (2 * l ^ 2))));
    sum_to n (fun i => sum_to n (fun j => ent dL i j * (rbf_entry v l (x i - x j) * ((x i - x j) ^ 2 / l ^ 3))))].
Proof.
  intros HdL. cbn [rbf_kernel kgrad or_self]. unfold msub.
  destruct (array_outer Rminus (column n x) (mT (column n x)) n n _ _ (array_column n x) (array_T _ _ _ _ (array_column n x))) as (D & E & HD). rewrite E. cbn [bind]. unfold mmul.
  destruct (array_ew Rmult dL _ n n _ _ HdL (array_map (fun d => exp (- d ^ 2 / (2 * l ^ 2))) _ _ _ _ HD)) as (M1 & E1 & H1). rewrite E1. cbn [bind].
  destruct (array_ew Rmult dL _ n n _ _ HdL (array_map (fun d => rbf_entry v l d * (d ^ 2 / l ^ 3)) _ _ _ _ HD)) as (M2 & E2 & H2). rewrite E2. cbn [bind].
  rewrite (array_sum _ _ _ _ H1), (array_sum _ _ _ _ H2). reflexivity.
Qed.
Lemma rbf_gradient_1 v l : gradient_right (fun q => rbf_kernel q l) (kgrad (rbf_kernel v l)) v 0.
Proof.
  intros n x dL HdL Hs. rewrite (rbf_run v l n x dL HdL). do 3 eexists. split; [reflexivity|]. split; [reflexivity|]. split; [intros q; apply rbf_entries|].
  apply (gradient_intro n n _ _ v (fun i j => exp (- (x i - x j) ^ 2 / (2 * l ^ 2)))); [|reflexivity]. intros i j _ _. apply (derive_scal_l _ v).
Qed.
Lemma rbf_gradient_2 v l : l <> 0 -> gradient_right (fun q => rbf_kernel v q) (kgrad (rbf_kernel v l)) l 1.
Proof.
  intros Hl n x dL HdL Hs. rewrite (rbf_run v l n x dL HdL). do 3 eexists. split; [reflexivity|]. split; [reflexivity|]. split; [intros q; apply rbf_entries|].
  apply (gradient_intro n n _ _ l (fun i j => rbf_entry v l (x i - x j) * ((x i - x j) ^ 2 / l ^ 3))); [|reflexivity]. intros i j _ _. unfold rbf_entry.
  evar_last. { auto_derive; [|reflexivity]. simpl. rewrite Rmult_1_r. apply Rmult_integral_contrapositive. split; [lra|]. apply Rmult_integral_contrapositive; split; assumption. }
  simpl. unfold Rdiv. match goal with |- ?a = ?b => change (@eq R a b) end. rewrite !Rmult_1_r. field. assumption.
Qed.

Lemma lin_gradients v o : gradient_right (fun q => lin_kernel q o) (kgrad (lin_kernel v o)) v 0 /\ gradient_right (fun q => lin_kernel v q) (kgrad (lin_kernel v o)) o 1.
Proof. split; [apply lin_gradient_1|apply lin_gradient_2]. Qed.

(** ** Sums and products *)
Lemma add_entries k1 k2 n x K1 K2 : computes (kK k1 (column n x) None) n n K1 -> computes (kK k2 (column n x) None) n n K2 ->
  computes (kK (add_kernel k1 k2) (column n x) None) n n (fun i j => K1 i j + K2 i j).
Proof. intros (A1 & E1 & H1) (A2 & E2 & H2). cbn [add_kernel kK]. rewrite E1, E2. cbn [bind]. apply (array_ew Rplus A1 A2 n n _ _ H1 H2). Qed.
Lemma prod_entries k1 k2 n x K1 K2 : computes (kK k1 (column n x) None) n n K1 -> computes (kK k2 (column n x) None) n n K2 ->
  computes (kK (prod_kernel k1 k2) (column n x) None) n n (fun i j => K1 i j * K2 i j).
Proof. intros (A1 & E1 & H1) (A2 & E2 & H2). cbn [prod_kernel kK]. rewrite E1, E2. cbn [bind]. apply (array_ew Rmult A1 A2 n n _ _ H1 H2). Qed.
Lemma gradient_const n w (K : nat -> nat -> R) p : is_gradient n n w (fun _ => K) p 0.
Proof. unfold is_gradient. rewrite <- is_derive_Reals. apply (is_derive_const (V := R_NormedModule) _ p). Qed.
