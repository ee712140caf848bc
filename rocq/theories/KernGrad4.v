(** Gradients of the kernel classes: the lengthscale of the periodic kernel, change kernels, counterexamples. *)
From Coq Require Import Reals List Bool Arith Lra Lia.
From Coquelicot Require Import Coquelicot.
From Verif Require Import Py KernModel KernSpec KernSig KernGrad KernGrad2 KernGrad3 KernBessel.
Import ListNotations.
Local Open Scope R_scope.

(** ** The lengthscale of the periodic kernel in the middle regime *)
Lemma sqr_pos l : 0 < l -> 0 < 1 / l ^ 2.
Proof. intros H. apply Rdiv_lt_0_compat; [lra|]. apply pow_lt, H. Qed.

Lemma derive_quot (c v z : R) : 0 < z ->
  is_derive (fun z => v * ((exp (c * z) - bessel0 z) / (exp z - bessel0 z))) z
    (v * ((c * exp (c * z) - bessel1 z) - (exp (c * z) - bessel0 z) / (exp z - bessel0 z) * (exp z - bessel1 z)) / (exp z - bessel0 z)).
Proof.
  intros Hz. pose proof (bessel0_lt_exp z Hz) as Hb. pose proof (bessel0_derive z) as Hd.
  assert (Hex : ex_derive bessel0 z) by (exists (bessel1 z); exact Hd).
  evar_last. { auto_derive; [|reflexivity]. repeat split; try exact Hex. lra. }
  replace (Derive (fun x => bessel0 x) z) with (bessel1 z) by (symmetry; exact (is_derive_unique bessel0 z _ Hd)). field. lra.
Qed.

Lemma per_dl v p l d : 0 < l < 10000 -> 1 / l ^ 2 < 3.75 ->
  is_derive (fun q => per_entry bessel0 v p q d) l (snd (per_dK bessel0 bessel1 v p l d)).
Proof.
  intros Hl Hz. pose proof (sqr_pos l ltac:(lra)) as Hz0.
  apply (is_derive_ext_loc (fun q => (fun z => v * ((exp (cos (2 * PI / p * d) * z) - bessel0 z) / (exp z - bessel0 z))) (1 / q ^ 2))).
  - assert (Hc : continuous (fun q => 1 / q ^ 2) l). { apply (ex_derive_continuous (fun q => 1 / q ^ 2)). auto_derive. apply Rgt_not_eq. nra. }
    assert (H1 : locally l (fun q => 1 / q ^ 2 < 3.75)) by (apply (Hc (fun t => t < 3.75)), (open_lt 3.75), Hz).
    assert (H2 : locally l (fun q => q < 10000)) by (apply (open_lt 10000), Hl).
    generalize (filter_and _ _ H1 H2). apply filter_imp. intros q [Hq1 Hq2]. unfold per_entry. rewrite (Rltb_false 10000 q) by lra. rewrite (Rltb_true _ _ Hq1). reflexivity.
  - unfold per_dK. rewrite (Rltb_false 10000 l) by lra. rewrite (Rltb_true _ _ Hz). cbn [snd].
    evar_last.
    + apply (is_derive_comp (fun z => v * ((exp (cos (2 * PI / p * d) * z) - bessel0 z) / (exp z - bessel0 z))) (fun q => 1 / q ^ 2) l).
      * apply derive_quot, Hz0.
      * instantiate (1 := - 2 * (1 / l ^ 2) / l). auto_derive; [apply Rgt_not_eq; nra|]. field. lra.
    + unfold scal. simpl. unfold mult. simpl. unfold Rdiv. rewrite <- !Rmult_assoc. reflexivity.
Qed.

Lemma per_gradient_1 i0 i1 v p l : gradient_right_everywhere (fun q => per_kernel i0 i1 q p l) (kgrad (per_kernel i0 i1 v p l)) v 0.
Proof.
  intros n x Y dL. pose proof (fun q => per_entries i0 q p l n x Y) as HE. pose proof (per_run i0 i1 v p l n x Y dL) as HR. destruct (other n x Y) as [m y]. intros HdL.
  cbn [per_kernel kgrad kK]. rewrite (HR HdL). cbn [bind fst snd]. do 3 eexists. split; [reflexivity|]. split; [reflexivity|]. split; [intros q; apply HE|].
  apply (gradient_intro n m _ _ v (fun i j => fst (fst (per_dK i0 i1 v p l (x i - y j))))); [|reflexivity]. intros i j _ _. apply per_dv.
Qed.
Lemma per_gradient_2 i0 i1 v p l : p <> 0 -> gradient_right_everywhere (fun q => per_kernel i0 i1 v q l) (kgrad (per_kernel i0 i1 v p l)) p 1.
Proof.
  intros Hp n x Y dL. pose proof (fun q => per_entries i0 v q l n x Y) as HE. pose proof (per_run i0 i1 v p l n x Y dL) as HR. destruct (other n x Y) as [m y]. intros HdL.
  cbn [per_kernel kgrad kK]. rewrite (HR HdL). cbn [bind fst snd]. do 3 eexists. split; [reflexivity|]. split; [reflexivity|]. split; [intros q; apply HE|].
  apply (gradient_intro n m _ _ p (fun i j => snd (fst (per_dK i0 i1 v p l (x i - y j))))); [|reflexivity]. intros i j _ _. apply per_dp, Hp.
Qed.
Lemma per_gradient_3 v p l : 0 < l < 10000 -> 1 / l ^ 2 < 3.75 ->
  gradient_right_everywhere (fun q => per_kernel bessel0 bessel1 v p q) (kgrad (per_kernel bessel0 bessel1 v p l)) l 2.
Proof.
  intros Hl Hz n x Y dL. pose proof (fun q => per_entries bessel0 v p q n x Y) as HE. pose proof (per_run bessel0 bessel1 v p l n x Y dL) as HR. destruct (other n x Y) as [m y]. intros HdL.
  cbn [per_kernel kgrad kK]. rewrite (HR HdL). cbn [bind fst snd]. do 3 eexists. split; [reflexivity|]. split; [reflexivity|]. split; [intros q; apply HE|].
  apply (gradient_intro n m _ _ l (fun i j => snd (per_dK bessel0 bessel1 v p l (x i - y j)))); [|reflexivity]. intros i j _ _. apply per_dl; assumption.
Qed.

(** ** The linear and sigmoidal kernels *)
Lemma lin_gradient_1 v o : gradient_right (fun q => lin_kernel q o) (kgrad (lin_kernel v o)) v 0.
Proof.
  intros n x dL HdL Hs. set (K := fun q i j => q * (x i - o) * (x j - o)). pose proof (fun q => lin_entries q o n x None) as HE. simpl in HE.
  destruct (lin_variance v o n x None dL K HdL (or_introl eq_refl) HE) as (gv & go & E & H). simpl in E. exists [gv; go], gv, K. cbn [lin_kernel kgrad kK]. rewrite E. repeat split; auto.
Qed.
Lemma lin_gradient_2 v o : gradient_right (fun q => lin_kernel v q) (kgrad (lin_kernel v o)) o 1.
Proof.
  intros n x dL HdL Hs. set (K := fun q i j => v * (x i - q) * (x j - q)). pose proof (fun q => lin_entries v q n x None) as HE. simpl in HE.
  destruct (lin_offset v o n x dL K HdL Hs HE) as (gv & go & E & H). exists [gv; go], go, K. cbn [lin_kernel kgrad kK]. rewrite E. repeat split; auto.
Qed.

Lemma S_gradient_1 v l s rev : s <> 0 -> gradient_right (fun q => S_kernel v q s rev) (kgrad (S_kernel v l s rev)) l 0.
Proof.
  intros Hs n x dL HdL Hsym. destruct (S_gradients v l s rev n x dL _ _ Hs HdL Hsym (fun q => basis_entries _ _ n n x x) (fun q => basis_entries _ _ n n x x)) as (gl & gs & E & H1 & H2).
  do 3 eexists. cbn [S_kernel kgrad kK]. rewrite E. split; [reflexivity|]. split; [reflexivity|]. split; [|exact H1]. intros q. apply basis_entries.
Qed.
Lemma S_gradient_2 v l s rev : s <> 0 -> gradient_right (fun q => S_kernel v l q rev) (kgrad (S_kernel v l s rev)) s 1.
Proof.
  intros Hs n x dL HdL Hsym. destruct (S_gradients v l s rev n x dL _ _ Hs HdL Hsym (fun q => basis_entries _ _ n n x x) (fun q => basis_entries _ _ n n x x)) as (gl & gs & E & H1 & H2).
  do 3 eexists. cbn [S_kernel kgrad kK]. rewrite E. split; [reflexivity|]. split; [reflexivity|]. split; [|exact H2]. intros q. apply basis_entries.
Qed.
Lemma SI_gradient v l s w rev : 0 < s -> 0 < w ->
  gradient_right (fun q => SI_kernel v q s w rev) (kgrad (SI_kernel v l s w rev)) l 0
  /\ gradient_right (fun q => SI_kernel v l q w rev) (kgrad (SI_kernel v l s w rev)) s 1
  /\ gradient_right (fun q => SI_kernel v l s q rev) (kgrad (SI_kernel v l s w rev)) w 2.
Proof.
  intros Hs Hw. repeat split; intros n x dL HdL Hsym;
  destruct (SI_gradients v l s w rev n x dL _ _ _ Hs Hw HdL Hsym (fun q => basis_entries _ _ n n x x) (fun q => basis_entries _ _ n n x x) (fun q => basis_entries _ _ n n x x)) as (gl & gs & gw & E & H1 & H2 & H3);
  do 3 eexists; cbn [SI_kernel kgrad kK]; rewrite E; (split; [reflexivity|]); (split; [reflexivity|]); (split; [|first [exact H1|exact H2|exact H3]]); intros q; apply basis_entries.
Qed.

(** ** Change kernels *)
Lemma sig_grad_total c rev n x dL : valid_change c -> array dL n n (ent dL) -> (forall i j, (i < n)%nat -> (j < n)%nat -> ent dL i j = ent dL j i) -> exists g, sig_grad c rev dL (column n x) None = Ok g.
Proof.
  intros Hc HdL Hs. destruct c as [l s|l s w]; simpl.
  - destruct (S_gradients 1 l s rev n x dL _ _ Hc HdL Hs (fun q => basis_entries _ _ n n x x) (fun q => basis_entries _ _ n n x x)) as (gl & gs & -> & _). eexists. reflexivity.
  - destruct Hc as [H1 H2]. destruct (SI_gradients 1 l s w rev n x dL _ _ _ H1 H2 HdL Hs (fun q => basis_entries _ _ n n x x) (fun q => basis_entries _ _ n n x x) (fun q => basis_entries _ _ n n x x)) as (gl & gs & gw & -> & _). eexists. reflexivity.
Qed.

Definition change_entry (c : change) (x y k1 k2 : R) : R := k1 * (1 * (change_phi c true x * change_phi c true y)) + k2 * (1 * (change_phi c false x * change_phi c false y)).

Lemma sig_entries c rev n x : computes (sig_K c rev (column n x) None) n n (fun i j => 1 * (change_phi c rev (x i) * change_phi c rev (x j))).
Proof. apply basis_entries. Qed.

Lemma change_entries c k1 k2 n x K1 K2 : computes (kK k1 (column n x) None) n n K1 -> computes (kK k2 (column n x) None) n n K2 ->
  computes (change_K c k1 k2 (column n x) None) n n (fun i j => change_entry c (x i) (x j) (K1 i j) (K2 i j)).
Proof.
  intros (A1 & E1 & H1) (A2 & E2 & H2). unfold change_K. rewrite E1, E2. cbn [bind].
  destruct (sig_entries c true n x) as (B1 & F1 & G1). destruct (sig_entries c false n x) as (B2 & F2 & G2). rewrite F1, F2. cbn [bind].
  destruct (array_ew Rmult A1 B1 n n _ _ H1 G1) as (C1 & I1 & J1). destruct (array_ew Rmult A2 B2 n n _ _ H2 G2) as (C2 & I2 & J2). unfold mmul. rewrite I1, I2. cbn [bind].
  apply (array_ew Rplus C1 C2 n n _ _ J1 J2).
Qed.

Lemma symmetrise M n k : array M n n k -> (forall i j, (i < n)%nat -> (j < n)%nat -> k i j = k j i) ->
  symmetric n (ent M).
Proof. intros (_ & _ & H) Hk i j Hi Hj. rewrite !H by assumption. auto. Qed.

Lemma weighted_ext n m w w' K : (forall i j, (i < n)%nat -> (j < m)%nat -> w i j = w' i j) -> weighted_sum n m w K = weighted_sum n m w' K.
Proof. intros H. unfold weighted_sum. apply sum2_ext. intros i j Hi Hj. rewrite H by assumption. reflexivity. Qed.

Lemma gradient_weights n w w' (f : nat -> nat -> R) K K' p g : (forall i j, (i < n)%nat -> (j < n)%nat -> w' i j = w i j * f i j) ->
  (forall q i j, (i < n)%nat -> (j < n)%nat -> K' q i j = K q i j * f i j + (K' p i j - K p i j * f i j)) ->
  is_gradient n n w' K p g -> is_gradient n n w K' p g.
Proof.
  intros Hw HK H. unfold is_gradient in *. rewrite <- is_derive_Reals in *.
  apply (is_derive_ext (fun q => weighted_sum n n w' (K q) + weighted_sum n n w (fun i j => K' p i j - K p i j * f i j))).
  - intros q. unfold weighted_sum. change (@eq R (sum_to n (fun i => sum_to n (fun j => w' i j * K q i j)) + sum_to n (fun i => sum_to n (fun j => w i j * (K' p i j - K p i j * f i j)))) (sum_to n (fun i => sum_to n (fun j => w i j * K' q i j)))).
    rewrite <- sum_to_plus. apply sum_to_ext. intros i Hi. rewrite <- sum_to_plus. apply sum_to_ext. intros j Hj. rewrite (HK q) by assumption. rewrite Hw by assumption. ring.
  - rewrite <- (Rplus_0_r g). apply (is_derive_plus (fun q => weighted_sum n n w' (K q)) (fun _ => weighted_sum n n w (fun i j => K' p i j - K p i j * f i j)) p g 0 H). apply (is_derive_const (V := R_NormedModule) _ p).
Qed.

Lemma array_self M n m k : array M n m k -> array M n m (ent M).
Proof. intros (A & B & _). repeat split; assumption. Qed.

Lemma change_run c k1 k2 n x dL K1 K2 g1 g2 : valid_change c -> array dL n n (ent dL) -> symmetric n (ent dL) ->
  computes (kK k1 (column n x) None) n n K1 -> symmetric n K1 -> computes (kK k2 (column n x) None) n n K2 -> symmetric n K2 ->
  (forall d, array d n n (fun i j => ent dL i j * (1 * (change_phi c true (x i) * change_phi c true (x j)))) -> array d n n (ent d) -> symmetric n (ent d) -> exists g, kgrad k1 d (column n x) None = Ok g /\ g1 d g) ->
  (forall d, array d n n (fun i j => ent dL i j * (1 * (change_phi c false (x i) * change_phi c false (x j)))) -> array d n n (ent d) -> symmetric n (ent d) -> exists g, kgrad k2 d (column n x) None = Ok g /\ g2 d g) ->
  exists d1 d2 r1 r2 gs, change_update_gradients_full c k1 k2 dL (column n x) None = Ok (r1, r2, gs) /\ g1 d1 r1 /\ g2 d2 r2
    /\ array d1 n n (fun i j => ent dL i j * (1 * (change_phi c true (x i) * change_phi c true (x j))))
    /\ array d2 n n (fun i j => ent dL i j * (1 * (change_phi c false (x i) * change_phi c false (x j)))).
Proof.
  intros Hc HdL Hsym (A1 & E1 & H1) S1 (A2 & E2 & H2) S2 Hg1 Hg2. unfold change_update_gradients_full.
  destruct (sig_entries c true n x) as (B1 & F1 & G1). destruct (sig_entries c false n x) as (B2 & F2 & G2). rewrite F2. cbn [bind].
  destruct (array_ew Rmult dL B1 n n _ _ HdL G1) as (D1 & I1 & J1). destruct (array_ew Rmult dL B2 n n _ _ HdL G2) as (D2 & I2 & J2). unfold mmul. rewrite I2. cbn [bind].
  destruct (Hg2 D2 J2 (array_self _ _ _ _ J2)) as (r2 & Er2 & Hr2). { apply (symmetrise _ _ _ J2). intros i j Hi Hj. rewrite (Hsym i j Hi Hj). ring. }
  rewrite Er2. cbn [bind]. rewrite E2. cbn [bind].
  destruct (array_ew Rmult dL A2 n n _ _ HdL H2) as (D & I & J). rewrite I. cbn [bind].
  destruct (sig_grad_total c false n x D Hc (array_self _ _ _ _ J)) as (gs & Egs). { apply (symmetrise _ _ _ J). intros i j Hi Hj. rewrite (Hsym i j Hi Hj), (S2 i j Hi Hj). ring. }
  rewrite Egs. cbn [bind]. rewrite F1. cbn [bind]. rewrite I1. cbn [bind].
  destruct (Hg1 D1 J1 (array_self _ _ _ _ J1)) as (r1 & Er1 & Hr1). { apply (symmetrise _ _ _ J1). intros i j Hi Hj. rewrite (Hsym i j Hi Hj). ring. }
  rewrite Er1. cbn [bind]. exists D1, D2, r1, r2, gs. repeat split; try assumption; apply J1 || apply J2.
Qed.

Lemma array_value M n m k i j : array M n m k -> (i < n)%nat -> (j < m)%nat -> ent M i j = k i j.
Proof. intros (_ & _ & H). apply H. Qed.

Lemma change_gradient_first c (first : R -> kernel) second p k : valid_change c -> works (first p) -> works second ->
  gradient_right first (kgrad (first p)) p k -> gradient_right (fun q => change_kernel c (first q) second) (first_gradients c (first p) second) p k.
Proof.
  intros Hc W1 W2 H n x dL HdL Hsym. destruct (W1 n x) as (K1 & S1 & C1 & _). destruct (W2 n x) as (K2 & S2 & C2 & T2).
  destruct (change_run c (first p) second n x dL K1 K2
    (fun d g => exists gk K, nth_error g k = Some gk /\ (forall q, computes (kK (first q) (column n x) None) n n (K q)) /\ is_gradient n n (ent d) K p gk) (fun _ _ => True) Hc HdL Hsym C1 S1 C2 S2)
    as (d1 & d2 & r1 & r2 & gs & E & (gk & K & Hn & HK & Hg) & _ & J1 & _).
  - intros d _ Hd Hs. destruct (H n x d Hd Hs) as (g & gk & K & Eg & R1 & R2 & R3). exists g. split; [exact Eg|]. exists gk, K. auto.
  - intros d _ Hd Hs. destruct (T2 d Hd Hs) as (g & Eg). exists g. auto.
  - exists r1, gk, (fun q i j => change_entry c (x i) (x j) (K q i j) (K2 i j)). split; [unfold first_gradients; rewrite E; reflexivity|]. split; [exact Hn|]. split; [intros q; apply change_entries; auto|].
    apply (gradient_weights n (ent dL) (ent d1) (fun i j => 1 * (change_phi c true (x i) * change_phi c true (x j))) K); [|intros q i j _ _; unfold change_entry; ring|exact Hg].
    intros i j Hi Hj. apply (array_value _ _ _ _ _ _ J1 Hi Hj).
Qed.

Lemma change_gradient_second c first (second : R -> kernel) p k : valid_change c -> works first -> works (second p) ->
  gradient_right second (kgrad (second p)) p k -> gradient_right (fun q => change_kernel c first (second q)) (second_gradients c first (second p)) p k.
Proof.
  intros Hc W1 W2 H n x dL HdL Hsym. destruct (W1 n x) as (K1 & S1 & C1 & T1). destruct (W2 n x) as (K2 & S2 & C2 & _).
  destruct (change_run c first (second p) n x dL K1 K2 (fun _ _ => True)
    (fun d g => exists gk K, nth_error g k = Some gk /\ (forall q, computes (kK (second q) (column n x) None) n n (K q)) /\ is_gradient n n (ent d) K p gk) Hc HdL Hsym C1 S1 C2 S2)
    as (d1 & d2 & r1 & r2 & gs & E & _ & (gk & K & Hn & HK & Hg) & _ & J2).
  - intros d _ Hd Hs. destruct (T1 d Hd Hs) as (g & Eg). exists g. auto.
  - intros d _ Hd Hs. destruct (H n x d Hd Hs) as (g & gk & K & Eg & R1 & R2 & R3). exists g. split; [exact Eg|]. exists gk, K. auto.
  - exists r2, gk, (fun q i j => change_entry c (x i) (x j) (K1 i j) (K q i j)). split; [unfold second_gradients; rewrite E; reflexivity|]. split; [exact Hn|]. split; [intros q; apply change_entries; auto|].
    apply (gradient_weights n (ent dL) (ent d2) (fun i j => 1 * (change_phi c false (x i) * change_phi c false (x j))) K); [|intros q i j _ _; unfold change_entry; ring|exact Hg].
    intros i j Hi Hj. apply (array_value _ _ _ _ _ _ J2 Hi Hj).
Qed.

(** All kernel classes work. *)
Lemma lin_works v o : works (lin_kernel v o).
Proof.
  intros n x. pose proof (lin_entries v o n x None) as HE. simpl in HE. eexists. split; [|split; [exact HE|]]. { intros i j _ _. ring. }
  intros dL HdL Hs. destruct (lin_gradient_1 v o n x dL HdL Hs) as (g & _ & _ & E & _). eauto.
Qed.
Lemma S_works v l s rev : s <> 0 -> works (S_kernel v l s rev).
Proof.
  intros H n x. eexists. split; [|split; [apply basis_entries|]]. { intros i j _ _. ring. }
  intros dL HdL Hs. destruct (S_gradient_1 v l s rev H n x dL HdL Hs) as (g & _ & _ & E & _). eauto.
Qed.
Lemma SI_works v l s w rev : 0 < s -> 0 < w -> works (SI_kernel v l s w rev).
Proof.
  intros H Hw n x. eexists. split; [|split; [apply basis_entries|]]. { intros i j _ _. ring. }
  intros dL HdL Hs. destruct (proj1 (SI_gradient v l s w rev H Hw) n x dL HdL Hs) as (g & _ & _ & E & _). eauto.
Qed.
Lemma per_entry_even i0 v p l d : per_entry i0 v p l (- d) = per_entry i0 v p l d.
Proof. unfold per_entry. replace (2 * PI / p * - d) with (- (2 * PI / p * d)) by ring. rewrite cos_neg. reflexivity. Qed.
Lemma per_works i0 i1 v p l : works (per_kernel i0 i1 v p l).
Proof.
  intros n x. pose proof (per_entries i0 v p l n x None) as HE. simpl in HE. eexists. split; [|split; [exact HE|]].
  { intros i j _ _. replace (x i - x j) with (- (x j - x i)) by ring. apply per_entry_even. }
  intros dL HdL Hs. pose proof (per_gradient_1 i0 i1 v p l n x None dL) as H. simpl in H. destruct (H HdL) as (g & _ & _ & E & _). eauto.
Qed.
Lemma change_works c k1 k2 : valid_change c -> works k1 -> works k2 -> works (change_kernel c k1 k2).
Proof.
  intros Hc W1 W2 n x. destruct (W1 n x) as (K1 & S1 & C1 & T1). destruct (W2 n x) as (K2 & S2 & C2 & T2).
  eexists. split; [|split; [apply (change_entries c k1 k2 n x K1 K2 C1 C2)|]].
  { intros i j Hi Hj. unfold change_entry. rewrite (S1 i j), (S2 i j) by assumption. ring. }
  intros dL HdL Hs.
  destruct (change_run c k1 k2 n x dL K1 K2 (fun _ _ => True) (fun _ _ => True) Hc HdL Hs C1 S1 C2 S2) as (d1 & d2 & r1 & r2 & gs & E & _).
  - intros d _ Hd Hds. destruct (T1 d Hd Hds) as (g & Eg). eauto.
  - intros d _ Hd Hds. destruct (T2 d Hd Hds) as (g & Eg). eauto.
  - cbn [change_kernel kgrad]. rewrite E. cbn [bind]. eauto.
Qed.
