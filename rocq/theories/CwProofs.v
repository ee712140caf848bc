(** C56, C57. *)
From Coq Require Import Reals List Bool Arith Lra Lia Psatz.
From Coquelicot Require Import Coquelicot.
From Verif Require Import Py KernModel KernSpec KernSig KernGrad KernGrad2 KernGrad3 KernBessel KernGrad4 KernGrad5 KernPsd KernProper CwModel CwSpec.
Import ListNotations.
Local Open Scope R_scope.

(** ** Weights *)
Lemma div_le a b c : 0 < b -> a <= c * b -> a / b <= c.
Proof. intros Hb H. apply (Rmult_le_reg_r b); [exact Hb|]. unfold Rdiv. rewrite Rmult_assoc, Rinv_l, Rmult_1_r by lra. exact H. Qed.
Lemma inv_le a b : 0 < b -> b <= a -> / a <= / b.
Proof. intros. apply Rinv_le_contravar; assumption. Qed.
Lemma ratio_scale s D : 0 < s -> 0 <= D -> / (1 + D / s) = s / (s + D).
Proof. intros. field. lra. Qed.
Lemma div_mono a b s : 0 < s -> a <= b -> a / s <= b / s.
Proof. intros Hs H. unfold Rdiv. apply Rmult_le_compat_r; [left; apply Rinv_0_lt_compat, Hs|exact H]. Qed.

Lemma sig_low s D u : 0 < s -> 0 <= D -> u <= - D -> sigmoid_function (u / s) <= s / (s + D) / 2.
Proof.
  intros Hs HD Hu. assert (H : u / s <= - (D / s)). { replace (- (D / s)) with ((- D) / s) by (field; lra). apply div_mono; assumption. }
  assert (H0 : 0 <= D / s) by (apply Rdiv_le_0_compat; lra).
  rewrite sigmoid_core, core_neg by lra. rewrite <- ratio_scale by assumption.
  assert (/ (1 - u / s) <= / (1 + D / s)) by (apply inv_le; lra). lra.
Qed.
Lemma sig_high s D u : 0 < s -> 0 <= D -> D <= u -> 1 - s / (s + D) / 2 <= sigmoid_function (u / s).
Proof.
  intros Hs HD Hu. pose proof (sig_low s D (- u) Hs HD ltac:(lra)) as H. replace (- u / s) with (- (u / s)) in H by (field; lra).
  rewrite sigmoid_core, core_opp in H. rewrite sigmoid_core. lra.
Qed.
Lemma ratio_pos s D : 0 < s -> 0 <= D -> 0 < s / (s + D).
Proof. intros. apply Rdiv_lt_0_compat; lra. Qed.

Lemma S_left l s D x : 0 < s -> 0 <= D -> x <= l - D -> 0 <= phi_S l s false x <= s / (s + D).
Proof.
  intros Hs HD Hx. unfold phi_S. pose proof (sigmoid_bounds ((x - l) / s)). pose proof (sig_low s D (x - l) Hs HD ltac:(lra)). pose proof (ratio_pos s D Hs HD). lra.
Qed.
Lemma S_right l s D x : 0 < s -> 0 <= D -> l + D <= x -> 0 <= phi_S l s true x <= s / (s + D).
Proof.
  intros Hs HD Hx. unfold phi_S. pose proof (sigmoid_bounds ((x - l) / s)). pose proof (sig_high s D (x - l) Hs HD ltac:(lra)). pose proof (ratio_pos s D Hs HD). lra.
Qed.
Lemma S_unit l s rev x : 0 <= phi_S l s rev x <= 1.
Proof. unfold phi_S. pose proof (sigmoid_bounds ((x - l) / s)). destruct rev; lra. Qed.
Lemma SI_unit l s w rev x : 0 < s -> 0 < w -> 0 <= phi_SI l s w rev x <= 1.
Proof. intros Hs Hw. destruct (phi_SI_props l s w Hs Hw) as (H & _ & _ & R). specialize (H x). destruct rev; [rewrite R|]; lra. Qed.

Lemma SI_left l s w D x : 0 < s -> 0 < w -> 0 <= D -> x <= l - D -> 0 <= phi_SI l s w false x <= s / (s + D).
Proof.
  intros Hs Hw HD Hx. split; [apply SI_unit; assumption|]. rewrite phi_SI_core by lra.
  set (d := l - x). assert (Hd : D <= d) by (unfold d; lra). replace (x - l) with (- d) by (unfold d; ring). replace (l + w - x) with (d + w) by (unfold d; ring). clearbody d. clear x Hx.
  assert (A : 0 <= d / s) by (apply Rdiv_le_0_compat; lra). assert (B : 0 <= (d + w) / s) by (apply Rdiv_le_0_compat; lra). assert (C : 0 < w / (2 * s)) by (apply Rdiv_lt_0_compat; lra).
  replace (- d / s) with (- (d / s)) by (field; lra). rewrite core_opp, !core_pos by lra.
  replace ((- (1 - / (1 + d / s)) + (1 - / (1 + (d + w) / s))) / 2 / (1 - / (1 + w / (2 * s)))) with (s / (s + d) * ((2 * s + w) / (2 * (s + d + w)))).
  2:{ field. repeat split; lra. }
  assert (P : (2 * s + w) / (2 * (s + d + w)) <= 1) by (apply div_le; lra).
  assert (Q : 0 <= (2 * s + w) / (2 * (s + d + w))) by (apply Rdiv_le_0_compat; lra).
  assert (U : s / (s + d) <= s / (s + D)). { unfold Rdiv. apply Rmult_le_compat_l; [lra|]. apply inv_le; lra. }
  pose proof (ratio_pos s d Hs ltac:(lra)). nra.
Qed.
Lemma SI_right l s w D x : 0 < s -> 0 < w -> 0 <= D -> l + w + D <= x -> 0 <= phi_SI l s w false x <= s / (s + D).
Proof.
  intros Hs Hw HD Hx. destruct (phi_SI_props l s w Hs Hw) as (_ & _ & Hsym & _).
  replace x with (l + w / 2 + (x - l - w / 2)) by ring. rewrite Hsym. apply SI_left; try assumption. lra.
Qed.
Lemma SI_inside l s w D x : 0 < s -> 0 < w -> 0 <= D -> l + D <= x <= l + w - D -> 0 <= phi_SI l s w true x <= s / (s + D).
Proof.
  intros Hs Hw HD Hx. split; [apply SI_unit; assumption|]. destruct (phi_SI_props l s w Hs Hw) as (_ & _ & _ & ->).
  assert (H : 1 - s / (s + D) <= phi_SI l s w false x); [|lra]. unfold phi_SI.
  pose proof (sig_high s D (x - l) Hs HD ltac:(lra)) as A. pose proof (sig_high s D (l + w - x) Hs HD ltac:(lra)) as B.
  replace ((x - l - w) / - s) with ((l + w - x) / s) by (field; lra).
  assert (C : 0 < w / (2 * s)) by (apply Rdiv_lt_0_compat; lra).
  assert (Hh : 0 < core_sigmoid_function (w / (2 * s)) < 1). { change core_sigmoid_function with core. pose proof (core_bounds (w / (2 * s))). split; [|lra]. rewrite <- core_0. apply core_incr, C. }
  set (h := core_sigmoid_function (w / (2 * s))) in *. set (a := sigmoid_function ((x - l) / s)) in *. set (b := sigmoid_function ((l + w - x) / s)) in *.
  assert (N : 1 - s / (s + D) <= a + b - 1) by lra.
  assert (P : 0 <= 1 - s / (s + D)). { assert (s / (s + D) <= 1) by (apply div_le; lra). lra. }
  apply (Rle_trans _ (a + b - 1)); [exact N|]. apply (Rmult_le_reg_r h); [lra|]. unfold Rdiv. rewrite Rmult_assoc, Rinv_l, Rmult_1_r by lra. nra.
Qed.

(** The distance beyond which the weights are small. *)
Lemma distance s d : 0 < s -> 0 < d -> exists D, 0 < D /\ s / (s + D) <= d.
Proof.
  intros Hs Hd. exists (s / d). assert (P : 0 < s / d) by (apply Rdiv_lt_0_compat; lra). split; [exact P|].
  apply div_le; [lra|]. replace (d * (s + s / d)) with (d * s + s) by (field; lra). nra.
Qed.

Lemma keep k a b d : 0 <= d -> 1 - d <= a <= 1 -> 1 - d <= b <= 1 -> 0 <= a -> 0 <= b -> Rabs (k * (1 * (a * b)) - k) <= 2 * d * Rabs k.
Proof.
  intros Hd Ha Hb Pa Pb. replace (k * (1 * (a * b)) - k) with ((a * b - 1) * k) by ring. rewrite Rabs_mult. apply Rmult_le_compat_r; [apply Rabs_pos|]. apply Rabs_le. nra.
Qed.
Lemma lose k a b d : 0 <= d -> 0 <= a <= 1 -> 0 <= b <= 1 -> a <= d \/ b <= d -> Rabs (k * (1 * (a * b))) <= d * Rabs k.
Proof.
  intros Hd Ha Hb H. replace (k * (1 * (a * b))) with (a * b * k) by ring. rewrite Rabs_mult. apply Rmult_le_compat_r; [apply Rabs_pos|]. apply Rabs_le. destruct H; nra.
Qed.
Lemma abs2 a b : Rabs (a + b) <= Rabs a + Rabs b.
Proof. apply Rabs_triang. Qed.
Lemma abs3 a b c : Rabs (a + b + c) <= Rabs a + Rabs b + Rabs c.
Proof. eapply Rle_trans; [apply Rabs_triang|]. apply Rplus_le_compat_r, Rabs_triang. Qed.

(** ** Entries on any data sets *)
Lemma basis_any phi n x Y : let (m, y) := other n x Y in
  computes (basis_K 1 phi (column n x) (or_self (column n x) (other_mat Y))) n m (fun i j => 1 * (phi (x i) * phi (y j))).
Proof. destruct Y as [[m y]|]; apply basis_entries. Qed.
Lemma change_any c k1 k2 n x Y : let (m, y) := other n x Y in forall K1 K2,
  computes (kK k1 (column n x) (other_mat Y)) n m K1 -> computes (kK k2 (column n x) (other_mat Y)) n m K2 ->
  computes (change_K c k1 k2 (column n x) (other_mat Y)) n m (fun i j => change_entry c (x i) (y j) (K1 i j) (K2 i j)).
Proof.
  pose proof (basis_any (change_phi c true) n x Y) as Ht. pose proof (basis_any (change_phi c false) n x Y) as Hf.
  destruct (other n x Y) as [m y]. intros K1 K2 (A1 & E1 & H1) (A2 & E2 & H2). unfold change_K, sig_K. rewrite E1, E2.
  destruct Ht as (B1 & F1 & G1). destruct Hf as (B2 & F2 & G2). cbn [bind]. rewrite F1, F2. cbn [bind].
  destruct (array_ew Rmult A1 B1 n m _ _ H1 G1) as (C1 & I1 & J1). destruct (array_ew Rmult A2 B2 n m _ _ H2 G2) as (C2 & I2 & J2). unfold mmul. rewrite I1, I2. cbn [bind].
  apply (array_ew Rplus C1 C2 n m _ _ J1 J2).
Qed.
Definition three_entry (l s w x y k1 k2 k3 : R) : R :=
  k1 * (1 * (phi_S l s true x * phi_S l s true y)) + k2 * (1 * (phi_SI l s w false x * phi_SI l s w false y)) + k3 * (1 * (phi_S (l + w) s false x * phi_S (l + w) s false y)).
Lemma three_any l s w k1 k2 k3 n x Y : let (m, y) := other n x Y in forall K1 K2 K3,
  computes (kK k1 (column n x) (other_mat Y)) n m K1 -> computes (kK k2 (column n x) (other_mat Y)) n m K2 -> computes (kK k3 (column n x) (other_mat Y)) n m K3 ->
  computes (three_K l s w k1 k2 k3 (column n x) (other_mat Y)) n m (fun i j => three_entry l s w (x i) (y j) (K1 i j) (K2 i j) (K3 i j)).
Proof.
  pose proof (basis_any (phi_S l s true) n x Y) as Ht. pose proof (basis_any (phi_SI l s w false) n x Y) as Hf. pose proof (basis_any (phi_S (l + w) s false) n x Y) as Hg.
  destruct (other n x Y) as [m y]. intros K1 K2 K3 (A1 & E1 & H1) (A2 & E2 & H2) (A3 & E3 & H3). unfold three_K, side_left, side_mid, side_right. rewrite E1, E2, E3.
  destruct Ht as (B1 & F1 & G1). destruct Hf as (B2 & F2 & G2). destruct Hg as (B3 & F3 & G3). cbn [bind]. rewrite F1, F2, F3. cbn [bind].
  destruct (array_ew Rmult A1 B1 n m _ _ H1 G1) as (C1 & I1 & J1). destruct (array_ew Rmult A2 B2 n m _ _ H2 G2) as (C2 & I2 & J2).
  destruct (array_ew Rmult A3 B3 n m _ _ H3 G3) as (C3 & I3 & J3). unfold mmul. rewrite I1, I2, I3. cbn [bind].
  destruct (array_ew Rplus C1 C2 n m _ _ J1 J2) as (C & I & J). unfold madd. rewrite I. cbn [bind]. apply (array_ew Rplus C C3 n m _ _ J J3).
Qed.
Lemma shifted_any l s w v k1 k2 n x Y : let (m, y) := other n x Y in forall K1 K2,
  computes (kK k1 (column n x) (other_mat Y)) n m K1 -> computes (kK k2 (column n x) (other_mat Y)) n m K2 ->
  computes (shifted_K l s w v k1 k2 (column n x) (other_mat Y)) n m (fun i j => three_entry l s w (x i) (y j) (K1 i j) (K2 i j) (K1 i j + v)).
Proof.
  set (k3 := {| kK := fun X X2 => do f <- kK k1 X X2; Ok (mmap (fun u => u + v) f); kKdiag := fun _ _ => 0; kgrad := fun _ _ _ => Ok [] |}).
  pose proof (three_any l s w k1 k2 k3 n x Y) as H. destruct (other n x Y) as [m y]. intros K1 K2 H1 H2.
  assert (H3 : computes (kK k3 (column n x) (other_mat Y)) n m (fun i j => K1 i j + v)).
  { destruct H1 as (A & E & HA). cbn [k3 kK]. rewrite E. eexists. split; [reflexivity|]. apply (array_map (fun u => u + v) _ _ _ _ HA). }
  specialize (H K1 K2 _ H1 H2 H3). assert (EQ : three_K l s w k1 k2 k3 (column n x) (other_mat Y) = shifted_K l s w v k1 k2 (column n x) (other_mat Y)); [|rewrite <- EQ; exact H].
  unfold three_K, shifted_K. cbn [k3 kK]. destruct H1 as (A & E & HA). rewrite E. reflexivity.
Qed.

(** ** C56 *)
Lemma far s eps D : 0 < s -> 0 < eps -> 2 * s <= eps * D -> exists d, 0 < D /\ 0 < d /\ s / (s + D) <= d /\ 2 * d <= eps.
Proof.
  intros Hs He HD. assert (P : 0 < D) by nra. exists (s / (s + D)). split; [exact P|]. split; [apply Rdiv_lt_0_compat; lra|]. split; [lra|].
  apply (Rmult_le_reg_r (s + D)); [lra|]. replace (2 * (s / (s + D)) * (s + D)) with (2 * s) by (field; lra). nra.
Qed.

Lemma combine_bound a b c e A B C : Rabs a <= e * A -> Rabs b <= e * B -> Rabs c <= e * C -> Rabs (a + b + c) <= e * (A + B + C).
Proof. intros. pose proof (abs3 a b c). lra. Qed.

Lemma point_regions s eps D : 0 < s -> 0 < eps -> 2 * s <= eps * D -> forall l first second,
  entrywise first second (change_kernel (ChangePoint l s) first second) (fun x y k1 k2 k =>
    (both (fun z => z <= l - D) x y -> close eps (Rabs k1 + Rabs k2) k k1)
    /\ (both (fun z => l + D <= z) x y -> close eps (Rabs k1 + Rabs k2) k k2)
    /\ (across (fun z => z <= l - D) (fun z => l + D <= z) x y -> close eps (Rabs k1 + Rabs k2) k 0)).
Proof.
  intros Hs He HDs. destruct (far s eps D Hs He HDs) as (d & HD & Hd & HDd & Hde).
  intros l first second n x Y. pose proof (change_any (ChangePoint l s) first second n x Y) as HC. destruct (other n x Y) as [m y]. intros K1 K2 H1 H2.
  eexists. split; [apply (HC K1 K2 H1 H2)|]. intros i j _ _. cbv beta. unfold change_entry. cbn [change_phi]. generalize (x i) (y j) (K1 i j) (K2 i j). clear - Hs HD HDd Hd Hde. intros a b k1 k2.
  assert (L : forall z, z <= l - D -> 0 <= phi_S l s false z <= d) by (intros z Hz; pose proof (S_left l s D z Hs ltac:(lra) Hz); lra).
  assert (R : forall z, l + D <= z -> 0 <= phi_S l s true z <= d) by (intros z Hz; pose proof (S_right l s D z Hs ltac:(lra) Hz); lra).
  assert (C : forall z, phi_S l s true z = 1 - phi_S l s false z) by reflexivity.
  pose proof (S_unit l s true a) as U1. pose proof (S_unit l s true b) as U2. pose proof (S_unit l s false a) as U3. pose proof (S_unit l s false b) as U4.
  pose proof (Rabs_pos k1) as P1. pose proof (Rabs_pos k2) as P2.
  split; [|split]; unfold both, across, close.
  - intros [Ha Hb]. apply L in Ha. apply L in Hb.
    pose proof (keep k1 (phi_S l s true a) (phi_S l s true b) d ltac:(lra) ltac:(rewrite C; lra) ltac:(rewrite C; lra) ltac:(lra) ltac:(lra)) as Q1.
    pose proof (lose k2 (phi_S l s false a) (phi_S l s false b) d ltac:(lra) U3 U4 ltac:(lra)) as Q2.
    set (u := k1 * _) in *. set (v := k2 * _) in *. replace (u + v - k1) with ((u - k1) + v) by ring. pose proof (abs2 (u - k1) v). nra.
  - intros [Ha Hb]. apply R in Ha. apply R in Hb.
    pose proof (keep k2 (phi_S l s false a) (phi_S l s false b) d ltac:(lra) ltac:(rewrite C in Ha; lra) ltac:(rewrite C in Hb; lra) ltac:(lra) ltac:(lra)) as Q1.
    pose proof (lose k1 (phi_S l s true a) (phi_S l s true b) d ltac:(lra) U1 U2 ltac:(lra)) as Q2.
    set (u := k1 * _) in *. set (v := k2 * _) in *. replace (u + v - k2) with ((v - k2) + u) by ring. pose proof (abs2 (v - k2) u). nra.
  - intros H.
    assert (G1 : phi_S l s true a <= d \/ phi_S l s true b <= d) by (destruct H as [[Ha Hb]|[Ha Hb]]; [apply R in Hb|apply R in Ha]; lra).
    assert (G2 : phi_S l s false a <= d \/ phi_S l s false b <= d) by (destruct H as [[Ha Hb]|[Ha Hb]]; [apply L in Ha|apply L in Hb]; lra).
    pose proof (lose k1 (phi_S l s true a) (phi_S l s true b) d ltac:(lra) U1 U2 G1) as Q1.
    pose proof (lose k2 (phi_S l s false a) (phi_S l s false b) d ltac:(lra) U3 U4 G2) as Q2.
    set (u := k1 * _) in *. set (v := k2 * _) in *. rewrite Rminus_0_r. pose proof (abs2 u v). nra.
Qed.

Lemma window_regions s eps D : 0 < s -> 0 < eps -> 2 * s <= eps * D -> forall l w first second, 0 < w ->
  let outside := fun z => z <= l - D \/ l + w + D <= z in let inside := fun z => l + D <= z <= l + w - D in
  entrywise first second (change_kernel (ChangeWindow l s w) first second) (fun x y k1 k2 k =>
    (both outside x y -> close eps (Rabs k1 + Rabs k2) k k1)
    /\ (both inside x y -> close eps (Rabs k1 + Rabs k2) k k2)
    /\ (across outside inside x y -> close eps (Rabs k1 + Rabs k2) k 0)).
Proof.
  intros Hs He HDs. destruct (far s eps D Hs He HDs) as (d & HD & Hd & HDd & Hde).
  intros l w first second Hw outside inside n x Y. pose proof (change_any (ChangeWindow l s w) first second n x Y) as HC. destruct (other n x Y) as [m y]. intros K1 K2 H1 H2.
  eexists. split; [apply (HC K1 K2 H1 H2)|]. intros i j _ _. cbv beta. unfold change_entry. cbn [change_phi]. generalize (x i) (y j) (K1 i j) (K2 i j). clear - Hs Hw HD HDd Hd Hde. intros a b k1 k2.
  assert (L : forall z, outside z -> 0 <= phi_SI l s w false z <= d).
  { intros z [Hz|Hz]; [pose proof (SI_left l s w D z Hs Hw ltac:(lra) Hz)|pose proof (SI_right l s w D z Hs Hw ltac:(lra) Hz)]; lra. }
  assert (R : forall z, inside z -> 0 <= phi_SI l s w true z <= d) by (intros z Hz; pose proof (SI_inside l s w D z Hs Hw ltac:(lra) Hz); lra).
  assert (C : forall z, phi_SI l s w true z = 1 - phi_SI l s w false z) by reflexivity.
  pose proof (SI_unit l s w true a Hs Hw) as U1. pose proof (SI_unit l s w true b Hs Hw) as U2. pose proof (SI_unit l s w false a Hs Hw) as U3. pose proof (SI_unit l s w false b Hs Hw) as U4.
  pose proof (Rabs_pos k1) as P1. pose proof (Rabs_pos k2) as P2. clearbody outside inside.
  split; [|split]; unfold both, across, close.
  - intros [Ha Hb]. apply L in Ha. apply L in Hb.
    pose proof (keep k1 (phi_SI l s w true a) (phi_SI l s w true b) d ltac:(lra) ltac:(rewrite C; lra) ltac:(rewrite C; lra) ltac:(lra) ltac:(lra)) as Q1.
    pose proof (lose k2 (phi_SI l s w false a) (phi_SI l s w false b) d ltac:(lra) U3 U4 ltac:(lra)) as Q2.
    set (u := k1 * _) in *. set (v := k2 * _) in *. replace (u + v - k1) with ((u - k1) + v) by ring. pose proof (abs2 (u - k1) v). nra.
  - intros [Ha Hb]. apply R in Ha. apply R in Hb.
    pose proof (keep k2 (phi_SI l s w false a) (phi_SI l s w false b) d ltac:(lra) ltac:(rewrite C in Ha; lra) ltac:(rewrite C in Hb; lra) ltac:(lra) ltac:(lra)) as Q1.
    pose proof (lose k1 (phi_SI l s w true a) (phi_SI l s w true b) d ltac:(lra) U1 U2 ltac:(lra)) as Q2.
    set (u := k1 * _) in *. set (v := k2 * _) in *. replace (u + v - k2) with ((v - k2) + u) by ring. pose proof (abs2 (v - k2) u). nra.
  - intros H.
    assert (G1 : phi_SI l s w true a <= d \/ phi_SI l s w true b <= d) by (destruct H as [[Ha Hb]|[Ha Hb]]; [apply R in Hb|apply R in Ha]; lra).
    assert (G2 : phi_SI l s w false a <= d \/ phi_SI l s w false b <= d) by (destruct H as [[Ha Hb]|[Ha Hb]]; [apply L in Ha|apply L in Hb]; lra).
    pose proof (lose k1 (phi_SI l s w true a) (phi_SI l s w true b) d ltac:(lra) U1 U2 G1) as Q1.
    pose proof (lose k2 (phi_SI l s w false a) (phi_SI l s w false b) d ltac:(lra) U3 U4 G2) as Q2.
    set (u := k1 * _) in *. set (v := k2 * _) in *. rewrite Rminus_0_r. pose proof (abs2 u v). nra.
Qed.
