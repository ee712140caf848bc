(** C57: change windows with independent sides. *)
From Coq Require Import Reals List Bool Arith Lra Lia Psatz.
From Coquelicot Require Import Coquelicot.
From Verif Require Import Py KernModel KernSpec KernSig KernGrad KernGrad2 KernGrad3 KernBessel KernGrad4 KernGrad5 KernPsd KernProper CwModel CwSpec CwProofs.
Import ListNotations.
Local Open Scope R_scope.

(** ** Regions *)
Section Regions.
  Variables (s d D l w : R).
  Hypotheses (Hs : 0 < s) (Hw : 0 < w) (HD : 0 < D) (Hd : 0 < d) (HDd : s / (s + D) <= d).
  Definition lft (z : R) : Prop := z <= l - D.
  Definition rgt (z : R) : Prop := l + w + D <= z.
  Definition mid (z : R) : Prop := l + D <= z <= l + w - D.
  Definition wl := phi_S l s true. Definition wm := phi_SI l s w false. Definition wr := phi_S (l + w) s false.
  Lemma units z : 0 <= wl z <= 1 /\ 0 <= wm z <= 1 /\ 0 <= wr z <= 1.
  Proof. split; [apply S_unit|split; [apply SI_unit; assumption|apply S_unit]]. Qed.
  Lemma at_left z : lft z -> 1 - d <= wl z /\ wm z <= d /\ wr z <= d.
  Proof.
    unfold lft, wl, wm, wr. intros Hz. pose proof (S_left l s D z Hs ltac:(lra) Hz). pose proof (SI_left l s w D z Hs Hw ltac:(lra) Hz).
    pose proof (S_left (l + w) s D z Hs ltac:(lra) ltac:(lra)). change (phi_S l s true z) with (1 - phi_S l s false z). lra.
  Qed.
  Lemma at_right z : rgt z -> 1 - d <= wr z /\ wm z <= d /\ wl z <= d.
  Proof.
    unfold rgt, wl, wm, wr. intros Hz. pose proof (S_right (l + w) s D z Hs ltac:(lra) Hz) as H. pose proof (SI_right l s w D z Hs Hw ltac:(lra) Hz).
    pose proof (S_right l s D z Hs ltac:(lra) ltac:(lra)). change (phi_S (l + w) s true z) with (1 - phi_S (l + w) s false z) in H. lra.
  Qed.
  Lemma at_mid z : mid z -> 1 - d <= wm z /\ wl z <= d /\ wr z <= d.
  Proof.
    unfold mid, wl, wm, wr. intros Hz. pose proof (SI_inside l s w D z Hs Hw ltac:(lra) Hz) as H. pose proof (S_right l s D z Hs ltac:(lra) ltac:(lra)).
    pose proof (S_left (l + w) s D z Hs ltac:(lra) ltac:(lra)). change (phi_SI l s w true z) with (1 - phi_SI l s w false z) in H. lra.
  Qed.
  Lemma three_regions x y k1 k2 k3 : let k := three_entry l s w x y k1 k2 k3 in let scale := Rabs k1 + Rabs k2 + Rabs k3 in
    (both lft x y -> close (2 * d) scale k k1) /\ (both mid x y -> close (2 * d) scale k k2) /\ (both rgt x y -> close (2 * d) scale k k3)
    /\ (across lft mid x y \/ across mid rgt x y \/ across lft rgt x y -> close (2 * d) scale k 0).
  Proof.
    cbv zeta. unfold three_entry. fold wl wm wr. destruct (units x) as (X1 & X2 & X3). destruct (units y) as (Y1 & Y2 & Y3).
    pose proof (Rabs_pos k1) as P1. pose proof (Rabs_pos k2) as P2. pose proof (Rabs_pos k3) as P3.
    split; [|split; [|split]]; unfold both, across, close.
    - intros [Hx Hy]. apply at_left in Hx as (A1 & A2 & A3). apply at_left in Hy as (B1 & B2 & B3).
      pose proof (keep k1 (wl x) (wl y) d ltac:(lra) ltac:(lra) ltac:(lra) ltac:(lra) ltac:(lra)) as Q1.
      pose proof (lose k2 (wm x) (wm y) d ltac:(lra) X2 Y2 ltac:(lra)) as Q2. pose proof (lose k3 (wr x) (wr y) d ltac:(lra) X3 Y3 ltac:(lra)) as Q3.
      set (u := k1 * _) in *. set (v := k2 * _) in *. set (t := k3 * _) in *. replace (u + v + t - k1) with ((u - k1) + v + t) by ring. pose proof (abs3 (u - k1) v t). nra.
    - intros [Hx Hy]. apply at_mid in Hx as (A1 & A2 & A3). apply at_mid in Hy as (B1 & B2 & B3).
      pose proof (keep k2 (wm x) (wm y) d ltac:(lra) ltac:(lra) ltac:(lra) ltac:(lra) ltac:(lra)) as Q1.
      pose proof (lose k1 (wl x) (wl y) d ltac:(lra) X1 Y1 ltac:(lra)) as Q2. pose proof (lose k3 (wr x) (wr y) d ltac:(lra) X3 Y3 ltac:(lra)) as Q3.
      set (u := k1 * _) in *. set (v := k2 * _) in *. set (t := k3 * _) in *. replace (u + v + t - k2) with ((v - k2) + u + t) by ring. pose proof (abs3 (v - k2) u t). nra.
    - intros [Hx Hy]. apply at_right in Hx as (A1 & A2 & A3). apply at_right in Hy as (B1 & B2 & B3).
      pose proof (keep k3 (wr x) (wr y) d ltac:(lra) ltac:(lra) ltac:(lra) ltac:(lra) ltac:(lra)) as Q1.
      pose proof (lose k1 (wl x) (wl y) d ltac:(lra) X1 Y1 ltac:(lra)) as Q2. pose proof (lose k2 (wm x) (wm y) d ltac:(lra) X2 Y2 ltac:(lra)) as Q3.
      set (u := k1 * _) in *. set (v := k2 * _) in *. set (t := k3 * _) in *. replace (u + v + t - k3) with ((t - k3) + u + v) by ring. pose proof (abs3 (t - k3) u v). nra.
    - intros H.
      assert (G : (wl x <= d \/ wl y <= d) /\ (wm x <= d \/ wm y <= d) /\ (wr x <= d \/ wr y <= d)).
      { destruct H as [[[Hx Hy]|[Hx Hy]]|[[[Hx Hy]|[Hx Hy]]|[[Hx Hy]|[Hx Hy]]]];
          repeat match goal with H : lft _ |- _ => apply at_left in H | H : mid _ |- _ => apply at_mid in H | H : rgt _ |- _ => apply at_right in H end; lra. }
      destruct G as (G1 & G2 & G3). pose proof (lose k1 (wl x) (wl y) d ltac:(lra) X1 Y1 G1) as Q1. pose proof (lose k2 (wm x) (wm y) d ltac:(lra) X2 Y2 G2) as Q2.
      pose proof (lose k3 (wr x) (wr y) d ltac:(lra) X3 Y3 G3) as Q3.
      set (u := k1 * _) in *. set (v := k2 * _) in *. set (t := k3 * _) in *. rewrite Rminus_0_r. pose proof (abs3 u v t). nra.
  Qed.
End Regions.

Lemma close_weaken e e' a a' u v : close e a u v -> 0 <= e -> e <= e' -> 0 <= a -> a <= a' -> close e' a' u v.
Proof. unfold close. intros H. pose proof (Rabs_pos (u - v)). intros. apply (Rle_trans _ (e * a)); [exact H|]. apply Rmult_le_compat; lra. Qed.

Lemma shifted_regions s eps D : 0 < s -> 0 < eps -> 4 * s <= eps * D -> forall l w v first second, 0 < w ->
  let left := fun z => z <= l - D in let inside := fun z => l + D <= z <= l + w - D in let right := fun z => l + w + D <= z in
  entrywise first second (shifted_kernel l s w v first second) (fun x y k1 k2 k =>
    let scale := Rabs k1 + Rabs k2 + Rabs v in
    (both left x y -> close eps scale k k1) /\ (both inside x y -> close eps scale k k2) /\ (both right x y -> close eps scale k (k1 + v))
    /\ (across left inside x y \/ across inside right x y \/ across left right x y -> close eps scale k 0)).
Proof.
  intros Hs He HDs. destruct (far s (eps / 2) D Hs ltac:(lra) ltac:(lra)) as (d & HD & Hd & HDd & Hde).
  intros l w v first second Hw left inside right n x Y. pose proof (shifted_any l s w v first second n x Y) as HC. destruct (other n x Y) as [m y]. intros K1 K2 H1 H2.
  eexists. split; [apply (HC K1 K2 H1 H2)|]. intros i j _ _. cbv beta zeta.
  destruct (three_regions s d D l w Hs Hw HD Hd HDd (x i) (y j) (K1 i j) (K2 i j) (K1 i j + v)) as (Q1 & Q2 & Q3 & Q4).
  set (k1 := K1 i j) in *. set (k2 := K2 i j) in *. pose proof (Rabs_pos k1) as P1. pose proof (Rabs_pos k2) as P2. pose proof (Rabs_pos v) as P3. pose proof (Rabs_pos (k1 + v)) as P4. pose proof (abs2 k1 v) as P5.
  assert (Wk : forall a b, close (2 * d) (Rabs k1 + Rabs k2 + Rabs (k1 + v)) a b -> close eps (Rabs k1 + Rabs k2 + Rabs v) a b).
  { intros a b Hab. unfold close in *. set (A := Rabs k1) in *. set (B := Rabs k2) in *. set (C := Rabs v) in *. nra. }
  split; [intros H; apply Wk, Q1, H|]. split; [intros H; apply Wk, Q2, H|]. split; [intros H; apply Wk, Q3, H|]. intros H. apply Wk, Q4, H.
Qed.

(** ** Covariance *)
Lemma three_psd l s w n (x : nat -> R) K1 K2 K3 : psd n K1 -> psd n K2 -> psd n K3 ->
  psd n (fun i j => three_entry l s w (x i) (x j) (K1 i j) (K2 i j) (K3 i j)).
Proof.
  intros P1 P2 P3. unfold three_entry.
  apply (psd_ext n (fun i j => K1 i j * (phi_S l s true (x i) * phi_S l s true (x j)) + K2 i j * (phi_SI l s w false (x i) * phi_SI l s w false (x j))
    + K3 i j * (phi_S (l + w) s false (x i) * phi_S (l + w) s false (x j)))); [intros; ring|].
  apply psd_plus; [apply psd_plus|]; [apply (psd_times_rank1 n K1 (fun i => phi_S l s true (x i)) P1)|apply (psd_times_rank1 n K2 (fun i => phi_SI l s w false (x i)) P2)|apply (psd_times_rank1 n K3 (fun i => phi_S (l + w) s false (x i)) P3)].
Qed.
Lemma shifted_proper l s w v k1 k2 : 0 <= v -> proper k1 -> proper k2 -> proper (shifted_kernel l s w v k1 k2).
Proof.
  intros Hv H1 H2 n x. destruct (H1 n x) as (K1 & C1 & S1 & P1 & D1). destruct (H2 n x) as (K2 & C2 & S2 & P2 & D2).
  eexists. split; [apply (shifted_any l s w v k1 k2 n x None K1 K2 C1 C2)|]. split; [|split].
  - intros i j Hi Hj. unfold three_entry. rewrite (S1 i j), (S2 i j) by assumption. ring.
  - apply three_psd; [exact P1|exact P2|]. apply psd_plus; [exact P1|apply psd_const, Hv].
  - intros i Hi. cbn [shifted_kernel kKdiag]. unfold shifted_Kdiag, three_entry. rewrite D1, D2 by exact Hi. unfold basis_Kdiag. simpl. ring.
Qed.
Lemma three_proper g l s w k1 k2 k3 : proper k1 -> proper k2 -> proper k3 -> proper (three_kernel g l s w k1 k2 k3).
Proof.
  intros H1 H2 H3 n x. destruct (H1 n x) as (K1 & C1 & S1 & P1 & D1). destruct (H2 n x) as (K2 & C2 & S2 & P2 & D2). destruct (H3 n x) as (K3 & C3 & S3 & P3 & D3).
  eexists. split; [apply (three_any l s w k1 k2 k3 n x None K1 K2 K3 C1 C2 C3)|]. split; [|split].
  - intros i j Hi Hj. unfold three_entry. rewrite (S1 i j), (S2 i j), (S3 i j) by assumption. ring.
  - apply three_psd; assumption.
  - intros i Hi. cbn [three_kernel kKdiag]. unfold three_Kdiag, three_entry. rewrite D1, D2, D3 by exact Hi. unfold basis_Kdiag. simpl. ring.
Qed.

(** ** Gradients *)
Definition wfirst l s w (x : nat -> R) i j : R := 1 * (phi_S l s true (x i) * phi_S l s true (x j)) + 1 * (phi_S (l + w) s false (x i) * phi_S (l + w) s false (x j)).
Definition wsecond l s w (x : nat -> R) i j : R := 1 * (phi_SI l s w false (x i) * phi_SI l s w false (x j)).
Definition wshift l s w (x : nat -> R) i j : R := 1 * (phi_S (l + w) s false (x i) * phi_S (l + w) s false (x j)).

Lemma shifted_run l s w k1 k2 n x dL K2 (g1 g2 : mat -> list R -> Prop) : 0 < s -> 0 < w -> array dL n n (ent dL) -> symmetric n (ent dL) ->
  computes (kK k2 (column n x) None) n n K2 -> symmetric n K2 ->
  (forall d, array d n n (ent d) -> symmetric n (ent d) -> exists g, kgrad k1 d (column n x) None = Ok g /\ g1 d g) ->
  (forall d, array d n n (ent d) -> symmetric n (ent d) -> exists g, kgrad k2 d (column n x) None = Ok g /\ g2 d g) ->
  exists d1 d2 ds r1 r2 gs r, shifted_update_gradients_full l s w k1 k2 dL (column n x) None = Ok (r1, r2, [fst (fst gs); snd (fst gs); snd gs], r) /\ g1 d1 r1 /\ g2 d2 r2
    /\ array d1 n n (fun i j => ent dL i j * wfirst l s w x i j) /\ array d2 n n (fun i j => ent dL i j * wsecond l s w x i j)
    /\ array ds n n (fun i j => ent dL i j * K2 i j) /\ SI_update_gradients_full 1 l s w false ds (column n x) None = Ok gs
    /\ r = sum_to n (fun i => sum_to n (fun j => ent dL i j * wshift l s w x i j)).
Proof.
  intros Hs Hw HdL Hsym (A2 & E2 & H2) S2 Hg1 Hg2. unfold shifted_update_gradients_full, side_mid, side_left, side_right. cbn [or_self].
  destruct (basis_entries 1 (phi_SI l s w false) n n x x) as (B2 & F2 & G2). rewrite F2. cbn [bind].
  destruct (array_ew Rmult dL B2 n n _ _ HdL G2) as (D2 & I2 & J2). unfold mmul. rewrite I2. cbn [bind].
  destruct (Hg2 D2 (array_self _ _ _ _ J2)) as (r2 & Er2 & Hr2). { apply (symmetrise _ _ _ J2). intros i j Hi Hj. rewrite (Hsym i j Hi Hj). ring. }
  rewrite Er2. cbn [bind]. rewrite E2. cbn [bind].
  destruct (array_ew Rmult dL A2 n n _ _ HdL H2) as (D & I & J). rewrite I. cbn [bind].
  assert (SD : symmetric n (ent D)). { apply (symmetrise _ _ _ J). intros i j Hi Hj. rewrite (Hsym i j Hi Hj), (S2 i j Hi Hj). ring. }
  destruct (SI_gradients 1 l s w false n x D _ _ _ Hs Hw (array_self _ _ _ _ J) SD (fun q => basis_entries _ _ n n x x) (fun q => basis_entries _ _ n n x x) (fun q => basis_entries _ _ n n x x)) as (gl & gsl & gw & Egs & _).
  rewrite Egs. cbn [bind].
  destruct (basis_entries 1 (phi_S l s true) n n x x) as (B1 & F1 & G1). destruct (basis_entries 1 (phi_S (l + w) s false) n n x x) as (B3 & F3 & G3). rewrite F1, F3. cbn [bind].
  destruct (array_ew Rplus B1 B3 n n _ _ G1 G3) as (B4 & F4 & G4). unfold madd. rewrite F4. cbn [bind].
  destruct (array_ew Rmult dL B4 n n _ _ HdL G4) as (D1 & I1 & J1). rewrite I1. cbn [bind].
  destruct (Hg1 D1 (array_self _ _ _ _ J1)) as (r1 & Er1 & Hr1). { apply (symmetrise _ _ _ J1). intros i j Hi Hj. rewrite (Hsym i j Hi Hj). ring. }
  rewrite Er1. cbn [bind]. destruct (array_ew Rmult dL B3 n n _ _ HdL G3) as (D3 & I3 & J3). rewrite I3. cbn [bind].
  exists D1, D2, D, r1, r2, (gl, gsl, gw), (msum D3). cbn [fst snd].
  split; [reflexivity|]. split; [exact Hr1|]. split; [exact Hr2|]. split; [exact J1|]. split; [exact J2|]. split; [exact J|]. split; [exact Egs|]. apply (array_sum _ _ _ _ J3).
Qed.

Lemma shifted_gradient_first l s w v (first : R -> kernel) second p k : 0 < s -> 0 < w -> works (first p) -> works second ->
  gradient_right first (kgrad (first p)) p k -> gradient_right (fun q => shifted_kernel l s w v (first q) second) (shifted_first l s w (first p) second) p k.
Proof.
  intros Hs Hw W1 W2 H n x dL HdL Hsym. destruct (W2 n x) as (K2 & S2 & C2 & T2).
  destruct (shifted_run l s w (first p) second n x dL K2
    (fun d g => exists gk K, nth_error g k = Some gk /\ (forall q, computes (kK (first q) (column n x) None) n n (K q)) /\ is_gradient n n (ent d) K p gk) (fun _ _ => True) Hs Hw HdL Hsym C2 S2)
    as (d1 & d2 & ds & r1 & r2 & gs & r & E & (gk & K & Hn & HK & Hg) & _ & J1 & _).
  - intros d Hd Hds. destruct (H n x d Hd Hds) as (g & gk & K & Eg & R1 & R2 & R3). exists g. split; [exact Eg|]. exists gk, K. auto.
  - intros d Hd Hds. destruct (T2 d Hd Hds) as (g & Eg). exists g. auto.
  - exists r1, gk, (fun q i j => three_entry l s w (x i) (x j) (K q i j) (K2 i j) (K q i j + v)). split; [unfold shifted_first; rewrite E; reflexivity|]. split; [exact Hn|].
    split; [intros q; apply (shifted_any l s w v (first q) second n x None); auto|].
    apply (gradient_weights n (ent dL) (ent d1) (wfirst l s w x) K); [|intros q i j _ _; unfold three_entry, wfirst; ring|exact Hg].
    intros i j Hi Hj. apply (array_value _ _ _ _ _ _ J1 Hi Hj).
Qed.
Lemma shifted_gradient_second l s w v first (second : R -> kernel) p k : 0 < s -> 0 < w -> works first -> works (second p) ->
  gradient_right second (kgrad (second p)) p k -> gradient_right (fun q => shifted_kernel l s w v first (second q)) (shifted_second l s w first (second p)) p k.
Proof.
  intros Hs Hw W1 W2 H n x dL HdL Hsym. destruct (W1 n x) as (K1 & S1 & C1 & T1). destruct (W2 n x) as (K2 & S2 & C2 & _).
  destruct (shifted_run l s w first (second p) n x dL K2 (fun _ _ => True)
    (fun d g => exists gk K, nth_error g k = Some gk /\ (forall q, computes (kK (second q) (column n x) None) n n (K q)) /\ is_gradient n n (ent d) K p gk) Hs Hw HdL Hsym C2 S2)
    as (d1 & d2 & ds & r1 & r2 & gs & r & E & _ & (gk & K & Hn & HK & Hg) & _ & J2 & _).
  - intros d Hd Hds. destruct (T1 d Hd Hds) as (g & Eg). exists g. auto.
  - intros d Hd Hds. destruct (H n x d Hd Hds) as (g & gk & K & Eg & R1 & R2 & R3). exists g. split; [exact Eg|]. exists gk, K. auto.
  - exists r2, gk, (fun q i j => three_entry l s w (x i) (x j) (K1 i j) (K q i j) (K1 i j + v)). split; [unfold shifted_second; rewrite E; reflexivity|]. split; [exact Hn|].
    split; [intros q; apply (shifted_any l s w v first (second q) n x None); auto|].
    apply (gradient_weights n (ent dL) (ent d2) (wsecond l s w x) K); [|intros q i j _ _; unfold three_entry, wsecond; ring|exact Hg].
    intros i j Hi Hj. apply (array_value _ _ _ _ _ _ J2 Hi Hj).
Qed.
Lemma shifted_gradient_shift l s w v first second : 0 < s -> 0 < w -> works first -> works second ->
  gradient_right (fun q => shifted_kernel l s w q first second) (shifted_shift l s w first second) v 0.
Proof.
  intros Hs Hw W1 W2 n x dL HdL Hsym. destruct (W1 n x) as (K1 & S1 & C1 & T1). destruct (W2 n x) as (K2 & S2 & C2 & T2).
  destruct (shifted_run l s w first second n x dL K2 (fun _ _ => True) (fun _ _ => True) Hs Hw HdL Hsym C2 S2)
    as (d1 & d2 & ds & r1 & r2 & gs & r & E & _ & _ & _ & _ & _ & _ & Er).
  - intros d Hd Hds. destruct (T1 d Hd Hds) as (g & Eg). exists g. auto.
  - intros d Hd Hds. destruct (T2 d Hd Hds) as (g & Eg). exists g. auto.
  - exists [r], r, (fun q i j => three_entry l s w (x i) (x j) (K1 i j) (K2 i j) (K1 i j + q)). split; [unfold shifted_shift; rewrite E; reflexivity|]. split; [reflexivity|].
    split; [intros q; apply (shifted_any l s w q first second n x None); auto|].
    apply (gradient_intro n n _ _ v (fun i j => wshift l s w x i j)); [|exact Er].
    intros i j _ _. unfold three_entry, wshift. set (a := K1 i j * _). set (b := K2 i j * _). set (c := 1 * _).
    apply (is_derive_ext (fun q => (a + b + K1 i j * c) + q * c)); [intros q; match goal with |- ?u = ?z => change (@eq R u z) end; ring|].
    auto_derive; [trivial|ring].
Qed.

(** ** What does not hold *)
Lemma bias_computes v n x Y : let (m, y) := other n x Y in computes (kK (bias_kernel v) (column n x) (other_mat Y)) n m (fun _ _ => v).
Proof. destruct Y as [[m y]|]; cbn [other other_mat]; (eexists; split; [reflexivity|]); repeat split. Qed.
Lemma sides_independent : exists s eps, 0 < s /\ 0 < eps /\ forall D, 0 < D -> exists l w v first second, 0 < w /\ 0 <= v /\ proper first /\ proper second
  /\ ~ entrywise first second (shifted_kernel l s w v first second) (fun x y k1 k2 k => x <= l - D -> l + w + D <= y -> close eps (Rabs k1 + Rabs k2 + Rabs v) k k1).
Proof.
  exists 1, (1 / 4). split; [lra|]. split; [lra|]. intros D HD.
  destruct (distance 1 (1 / 64)) as (E & HE & HEd); [lra|lra|].
  exists 0, 1, 0, (bias_kernel 1), (bias_kernel 1). split; [lra|]. split; [lra|]. split; [apply bias_proper; lra|]. split; [apply bias_proper; lra|]. intros H.
  set (x := fun i : nat => if Nat.eqb i 0 then - (D + E) else 1 + (D + E)). specialize (H 2%nat x None). cbn [other other_mat] in H.
  pose proof (bias_computes 1 2 x None) as HB. cbn [other other_mat] in HB. destruct (H _ _ HB HB) as (K & HK & HP).
  specialize (HP 0%nat 1%nat ltac:(lia) ltac:(lia)). assert (X0 : x 0%nat = - (D + E)) by reflexivity. assert (X1 : x 1%nat = 1 + (D + E)) by reflexivity. rewrite X0, X1 in HP. specialize (HP ltac:(lra) ltac:(lra)).
  pose proof (computes_ext _ _ _ _ _ HK (shifted_any 0 1 1 0 (bias_kernel 1) (bias_kernel 1) 2 x None _ _ HB HB) 0%nat 1%nat ltac:(lia) ltac:(lia)) as HE'.
  rewrite HE', X0, X1 in HP.
  destruct (three_regions 1 (1 / 64) E 0 1 ltac:(lra) ltac:(lra) HE ltac:(lra) HEd (- (D + E)) (1 + (D + E)) 1 1 (1 + 0)) as (_ & _ & _ & Q).
  assert (QH : across (lft E 0) (rgt E 0 1) (- (D + E)) (1 + (D + E))) by (left; unfold lft, rgt; lra). specialize (Q (or_intror (or_intror QH))).
  unfold close in *. rewrite Rplus_0_r, Rabs_R1 in *. rewrite Rabs_R0 in HP. set (t := three_entry _ _ _ _ _ _ _ _) in *.
  rewrite Rminus_0_r in Q. unfold Rabs in *. destruct (Rcase_abs t), (Rcase_abs (t - 1)); lra.
Qed.
