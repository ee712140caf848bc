(** C56, C57 and the own parameters of change kernels (C40). *)
From Coq Require Import Reals List Bool Arith Lra Lia.
From Verif Require Import Py KernModel KernSpec KernGrad3 KernGrad4 KernProper CwModel CwSpec CwProofs CwProofs2 CwProofs3.
Import ListNotations.
Local Open Scope R_scope.

(** C56: at least 2 s / eps away from a change point (s its slope parameter), the covariances are those of the first kernel before it, those of the
    second after it and zero across it, up to eps times the kernels' own sizes. *)
Theorem C56_point : forall s eps D, 0 < s -> 0 < eps -> 2 * s <= eps * D -> forall l first second,
  entrywise first second (change_kernel (ChangePoint l s) first second) (fun x y k1 k2 k =>
    (both (fun z => z <= l - D) x y -> close eps (Rabs k1 + Rabs k2) k k1)
    /\ (both (fun z => l + D <= z) x y -> close eps (Rabs k1 + Rabs k2) k k2)
    /\ (across (fun z => z <= l - D) (fun z => l + D <= z) x y -> close eps (Rabs k1 + Rabs k2) k 0)).
Proof. exact point_regions. Qed.
Print Assumptions C56_point.
(** A change window: the first kernel outside, on the same side or not, and the second inside. *)
Theorem C56_window : forall s eps D, 0 < s -> 0 < eps -> 2 * s <= eps * D -> forall l w first second, 0 < w ->
  let outside := fun z => z <= l - D \/ l + w + D <= z in let inside := fun z => l + D <= z <= l + w - D in
  entrywise first second (change_kernel (ChangeWindow l s w) first second) (fun x y k1 k2 k =>
    (both outside x y -> close eps (Rabs k1 + Rabs k2) k k1)
    /\ (both inside x y -> close eps (Rabs k1 + Rabs k2) k k2)
    /\ (across outside inside x y -> close eps (Rabs k1 + Rabs k2) k 0)).
Proof. exact window_regions. Qed.
Print Assumptions C56_window.
Example C56_example : 2 * (1 / 2) <= (1 / 10) * 10 /\ across (fun z => z <= 0 - 10) (fun z => 0 + 10 <= z) (-20) 30
  /\ both (fun z => z <= 0 - 10 \/ 0 + 50 + 10 <= z) (-20) 70 /\ both (fun z => 0 + 10 <= z <= 0 + 50 - 10) 20 30
  /\ computes (kK (lin_kernel 1 0) (column 2 INR) None) 2 2 (fun i j => 1 * (INR i - 0) * (INR j - 0)).
Proof. unfold across, both. split; [lra|]. split; [left; lra|]. split; [split; [left; lra|right; lra]|]. split; [lra|]. exact (lin_entries 1 0 2 INR None). Qed.

(** C57 is false: with independent sides and no shift, the covariance between points on the two sides is not that of the first kernel, however
    far from the window they are. *)
Theorem C57_refuted : exists s eps, 0 < s /\ 0 < eps /\ forall D, 0 < D -> exists l w v first second, 0 < w /\ 0 <= v /\ proper first /\ proper second
  /\ ~ entrywise first second (shifted_kernel l s w v first second) (fun x y k1 k2 k => x <= l - D -> l + w + D <= y -> close eps (Rabs k1 + Rabs k2 + Rabs v) k k1).
Proof. exact sides_independent. Qed.
Print Assumptions C57_refuted.
(** Its location's gradient is wrong as well. *)
Theorem C57_location_refuted : exists first second p, works first /\ works second
  /\ ~ gradient_right (fun q => shifted_kernel q 1 1 0 first second) (shifted_own p 1 1 first second) p 0.
Proof. exists (lin_kernel 1 1), (lin_kernel 1 0), 0. exact (conj (lin_works 1 1) (conj (lin_works 1 0) shifted_location_wrong)). Qed.
Print Assumptions C57_location_refuted.
(** What holds: the first kernel on the left, the second inside, the first plus the shift on the right, and nothing across: the two sides are
    two independent functions, *)
Theorem C57_regions_partial : forall s eps D, 0 < s -> 0 < eps -> 4 * s <= eps * D -> forall l w v first second, 0 < w ->
  let left := fun z => z <= l - D in let inside := fun z => l + D <= z <= l + w - D in let right := fun z => l + w + D <= z in
  entrywise first second (shifted_kernel l s w v first second) (fun x y k1 k2 k =>
    let scale := Rabs k1 + Rabs k2 + Rabs v in
    (both left x y -> close eps scale k k1) /\ (both inside x y -> close eps scale k k2) /\ (both right x y -> close eps scale k (k1 + v))
    /\ (across left inside x y \/ across inside right x y \/ across left right x y -> close eps scale k 0)).
Proof. exact shifted_regions. Qed.
Print Assumptions C57_regions_partial.
(** it is a covariance function, as is the window of three kernels, *)
Theorem C57_covariance_partial :
  (forall l s w v first second, 0 <= v -> proper first -> proper second -> proper (shifted_kernel l s w v first second))
  /\ (forall g l s w first second third, proper first -> proper second -> proper third -> proper (three_kernel g l s w first second third)).
Proof. exact (conj shifted_proper three_proper). Qed.
Print Assumptions C57_covariance_partial.
(** and the gradients of the kernels inside it and of the shift are right. *)
Theorem C57_gradients_partial : forall l s w v (first second : R -> kernel) p k, 0 < s -> 0 < w -> works (first p) -> works (second p) ->
  (gradient_right first (kgrad (first p)) p k -> gradient_right (fun q => shifted_kernel l s w v (first q) (second p)) (shifted_first l s w (first p) (second p)) p k)
  /\ (gradient_right second (kgrad (second p)) p k -> gradient_right (fun q => shifted_kernel l s w v (first p) (second q)) (shifted_second l s w (first p) (second p)) p k)
  /\ gradient_right (fun q => shifted_kernel l s w q (first p) (second p)) (shifted_shift l s w (first p) (second p)) v 0.
Proof.
  intros l s w v first second p k Hs Hw H1 H2.
  exact (conj (shifted_gradient_first l s w v first (second p) p k Hs Hw H1 H2) (conj (shifted_gradient_second l s w v (first p) second p k Hs Hw H1 H2) (shifted_gradient_shift l s w v (first p) (second p) Hs Hw H1 H2))).
Qed.
Print Assumptions C57_gradients_partial.
(** Its own parameters have the gradients of the second kernel's part alone. *)
Theorem C57_own_partial : forall l s w first second, 0 < s -> 0 < w -> works first -> works second ->
  gradient_right (fun q => prod_kernel second (SI_kernel 1 q s w false)) (shifted_own l s w first second) l 0
  /\ gradient_right (fun q => prod_kernel second (SI_kernel 1 l q w false)) (shifted_own l s w first second) s 1
  /\ gradient_right (fun q => prod_kernel second (SI_kernel 1 l s q false)) (shifted_own l s w first second) w 2.
Proof. exact own_shifted. Qed.
Print Assumptions C57_own_partial.
Example C57_example : proper (lin_kernel 1 0) /\ works (lin_kernel 1 0) /\ 4 * (1 / 2) <= (1 / 10) * 20 /\ across (fun z => z <= 0 - 20) (fun z => 0 + 1 + 20 <= z) 30 (-20)
  /\ gradient_right (fun q => lin_kernel q 0) (kgrad (lin_kernel 1 0)) 1 0.
Proof. split; [apply lin_proper; lra|]. split; [apply lin_works|]. split; [lra|]. split; [right; lra|]. exact (lin_gradient_1 1 0). Qed.

(** C40, what the gradients of a change point's and a change window's own parameters are: those of the second kernel's part alone. *)
Theorem C40_own_partial : forall l s w first second, 0 < s -> 0 < w -> works first -> works second ->
  (gradient_right (fun q => prod_kernel second (S_kernel 1 q s false)) (own_gradients (ChangePoint l s) first second) l 0
   /\ gradient_right (fun q => prod_kernel second (S_kernel 1 l q false)) (own_gradients (ChangePoint l s) first second) s 1)
  /\ (gradient_right (fun q => prod_kernel second (SI_kernel 1 q s w false)) (own_gradients (ChangeWindow l s w) first second) l 0
   /\ gradient_right (fun q => prod_kernel second (SI_kernel 1 l q w false)) (own_gradients (ChangeWindow l s w) first second) s 1
   /\ gradient_right (fun q => prod_kernel second (SI_kernel 1 l s q false)) (own_gradients (ChangeWindow l s w) first second) w 2).
Proof. intros l s w first second Hs Hw W1 W2. exact (conj (own_point l s first second (Rgt_not_eq s 0 Hs) W1 W2) (own_window l s w first second Hs Hw W1 W2)). Qed.
Print Assumptions C40_own_partial.
Example C40_own_example : 0 < 1 / 2 /\ 0 < 1 /\ works (lin_kernel 1 3) /\ works (change_kernel (ChangePoint 0 1) (lin_kernel 1 3) (lin_kernel 2 0)).
Proof. repeat split; try lra; [apply lin_works|]. apply change_works; [simpl; lra|apply lin_works|apply lin_works]. Qed.
