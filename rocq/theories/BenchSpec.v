(** What the tables of running times should be (C82). *)
From Coq Require Import String List Bool Arith ZArith QArith Sorting.Sorted Permutation.
From Verif Require Import Py BenchModel.
Import ListNotations.
Local Open Scope Q_scope.

(** Mean time of the first [n] runs, and of those after the first. *)
Definition is_mean (m : Q) (n : nat) (t : nat -> Q) : Prop := m * inject_Z (Z.of_nat n) == qsum (map t (seq 0 n)).
Definition is_later_mean (m : Q) (n : nat) (t : nat -> Q) : Prop := m * inject_Z (Z.of_nat n - 1) == qsum (map t (seq 1 (n - 1))).
(** The row's times are those of [f]. *)
Definition times_of (n : nat) (f : timed) (b : bench) : Prop :=
  b_name b = fst f /\ is_mean (b_mean b) n (snd f) /\ is_later_mean (b_mean1 b) n (snd f) /\ b_t0 b = snd f 0%nat /\ b_t1 b = snd f 1%nat /\ b_t2 b = snd f 2%nat.
Definition no_negative_times (fs : list timed) : Prop := forall f, In f fs -> forall i, 0 <= snd f i.
Definition positive_times (fs : list timed) : Prop := forall f, In f fs -> forall i, 0 < snd f i.
(** Sorted by mean time, with the ratios to the first and to the previous row. *)
Definition ranked (rows : list row) : Prop :=
  (forall i r r', nth_error rows i = Some r -> nth_error rows (S i) = Some r' ->
     b_mean (r_bench r) <= b_mean (r_bench r') /\ r_next r' * b_mean (r_bench r) == b_mean (r_bench r') /\ r_next1 r' * b_mean1 (r_bench r) == b_mean1 (r_bench r')) /\
  (forall r, nth_error rows 0 = Some r -> r_next r == 1 /\ r_next1 r == 1) /\
  (forall f r, nth_error rows 0 = Some f -> In r rows -> r_best r * b_mean (r_bench f) == b_mean (r_bench r) /\ r_best1 r * b_mean1 (r_bench f) == b_mean1 (r_bench r)).
(** Rows with the same entries. *)
Definition same_row (r r' : row) : Prop :=
  r_bench r = r_bench r' /\ r_best r == r_best r' /\ r_best1 r == r_best1 r' /\ r_next r == r_next r' /\ r_next1 r == r_next1 r'.
(** Sorts by mean time, in any order of equals. *)
Definition sorts (order : list bench -> list bench) : Prop :=
  forall l, Permutation l (order l) /\ StronglySorted (fun a b => b_mean a <= b_mean b) (order l).
