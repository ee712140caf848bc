(** C82: tables of running times. *)
From Coq Require Import String List Bool Arith ZArith QArith Lia Lqa Sorting.Sorted Permutation.
From Verif Require Import Py UtilProofs BenchModel BenchSpec BenchProofs BenchMerge BenchWit.
Import ListNotations.
Local Open Scope Q_scope.

(** C82 is false: a function of which only the first run took a measurable time can be missing in the table. *)
Theorem C82_refuted : exists n fs rows f, (3 <= n)%nat /\ no_negative_times fs /\ compare_implementations n fs [] = Ok rows /\ In f fs /\ forall r, In r rows -> b_name (r_bench r) <> fst f.
Proof. exact missing_row. Qed.
Print Assumptions C82_refuted.
(** What is returned: the rows of the functions whose runs after the first took a measurable time, with their times, sorted by mean time, with the ratios to the
    first and to the previous row. *)
Theorem C82_rows : forall n fs own rows, no_negative_times (fs ++ own) -> compare_implementations n fs own = Ok rows ->
  exists bs, Forall2 (times_of n) (fs ++ own) bs /\ Permutation (map r_bench rows) (filter (fun b => negb (Qeq_bool (b_mean1 b) 0)) bs) /\ ranked rows.
Proof. exact table_rows. Qed.
Print Assumptions C82_rows.
(** If all runs took a measurable time there is a row for every function. *)
Theorem C82_all_partial : forall n fs own, (3 <= n)%nat -> fs ++ own <> [] -> positive_times (fs ++ own) ->
  exists rows bs, compare_implementations n fs own = Ok rows /\ Forall2 (times_of n) (fs ++ own) bs /\ Permutation (map r_bench rows) bs /\ ranked rows.
Proof. exact table_all. Qed.
Print Assumptions C82_all_partial.
(** What is raised: AssertionError for fewer than three runs, IndexError without functions, and ZeroDivisionError only if the runs after the first of one of the
    fastest functions took no measurable time. *)
Theorem C82_raises : forall n fs own e, no_negative_times (fs ++ own) -> compare_implementations n fs own = Raise e ->
  ((n < 3)%nat /\ e = EAssertionError) \/ ((3 <= n)%nat /\ fs ++ own = [] /\ e = EIndexError) \/
  ((3 <= n)%nat /\ e = EOther 2 /\ exists bs b, Forall2 (times_of n) (fs ++ own) bs /\ In b bs /\ (forall a, In a bs -> b_mean b <= b_mean a) /\ b_mean1 b == 0).
Proof. exact table_raises. Qed.
Print Assumptions C82_raises.
(** Merging the tables of groups of functions gives the table of all of them, if all runs took a measurable time and no two rows have the same mean. *)
Theorem C82_merge : forall order n groups tables, (3 <= n)%nat -> sorts order -> groups <> [] -> positive_times (concat groups) ->
  Forall2 (fun fs T => compare_implementations n fs [] = Ok T) groups tables ->
  (forall r r', In r (concat tables) -> In r' (concat tables) -> b_mean (r_bench r) == b_mean (r_bench r') -> r_bench r = r_bench r') ->
  exists T M, compare_implementations n (concat groups) [] = Ok T /\ merge_bench_tables order tables = Ok M /\ Forall2 same_row M T.
Proof. exact merge_tables. Qed.
Print Assumptions C82_merge.
(** Two groups; the slow function of the first is between those of the second. *)
Example C82_example : sorts by_mean /\ positive_times (concat [[quick; slow]; [slower; middle]]) /\ exists T1 T2,
  Forall2 (fun fs T => compare_implementations 3 fs [] = Ok T) [[quick; slow]; [slower; middle]] [T1; T2] /\
  (forall r r', In r (concat [T1; T2]) -> In r' (concat [T1; T2]) -> b_mean (r_bench r) == b_mean (r_bench r') -> r_bench r = r_bench r') /\
  exists M, merge_bench_tables by_mean [T1; T2] = Ok M /\ map (fun r => b_name (r_bench r)) M = ["quick"; "middle"; "slow"; "slower"]%string /\ map (fun r => Qred (r_next r)) M = [1; 2; 2; 2].
Proof. exact merge_witness. Qed.
Example C82_raises_example : compare_implementations 3 [("idle"%string, fun _ => 0)] [] = Raise (EOther 2).
Proof. reflexivity. Qed.
