(** Tables of running times (Util/benchmarking.py). Times are rational numbers; the tables are lists of rows. *)
From Coq Require Import String List Bool Arith ZArith QArith.
From Verif Require Import Py.
Import ListNotations.
Local Open Scope list_scope.

(** A function with the time that its i-th run takes. *)
Definition timed : Type := string * (nat -> Q).
(** The columns f, mean, mean excl. 1st, t0, t1, t2 (benchmarking.py:34) *)
Record bench : Type := mkbench { b_name : string; b_mean : Q; b_mean1 : Q; b_t0 : Q; b_t1 : Q; b_t2 : Q }.
(** and the columns best mean ratio, best mean1 ratio, next mean ratio, next mean1 ratio (benchmarking.py:53-59). *)
Record row : Type := mkrow { r_bench : bench; r_best : Q; r_best1 : Q; r_next : Q; r_next1 : Q }.

Definition qsum (l : list Q) : Q := fold_right Qplus 0%Q l.
(** benchmarking.py:9-16 [timethis] *)
Definition timethis (f : timed) (n : nat) : list Q := map (snd f) (seq 0 n).
(** benchmarking.py:26-34 and 39-47; times[0], times[1] and times[2] exist as n is at least 3 *)
Definition measure (n : nat) (f : timed) : bench :=
  let times := timethis f n in
  mkbench (fst f) (qsum times / inject_Z (Z.of_nat (List.length times))) (qsum (tl times) / inject_Z (Z.of_nat (List.length times) - 1)) (nth 0 times 0%Q) (nth 1 times 0%Q) (nth 2 times 0%Q).
(** x / y of python: [EOther 2] is ZeroDivisionError *)
Definition qdiv (x y : Q) : res Q := if Qeq_bool y 0 then Raise (EOther 2) else Ok (x / y)%Q.
(** benchmarking.py:53-57: the conditions of the comprehension are evaluated in order; each stores a value and is false if this is 0 *)
Fixpoint ratio_rows (best best1 last last1 : Q) (l : list bench) : res (list row) :=
  match l with
  | [] => Ok []
  | b :: t =>
      do q <- qdiv (b_mean b) last;
      if Qeq_bool q 0 then ratio_rows best best1 last last1 t else
      do q1 <- qdiv (b_mean1 b) last1;
      if Qeq_bool q1 0 then ratio_rows best best1 last last1 t else
      if Qeq_bool (b_mean b) 0 then ratio_rows best best1 (b_mean b) last1 t else
      if Qeq_bool (b_mean1 b) 0 then ratio_rows best best1 (b_mean b) (b_mean1 b) t else
      do r <- qdiv (b_mean b) best;
      do r1 <- qdiv (b_mean1 b) best1;
      do rest <- ratio_rows best best1 (b_mean b) (b_mean1 b) t;
      Ok (mkrow b r r1 q q1 :: rest)
  end.
(** benchmarking.py:19-61 [compare_implementations]: [fs] are the functions with shared arguments, [own] those with their own. Printing and waiting are left out. *)
Definition compare_implementations (n : nat) (fs own : list timed) : res (list row) :=
  if (n <? 3)%nat then Raise EAssertionError
  else match py_sorted (fun a b => Qle_bool (b_mean a) (b_mean b)) (map (measure n) (fs ++ own)) with
       | [] => Raise EIndexError
       | b :: t => ratio_rows (b_mean b) (b_mean1 b) (b_mean b) (b_mean1 b) (b :: t)
       end.

(** benchmarking.py:91-100 [merge_bench_tables]: [order] is sort_values(by = 'mean'), which need not be stable. The divisions are pandas's, which do not raise. *)
Fixpoint merged_rows (best best1 : Q) (prev : option bench) (l : list bench) : list row :=
  match l with
  | [] => []
  | b :: t =>
      mkrow b (b_mean b / best) (b_mean1 b / best1)
        (match prev with None => 1 | Some p => b_mean b / b_mean p end) (match prev with None => 1 | Some p => b_mean1 b / b_mean1 p end)
      :: merged_rows best best1 (Some b) t
  end%Q.
Definition merge_bench_tables (order : list bench -> list bench) (tables : list (list row)) : res (list row) :=
  match order (map r_bench (concat tables)) with
  | [] => Raise EIndexError
  | b :: t => Ok (merged_rows (b_mean b) (b_mean1 b) None (b :: t))
  end.
