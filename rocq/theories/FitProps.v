(** Property theorems: fit_kex (C84). *)
From Coq Require Import String List Bool Arith ZArith.
From Verif Require Import Py KexModel GpModel GpSpec FitModel FitSpec FitProofs.
Import ListNotations.
Local Open Scope list_scope.

(** C84: a model returned by fit_kex is for the simplified expression and is the result of one optimisation, with the restarts and options
    asked for, of a regression made from the data, vectors being columns; its score is that of this regression under the function's name;
    and interpret describes this regression. *)
Theorem C84_result : forall W P A V C T Sc (tv : V) build optimise offset (w : W) (X Y : array A) k r score name kw w' (m : gpmodel P C Sc),
  fit_kex tv build optimise offset w X Y k r score name kw = (w', Ok m) ->
  exists e n X' Y' w1 p p' s,
    k = inr e /\ r = Some n /\ regression_data X X' /\ regression_data Y Y'
    /\ build w X' Y' (initialise offset e) = (w1, Ok p)
    /\ optimise w1 p n (mk_options (Some tv) (lookup "robust" kw) (lookup "optimiser" kw) (without ["optimiser"; "robust"]%string kw)) = (w', (p', Ok tt))
    /\ score p' = Ok s
    /\ kernel_expression m = initialise offset e /\ restarts m = Some n /\ model m = Some p' /\ cached_utility m = Some (s, name)
    /\ forall canonical describe, snd (interpret (T := T) canonical describe m) = description canonical describe (initialise offset e) (Some p').
Proof. exact @fit_kex_ok. Qed.
Print Assumptions C84_result.
(** Vectors and their columns give the same outcome, exceptions included. *)
Theorem C84_columns : forall W P A V C Sc (tv : V) build optimise offset (w : W) (X Y X' Y' : array A) k r score name kw,
  (X' = X \/ column_of X X' /\ consistent X /\ consistent X') -> (Y' = Y \/ column_of Y Y' /\ consistent Y /\ consistent Y') ->
  fit_kex (P := P) (C := C) (Sc := Sc) tv build optimise offset w X Y k r score name kw
  = fit_kex tv build optimise offset w X' Y' k r score name kw.
Proof. exact @fit_kex_columns. Qed.
Print Assumptions C84_columns.
(** The keywords documented as passed on are not all accepted: verbose always raises TypeError before anything is done, and num_restarts and
    optimizer, GPy's own names, always raise; restarts None raises ValueError. *)
Theorem C84_refused : forall W P A V C Sc (tv : V) build optimise offset (w : W) (X Y : array A) e r score name kw,
  let call := fit_kex (P := P) (C := C) (Sc := Sc) tv build optimise offset w X Y (inr e) r score name kw in
  (given "verbose" kw = true \/ given "self" kw = true -> call = (w, Raise ETypeError))
  /\ (given "self" kw || given "restarts" kw || given "verbose" kw = false -> r = None -> call = (w, Raise EValueError))
  /\ (given "num_restarts" kw = true \/ given "optimizer" kw = true -> exists w' x, call = (w', Raise x)).
Proof. exact @fit_kex_refused. Qed.
Print Assumptions C84_refused.

(** Regressions that remember what they were made of: WN + WN on three points given as vectors. *)
Definition toy_build (w : nat) (X Y : array nat) (k : kex) : nat * res (list nat * list nat * kex * Z) := (S w, Ok (shape X, elements Y, k, 0%Z)).
Definition toy_optimise (w : nat) (p : list nat * list nat * kex * Z) (n : Z) (o : options bool) : nat * ((list nat * list nat * kex * Z) * res unit) :=
  (S w, ((fst p, n), Ok tt)).
Definition toy_kex (x : list nat) (kw : kwargs bool) := fit_kex (C := nat) (Sc := Z) true toy_build toy_optimise true 0 (mk_array x [1; 2; 3]) (mk_array [3] [4; 5; 6])
  (inr (Comm KSum [(bWN, 2%Z)] [])) (Some 10%Z) (fun p => Ok (snd p)) "BIC" kw.
Example C84_example :
  (exists m, toy_kex [3] [("robust"%string, true)] = (2, Ok m) /\ model m = Some ([3; 1], [4; 5; 6], Comm KSum [(bWN, 1%Z)] [], 10%Z)
             /\ cached_utility m = Some (10%Z, "BIC"%string))
  /\ column_of (mk_array [3] [1; 2; 3]) (mk_array [3; 1] [1; 2; 3]) /\ toy_kex [3] [] = toy_kex [3; 1] []
  /\ toy_kex [3] [("verbose"%string, false)] = (0, Raise ETypeError) /\ toy_kex [3] [("optimizer"%string, true)] = (1, Raise ETypeError).
Proof.
  split; [eexists; split; [reflexivity|split; reflexivity]|]. split; [|repeat split].
  exact (as_column_vector (mk_array [3] [1; 2; 3]) 3 eq_refl).
Qed.
