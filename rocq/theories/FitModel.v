(** Model of Util/modelUtil.py: fit_kex.  GPy's regression object, its construction and its optimisation are external, as in GpModel; here
    they are also given the data and the options. *)
From Coq Require Import String List Bool ZArith.
From Verif Require Import Py KexModel GpModel.
Import ListNotations.
Local Open Scope list_scope.

(** numpy arrays: shape, and elements in row-major order *)
Record array (A : Type) : Type := mk_array { shape : list nat; elements : list A }.
Arguments mk_array {A}. Arguments shape {A}. Arguments elements {A}.

(** modelUtil.py:40-41: [if len(np.shape(X)) == 1: X = np.array(X)[:, None]] *)
Definition as_column {A} (a : array A) : array A :=
  if Nat.eqb (Datatypes.length (shape a)) 1 then mk_array (shape a ++ [1]) (elements a) else a.

(** Keyword arguments: names and values *)
Definition kwargs (V : Type) : Type := list (string * V).
Definition given {V} (name : string) (kw : kwargs V) : bool := existsb (fun p => String.eqb (fst p) name) kw.
Fixpoint lookup {V} (name : string) (kw : kwargs V) : option V :=
  match kw with [] => None | (n, v) :: t => if String.eqb n name then Some v else lookup name t end.
Definition without {V} (names : list string) (kw : kwargs V) : kwargs V :=
  filter (fun p => negb (existsb (String.eqb (fst p)) names)) kw.

(** What optimize_restarts is given besides num_restarts (model.py:32); None: the default of fit *)
Record options (V : Type) : Type := mk_options { verbose : option V; robust : option V; optimiser : option V; others : kwargs V }.
Arguments mk_options {V}. Arguments verbose {V}. Arguments robust {V}. Arguments optimiser {V}. Arguments others {V}.

Section FitKex.
  Context {W P A V C Sc : Type} (true_value : V).
  (** GPRegression(X, Y, kernel_expression.to_kernel()) *)
  Context (build : W -> array A -> array A -> kex -> W * res P).
  (** model.optimize_restarts(num_restarts = _, verbose = _, robust = _, optimizer = _, **kwargs) *)
  Context (optimise : W -> P -> Z -> options V -> W * (P * res unit)).
  (** USE_LIN_HORIZONTAL_OFFSET *)
  Context (offset : bool).

  (** model.py:25-33 [fit], called with verbose = True and further keywords (modelUtil.py:44).  Python refuses the call if a parameter
      already given is named (self, restarts, verbose); names that are not fit's own go on to optimize_restarts, whose call is refused if
      num_restarts or optimizer is among them. *)
  Definition fit_verbose (X Y : array A) (w : W) (m : gpmodel P C Sc) (r : option Z) (kw : kwargs V) : W * gpmodel P C Sc * res unit :=
    if given "self" kw || given "restarts" kw || given "verbose" kw then (w, m, Raise ETypeError)
    else
      let rest := without ["optimiser"; "robust"]%string kw in
      let o := mk_options (Some true_value) (lookup "robust" kw) (lookup "optimiser" kw) rest in
      fit (fun w k => build w X Y k)
          (fun w p n => if given "num_restarts" rest || given "optimizer" rest then (w, (p, Raise ETypeError)) else optimise w p n o) w m r.

  (** modelUtil.py:39-48 [fit_kex]; names of base kernels (str) have no _initialise. *)
  Definition fit_kex (w : W) (X Y : array A) (k : branch) (r : option Z) (score : P -> res Sc) (name : string) (kw : kwargs V)
    : W * res (gpmodel P C Sc) :=
    let X := as_column X in
    let Y := as_column Y in
    match k with
    | inl _ => (w, Raise EAttributeError)
    | inr e =>
        match fit_verbose X Y w (new (initialise offset e)) r kw with
        | (w', _, Raise x) => (w', Raise x)
        | (w', m, Ok _) => match compute_utility m score name with (m', Ok _) => (w', Ok m') | (_, Raise x) => (w', Raise x) end
        end
    end.
End FitKex.
