(** Model of GPy_ABCD/Models/model.py: a GPModel object as a state machine.

    GPy's regression object is external: its construction and optimisation are arbitrary functions with side effects (random
    restarts), and what the other methods read from it is a value [P] (kernel parameters, likelihood, data). *)
From Coq Require Import String List Bool ZArith.
From Verif Require Import Py KexModel.
Import ListNotations.
Local Open Scope list_scope.

Section GPModel.
  Context {W P C T Sc : Type}.
  (** GPRegression(X, Y, kernel_expression.to_kernel()) *)
  Context (build : W -> kex -> W * res P).
  (** model.optimize_restarts(num_restarts, ...): changes the regression object in place, also if it raises. *)
  Context (optimise : W -> P -> Z -> W * (P * res unit)).
  (** fit_ker_to_kex_with_params(model.kern, deepcopy(kernel_expression)).sum_of_prods_form() *)
  Context (canonical : P -> kex -> res C).
  (** get_interpretation(sops = _) *)
  Context (describe : C -> res T).

  (** model.py:11-20 [__init__] *)
  Record gpmodel : Type := {
    kernel_expression : kex;
    sum_of_prods_cache : option C;
    restarts : option Z;
    model : option P;
    cached_utility : option (Sc * string)
  }.
  Definition new (k : kex) : gpmodel :=
    {| kernel_expression := k; sum_of_prods_cache := None; restarts := None; model := None; cached_utility := None |}.

  Definition with_restarts (m : gpmodel) (r : option Z) : gpmodel :=
    {| kernel_expression := kernel_expression m; sum_of_prods_cache := sum_of_prods_cache m; restarts := r; model := model m;
       cached_utility := cached_utility m |}.
  Definition with_model (m : gpmodel) (p : P) : gpmodel :=
    {| kernel_expression := kernel_expression m; sum_of_prods_cache := sum_of_prods_cache m; restarts := restarts m; model := Some p;
       cached_utility := cached_utility m |}.
  Definition with_cache (m : gpmodel) (c : C) : gpmodel :=
    {| kernel_expression := kernel_expression m; sum_of_prods_cache := Some c; restarts := restarts m; model := model m;
       cached_utility := cached_utility m |}.
  Definition with_utility (m : gpmodel) (s : Sc * string) : gpmodel :=
    {| kernel_expression := kernel_expression m; sum_of_prods_cache := sum_of_prods_cache m; restarts := restarts m; model := model m;
       cached_utility := Some s |}.

  (** model.py:25-33 [fit] *)
  Definition fit (w : W) (m : gpmodel) (r : option Z) : W * gpmodel * res unit :=
    match (match r with Some n => Some (n, with_restarts m (Some n)) | None => option_map (fun n => (n, m)) (restarts m) end) with
    | None => (w, m, Raise EValueError)
    | Some (n, m) =>
        match build w (kernel_expression m) with
        | (w1, Raise e) => (w1, m, Raise e)
        | (w1, Ok p) => match optimise w1 p n with (w2, (p', r)) => (w2, with_model m p', r) end
        end
    end.

  (** model.py:35-42 [sum_of_prods_kex] *)
  Definition sum_of_prods_kex (m : gpmodel) : gpmodel * res C :=
    match model m, sum_of_prods_cache m with
    | None, _ => (m, Raise EValueError)
    | Some p, None => match canonical p (kernel_expression m) with Ok c => (with_cache m c, Ok c) | Raise e => (m, Raise e) end
    | Some _, Some c => (m, Ok c)
    end.

  (** model.py:44-48 [interpret] *)
  Definition interpret (m : gpmodel) : gpmodel * res T :=
    match sum_of_prods_kex m with
    | (m', Ok c) => (m', describe c)
    | (m', Raise e) => (m', Raise e)
    end.

  (** model.py:64-76 [_ordered_score_ps], [compute_utility]: [score] stands for score_f(model, ll, n, k), which reads the regression
      object only, [name] for score_f.__name__.  None has no log_likelihood. *)
  Definition compute_utility (m : gpmodel) (score : P -> res Sc) (name : string) : gpmodel * res Sc :=
    match model m with
    | None => (m, Raise EAttributeError)
    | Some p => match score p with Ok s => (with_utility m (s, name), Ok s) | Raise e => (m, Raise e) end
    end.

  (** Method calls; [CRead] stands for predict, plot, _ll, _n and _k, which do not change the object. *)
  Inductive call : Type :=
  | CFit (r : option Z)
  | CSumOfProds
  | CInterpret
  | CUtility (score : P -> res Sc) (name : string)
  | CRead.

  Definition step (wm : W * gpmodel) (c : call) : W * gpmodel :=
    let (w, m) := wm in
    match c with
    | CFit r => fst (fit w m r)
    | CSumOfProds => (w, fst (sum_of_prods_kex m))
    | CInterpret => (w, fst (interpret m))
    | CUtility score name => (w, fst (compute_utility m score name))
    | CRead => (w, m)
    end.
  (** The state after a sequence of calls (calls that raise are caught by the caller). *)
  Definition after (w : W) (k : kex) (h : list call) : W * gpmodel := fold_left step h (w, new k).
End GPModel.
Arguments gpmodel : clear implicits.
Arguments call : clear implicits.
