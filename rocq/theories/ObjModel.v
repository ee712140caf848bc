(** Model of kernel objects and their parameters: which values a kernel computes with, which values it lists, and where gradients are
    written (changeOperators.py:15-37, 49-72, 88-89, 107-118; baseKernels.py:28-57; commutatives.py:26-27, 84-88; change.py:83-86).

    Assumed of GPy and paramz, whose code is not in /repo: kern.copy() is an independent deep copy; CombinationKernel.__init__ links the
    kernels it is given, and Add and Prod give it copies of their operands and compute with the linked ones; a linked parameter is listed in
    param_array in the order of linking, parts first; setting the array of an object sets the values of the parameters it lists and nothing
    else, then calls parameters_changed; assigning a kernel to an attribute does not link it; caching is transparent. *)
From Coq Require Import Reals List Bool Arith ZArith.
From Verif Require Import Py KexModel KernModel KernSpec SemModel.
Import ListNotations.
Local Open Scope R_scope.

(** A parameter: its value and the gradient last stored in it. *)
Record param : Type := { pv : R; pg : R }.
Definition value (v : R) : param := {| pv := v; pg := 0 |}.

(** A base kernel with its parameters, variance first. *)
Inductive bobj : Type := OWN (v : param) | OC (v : param) | OLIN (v o : param) | OSE (v l : param) | OPER (v p l : param).

(** Kernel objects.  A change kernel holds the two linked copies of its operands ([l1], [l2]), its attributes first and second, its location,
    its slope and, for a window, its width. A base kernel's variance may have been unlinked ([free] is false). *)
Inductive kobj : Type :=
| OBase (b : bobj) (free : bool)
| OAdd (k1 k2 : kobj)
| OMul (k1 k2 : kobj)
| OCP (l1 l2 first second : kobj) (location slope : param)
| OCW (l1 l2 first second : kobj) (location slope width : param).

Section Config.
  (** config.__USE_LIN_KERNEL_HORIZONTAL_OFFSET and config.__FIX_SIGMOIDAL_KERNELS_SLOPE *)
  Variables (offset fixed : bool).

  (** baseKernels.py:28-41: the initial values are the defaults of the classes (linearOffsetKernel.py:31, periodicKernel.py:62, GPy's White, Bias and RBF). *)
  Definition new_base (b : base) : res bobj :=
    match b with
    | bWN => Ok (OWN (value 1)) | bC => Ok (OC (value 1)) | bLIN => Ok (OLIN (value 1) (value 0))
    | bSE => Ok (OSE (value 1) (value 1)) | bPER => Ok (OPER (value 1) (value (2 * PI)) (value (2 * PI)))
    | _ => Raise EKeyError end.
  (** changeOperators.py:15-37, 88-89, 107-110: the linked kernels are copies, first and second are the kernels passed *)
  Definition new_change (c : cpcw) (first second : kobj) : kobj :=
    match c with
    | CP => OCP first second first second (value 0) (value (1 / 2))
    | CW => OCW first second first second (value 0) (value (1 / 2)) (value 1) end.
  (** The object that to_kernel constructs ([gkern] is the result of SemModel.to_kernel). *)
  Fixpoint new_object (k : gkern) : res kobj :=
    match k with
    | GBase b f => do o <- new_base b; Ok (OBase o f)
    | GAdd k1 k2 => do o1 <- new_object k1; do o2 <- new_object k2; Ok (OAdd o1 o2)
    | GMul k1 k2 => do o1 <- new_object k1; do o2 <- new_object k2; Ok (OMul o1 o2)
    | GChange c k1 k2 => do o1 <- new_object k1; do o2 <- new_object k2; Ok (new_change c o1 o2)
    end.

  (** The covariance an object computes: KernModel's kernels at the current values. The slope and location reach the two sigmoids in
      parameters_changed (changeOperators.py:49-51, 112-114); first and second are the attributes (53-59). *)
  Definition base_kernel (b : bobj) : kernel :=
    match b with
    | OWN v => white_kernel (pv v) | OC v => bias_kernel (pv v)
    | OLIN v o => if offset then lin_kernel (pv v) (pv o) else lin0_kernel (pv v)
    | OSE v l => rbf_kernel (pv v) (pv l) | OPER v p l => per_kernel bessel0 bessel1 (pv v) (pv p) (pv l) end.
  Fixpoint kernel_of (o : kobj) : kernel :=
    match o with
    | OBase b _ => base_kernel b
    | OAdd k1 k2 => add_kernel (kernel_of k1) (kernel_of k2)
    | OMul k1 k2 => prod_kernel (kernel_of k1) (kernel_of k2)
    | OCP _ _ f s loc sl => change_kernel (ChangePoint (pv loc) (pv sl)) (kernel_of f) (kernel_of s)
    | OCW _ _ f s loc sl w => change_kernel (ChangeWindow (pv loc) (pv sl) (pv w)) (kernel_of f) (kernel_of s)
    end.

  (** The parameters listed (param_array, parameter_names_flat), in order. *)
  Definition var_of (f : bool) (v : param) : list param := if f then [v] else [].
  Definition slope_of (s : param) : list param := if fixed then [] else [s].
  Definition listed_base (f : bool) (b : bobj) : list param :=
    match b with
    | OWN v => var_of f v | OC v => var_of f v | OLIN v o => var_of f v ++ (if offset then [o] else [])
    | OSE v l => var_of f v ++ [l] | OPER v p l => var_of f v ++ [p; l] end.
  Fixpoint listed (o : kobj) : list param :=
    match o with
    | OBase b f => listed_base f b
    | OAdd k1 k2 | OMul k1 k2 => listed k1 ++ listed k2
    | OCP l1 l2 _ _ loc sl => (listed l1 ++ listed l2) ++ slope_of sl ++ [loc]
    | OCW l1 l2 _ _ loc sl w => (listed l1 ++ listed l2) ++ slope_of sl ++ [loc; w]
    end.

  (** Setting the listed values from an array: consumes the values in order; fails if there are too few. *)
  Definition take (p : param) (vs : list R) : res (param * list R) :=
    match vs with [] => Raise EValueError | v :: t => Ok ({| pv := v; pg := pg p |}, t) end.
  Definition take_if (f : bool) (p : param) (vs : list R) : res (param * list R) := if f then take p vs else Ok (p, vs).
  Definition assign_base (f : bool) (b : bobj) (vs : list R) : res (bobj * list R) :=
    match b with
    | OWN v => do a <- take_if f v vs; Ok (OWN (fst a), snd a)
    | OC v => do a <- take_if f v vs; Ok (OC (fst a), snd a)
    | OLIN v o => do a <- take_if f v vs; do b <- take_if offset o (snd a); Ok (OLIN (fst a) (fst b), snd b)
    | OSE v l => do a <- take_if f v vs; do b <- take l (snd a); Ok (OSE (fst a) (fst b), snd b)
    | OPER v p l => do a <- take_if f v vs; do b <- take p (snd a); do c <- take l (snd b); Ok (OPER (fst a) (fst b) (fst c), snd c)
    end.
  Fixpoint assign_from (o : kobj) (vs : list R) : res (kobj * list R) :=
    match o with
    | OBase b f => do a <- assign_base f b vs; Ok (OBase (fst a) f, snd a)
    | OAdd k1 k2 => do a <- assign_from k1 vs; do b <- assign_from k2 (snd a); Ok (OAdd (fst a) (fst b), snd b)
    | OMul k1 k2 => do a <- assign_from k1 vs; do b <- assign_from k2 (snd a); Ok (OMul (fst a) (fst b), snd b)
    | OCP l1 l2 f s loc sl =>
        do a <- assign_from l1 vs; do b <- assign_from l2 (snd a);
        do c <- take_if (negb fixed) sl (snd b); do d <- take loc (snd c);
        Ok (OCP (fst a) (fst b) f s (fst d) (fst c), snd d)
    | OCW l1 l2 f s loc sl w =>
        do a <- assign_from l1 vs; do b <- assign_from l2 (snd a);
        do c <- take_if (negb fixed) sl (snd b); do d <- take loc (snd c); do e <- take w (snd d);
        Ok (OCW (fst a) (fst b) f s (fst d) (fst c) (fst e), snd e)
    end.
  Definition assign (o : kobj) (vs : list R) : res kobj :=
    do a <- assign_from o vs; match snd a with [] => Ok (fst a) | _ => Raise EValueError end.

  (** update_gradients_full.  Base kernels store the gradients that KernModel computes, in the order of their parameters. *)
  Definition store (p : param) (g : R) : param := {| pv := pv p; pg := g |}.
  Definition store_base (b : bobj) (gs : list R) : res bobj :=
    match b, gs with
    | OWN v, [g] => Ok (OWN (store v g))
    | OC v, [g] => Ok (OC (store v g))
    | OLIN v o, [g; h] => Ok (OLIN (store v g) (store o h))
    | OLIN v o, [g] => Ok (OLIN (store v g) o)
    | OSE v l, [g; h] => Ok (OSE (store v g) (store l h))
    | OPER v p l, [g; h; i] => Ok (OPER (store v g) (store p h) (store l i))
    | _, _ => Raise EValueError
    end.
  (** Add.update_gradients_full and Prod.update_gradients_full are GPy's; for changes: changeOperators.py:64-72, 116-118 *)
  Fixpoint update_gradients (o : kobj) (dL X : mat) (X2 : option mat) : res kobj :=
    match o with
    | OBase b f => do gs <- kgrad (base_kernel b) dL X X2; do b' <- store_base b gs; Ok (OBase b' f)
    | OAdd k1 k2 => do a <- update_gradients k1 dL X X2; do b <- update_gradients k2 dL X X2; Ok (OAdd a b)
    | OMul k1 k2 =>
        do K2 <- kK (kernel_of k2) X X2; do d1 <- mmul dL K2; do a <- update_gradients k1 d1 X X2;
        do K1 <- kK (kernel_of k1) X X2; do d2 <- mmul dL K1; do b <- update_gradients k2 d2 X X2;
        Ok (OMul a b)
    | OCP l1 l2 f s loc sl =>
        let c := ChangePoint (pv loc) (pv sl) in
        do sg <- sig_K c false X X2; do d2 <- mmul dL sg; do s' <- update_gradients s d2 X X2;
        do k2 <- kK (kernel_of s) X X2; do ds <- mmul dL k2; do gs <- sig_grad c false ds X X2;
        do sr <- sig_K c true X X2; do d1 <- mmul dL sr; do f' <- update_gradients f d1 X X2;
        match gs with
        | [gl; gsl] => Ok (OCP l1 l2 f' s' (store loc gl) (if fixed then sl else store sl gsl))
        | _ => Raise EValueError end
    | OCW l1 l2 f s loc sl w =>
        let c := ChangeWindow (pv loc) (pv sl) (pv w) in
        do sg <- sig_K c false X X2; do d2 <- mmul dL sg; do s' <- update_gradients s d2 X X2;
        do k2 <- kK (kernel_of s) X X2; do ds <- mmul dL k2; do gs <- sig_grad c false ds X X2;
        do sr <- sig_K c true X X2; do d1 <- mmul dL sr; do f' <- update_gradients f d1 X X2;
        match gs with
        | [gl; gsl; gw] => Ok (OCW l1 l2 f' s' (store loc gl) (if fixed then sl else store sl gsl) (store w gw))
        | _ => Raise EValueError end
    end.

  (** What an optimiser does to the kernel: any sequence of assignments and gradient computations. *)
  Inductive action : Type := Assign (vs : list R) | Gradients (dL X : mat) (X2 : option mat).
  Definition act (o : kobj) (a : action) : res kobj :=
    match a with Assign vs => assign o vs | Gradients dL X X2 => update_gradients o dL X X2 end.
  Fixpoint optimise (o : kobj) (l : list action) : res kobj :=
    match l with [] => Ok o | a :: t => do o' <- act o a; optimise o' t end.
End Config.
