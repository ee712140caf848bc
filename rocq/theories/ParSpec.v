(** Fitted kernels and what the parameters assigned to an expression should be (C31-C34). *)
From Coq Require Import Reals List Bool Arith ZArith.
From Verif Require Import Py KexModel KexSpec KernModel KernSpec SemModel SemSpec IvModel IvSpec ParModel.
Import ListNotations.
Local Open Scope R_scope.

(** * Fitted kernel objects *)

(** The values of the free parameters of a base kernel object: all of its parameters, the variance only if it is free; all
    positive except the offset. *)
Definition base_values (offset : bool) (b : base) (free : bool) (ps : pdict) : Prop :=
  map fst ps = filter (fun n => free || negb (is_variance n)) (base_params offset b)
  /\ forall n v, In (n, v) ps -> n <> pOffset -> 0 < v.
Definition change_values (fixed : bool) (c : cpcw) (ps : pdict) : Prop :=
  map fst ps = change_params fixed c /\ forall n v, In (n, v) ps -> n <> pLocation -> 0 < v.
(** The kernel object that to_kernel returns, with some values for its free parameters. *)
Inductive fitted (offset fixed : bool) : gkern -> vkern -> Prop :=
| fit_base b f ps : base_values offset b f ps -> fitted offset fixed (GBase b f) (VBase b ps)
| fit_add g1 g2 k1 k2 : fitted offset fixed g1 k1 -> fitted offset fixed g2 k2 -> fitted offset fixed (GAdd g1 g2) (vadd k1 k2)
| fit_mul g1 g2 k1 k2 : fitted offset fixed g1 k1 -> fitted offset fixed g2 k2 -> fitted offset fixed (GMul g1 g2) (vmul k1 k2)
| fit_change c g1 g2 k1 k2 ps : fitted offset fixed g1 k1 -> fitted offset fixed g2 k2 -> change_values fixed c ps ->
    fitted offset fixed (GChange c g1 g2) (VChange c k1 k2 ps).

(** The covariance function of a base kernel or sigmoid with these values; a variance and a slope that are not parameters are 1 and 1/2. *)
Definition value (p : pdict) (n : pname) (default : R) : R := match dict_get pname_eqb p n with Some v => v | None => default end.
Definition base_cov (b : base) (p : pdict) : kern := fun x i j =>
  let var := value p pVariance 1 in
  let loc := value p pLocation 0 in
  let slope := value p pSlope (1 / 2) in
  let width := value p pWidth 1 in
  match b with
  | bWN => if Nat.eqb i j then var else 0
  | bC => var
  | bLIN => var * ((x i - value p pOffset 0) * (x j - value p pOffset 0))
  | bSE => var * exp (- (x i - x j) ^ 2 / (2 * value p pLengthscale 1 ^ 2))
  | bPER => per_entry bessel0 var (value p pPeriod 1) (value p pLengthscale 1) (x i - x j)
  | bS => phi_S loc slope false (x i) * phi_S loc slope false (x j)
  | bSr => phi_S loc slope true (x i) * phi_S loc slope true (x j)
  | bSI => phi_SI loc slope width false (x i) * phi_SI loc slope width false (x j)
  | bSIr => phi_SI loc slope width true (x i) * phi_SI loc slope width true (x j)
  end.
Definition rsums (l : list R) : R := fold_right Rplus 0 l.
Definition rprods (l : list R) : R := fold_right Rmult 1 l.
(** The covariance function of a fitted kernel object. *)
Fixpoint kernel_cov (k : vkern) : kern := fun x i j =>
  match k with
  | VBase b ps => base_cov b ps x i j
  | VAdd l => rsums (map (fun k => kernel_cov k x i j) l)
  | VMul l => rprods (map (fun k => kernel_cov k x i j) l)
  | VChange c a b ps =>
      kernel_cov a x i j * base_cov (match c with CP => bSr | CW => bSIr end) ps x i j
      + kernel_cov b x i j * base_cov (match c with CP => bS | CW => bSI end) ps x i j
  end.

(** * The parameters that the terms of an expression should get (C31) *)

(** The parts of the kernel object of a Sum or Product: the object itself if there is a single term. *)
Inductive parts_of : kind -> vkern -> list vkern -> Prop :=
| parts_one k K : parts_of k K [K]
| parts_sum l : (2 <= length l)%nat -> parts_of KSum (VAdd l) l
| parts_prod l : (2 <= length l)%nat -> parts_of KProd (VMul l) l.
(** The values of the base kernel objects of one type among the parts, in order. *)
Definition values_of (b : base) (parts : list vkern) : list pdict :=
  concat (map (fun k => match k with VBase b' q => if base_eqb b b' then [q] else [] | _ => [] end) parts).
Definition is_base (k : vkern) : Prop := match k with VBase _ _ => True | _ => False end.
Definition variances (parts : list vkern) : list R :=
  concat (map (fun k => match k with VBase _ q => match dict_get pname_eqb q pVariance with Some v => [v] | None => [] end | _ => [] end) parts).
Definition without_variance (p : pdict) : pdict := filter (fun nv => negb (is_variance (fst nv))) p.
(** The parameters of a Sum are those of the kernel objects of its base terms, the n-th entry of a name being that of the n-th object; in a Product the
    one variance of these is recorded separately. *)
Definition term_params (k : kind) (bts : counter) (ps : params) (bks : list vkern) : Prop :=
  NoDup (map fst ps) /\
  (forall b, Z.of_nat (length (values_of b bks)) = cget bts b) /\
  match k with
  | KSum => (forall b, pars ps (KBase b) = values_of b bks) /\ forall key, In key (map fst ps) -> exists b, key = KBase b /\ (0 < cget bts b)%Z
  | KProd =>
      (forall b, pars ps (KBase b) = map without_variance (values_of b bks)) /\
      (forall key, In key (map fst ps) -> (key = KProduct /\ bks <> []) \/ exists b, key = KBase b /\ (0 < cget bts b)%Z) /\
      (bks <> [] -> exists v, variances bks = [v] /\ pars ps KProduct = [[(pVariance, v)]])
  end.
Inductive assigned : pkex -> vkern -> Prop :=
| as_comm k bts ps cts K bks cks :
    parts_of k K (bks ++ cks) -> Forall is_base bks -> term_params k bts ps bks -> Forall2 assigned cts cks ->
    assigned (PComm k bts ps cts) K
| as_change c ps l r K1 K2 q :
    NoDup (map fst ps) -> (forall key, In key (map fst ps) -> key = KChange c \/ (exists b, l = inl b /\ key = KLeaf true b) \/ (exists b, r = inl b /\ key = KLeaf false b)) ->
    pars ps (KChange c) = [q] ->
    assigned_branch (fun b => KLeaf true b) ps l K1 -> assigned_branch (fun b => KLeaf false b) ps r K2 ->
    assigned (PChange c ps l r) (VChange c K1 K2 q)
with assigned_branch : (base -> pkey) -> params -> base + pkex -> vkern -> Prop :=
| as_leaf key ps b q : pars ps (key b) = [q] -> assigned_branch key ps (inl b) (VBase b q)
| as_expr key ps x K : assigned x K -> assigned_branch key ps (inr x) K.

(** * Sums of products (C32, C33) *)

(** A sum without base terms, whose terms are products without composites. *)
Definition pure_product (p : pkex) : Prop := exists bts ps, p = PComm KProd bts ps [].
Definition sum_of_products (p : pkex) (cts : list pkex) : Prop := p = PComm KSum [] [] cts /\ Forall pure_product cts.
(** The names of the factors of the terms of an expression when products are distributed over sums and a change is the sum of its left branch with a reversed
    sigmoid and its right branch with a sigmoid. *)
Definition choices {A : Type} (ls : list (list (list A))) : list (list A) :=
  fold_right (fun l acc => concat (map (fun m => map (app m) acc) l)) [[]] ls.
Fixpoint expansion (e : kex) : list (list base) :=
  match e with
  | Comm KSum bts cts => map (fun b => [b]) (celements bts) ++ concat (map expansion cts)
  | Comm KProd bts cts => map (app (celements bts)) (choices (map expansion cts))
  | Change c l r =>
      map (fun m => m ++ [match c with CP => bSr | CW => bSIr end]) (match l with inl b => [[b]] | inr x => expansion x end)
      ++ map (fun m => m ++ [match c with CP => bS | CW => bSI end]) (match r with inl b => [[b]] | inr x => expansion x end)
  end.
(** The covariance function of a sum of products with these parameters: each term is its variance times the product of its factors. *)
Definition product_cov (ps : params) : kern := fun x i j =>
  rprods (map (fun kv => match fst kv with
                         | KProduct => rprods (map (fun p => value p pVariance 1) (snd kv))
                         | KBase b => rprods (map (fun p => base_cov b p x i j) (snd kv))
                         | _ => 1
                         end) ps).
Definition terms_cov (cts : list pkex) : kern := fun x i j => rsums (map (fun ct => product_cov (parameters_of ct) x i j) cts).

(** Every sum and product has a base term (C34). *)
Definition base_term_everywhere (e : kex) : Prop := forall k bts cts, node (Comm k bts cts) e -> exists b, (0 < cget bts b)%Z.

(** The number of terms: the sum over the terms of a sum or the branches of a change, the product over the composite factors of a product (C32). *)
Fixpoint number_of_terms (e : kex) : nat :=
  match e with
  | Comm KSum bts cts => length (celements bts) + fold_right Nat.add 0 (map number_of_terms cts)
  | Comm KProd bts cts => fold_right Nat.mul 1 (map number_of_terms cts)
  | Change c l r => (match l with inl _ => 1 | inr x => number_of_terms x end) + (match r with inl _ => 1 | inr x => number_of_terms x end)
  end%nat.
(** How often a factor occurs. *)
Definition times (b : base) (m : list base) : nat := length (filter (base_eqb b) m).
(** A component has only factors of its term, and is equal to the Product of these (which simplifies its arguments) unless both WN and LIN are among them. *)
Definition component_of (offset : bool) (m : list base) (ct : pkex) : Prop :=
  exists bts ps, ct = PComm KProd bts ps [] /\ (forall b, cget bts b <= Z.of_nat (times b m))%Z
    /\ (~ (In bWN m /\ In bLIN m) -> keq (erase ct) (mkl offset KProd m []) = true).
(** No term has both WN and LIN among its factors, or SE more than once (C33). *)
Definition well_mixed (e : kex) : Prop := forall m, In m (expansion e) -> ~ (In bWN m /\ In bLIN m) /\ (times bSE m <= 1)%nat.
(** No change windows (C34). *)
Definition windowless (e : kex) : Prop := forall l r, ~ node (Change CW l r) e.
(** In each of its terms that has windows, at most one of each type and at most two types of sigmoids (C34). *)
Definition few_windows (e : kex) : Prop := forall m, In m (expansion e) -> In bSI m \/ In bSIr m ->
  (times bSI m <= 1)%nat /\ (times bSIr m <= 1)%nat /\ exists a b, forall x, In x m -> is_sigmoid x = true -> x = a \/ x = b.
(** The different types in a list, in the order of their first occurrences, and how often each occurs; every term of the multiplied-out expression has at most
    one window of each type, and these are among the first two types of its sigmoids (C34). *)
Fixpoint firsts (l : list base) : list base := match l with [] => [] | b :: t => b :: filter (fun c => negb (base_eqb b c)) (firsts t) end.
Definition counted (l : list base) : list (base * nat) := map (fun b => (b, times b l)) (firsts l).
Definition windows_come_first (e : kex) : Prop := forall m, In m (expansion e) -> windows_first (counted (filter is_sigmoid m)).

(** An expression in normal form with the parameters of a fitted kernel object of its own. *)
Definition fit_of (offset fixed : bool) (e : kex) (k : vkern) (p : pkex) : Prop :=
  exists g, normal offset e /\ non_empty e /\ to_kernel e = Ok g /\ fitted offset fixed g k /\ fit_ker_to_kex_with_params offset fixed k e = Ok p.
(** A component for which the reduction of its sigmoids to intervals succeeds by C36 (C34). *)
Definition describable (d : params) : Prop := no_windows d \/ (at_most_one_SIr d /\ common_point d /\ windows_before_holes d).
