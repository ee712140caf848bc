(** Model of GPy_ABCD/KernelExpressions/{commutative_base,commutatives,change}.py: kernel expressions without fitted
    parameters and without root/parent pointers (those have their own models).

    Base kernel names (python strings) are an enumeration: the five base kernels of baseKernels.py:11 and the four
    sigmoids of baseKernels.py:12.  Other strings are not kernels ([to_kernel] has no entry for them). *)
From Coq Require Import List Bool Arith ZArith.
From Verif Require Import Py UtilModel.
Import ListNotations.
Local Open Scope Z_scope.

(** ** Base kernels *)
Inductive base : Type := bWN | bC | bLIN | bSE | bPER | bS | bSr | bSI | bSIr.

Definition base_eqb (a b : base) : bool :=
  match a, b with
  | bWN, bWN | bC, bC | bLIN, bLIN | bSE, bSE | bPER, bPER | bS, bS | bSr, bSr | bSI, bSI | bSIr, bSIr => true
  | _, _ => false
  end.

Definition all_bases : list base := [bWN; bC; bLIN; bSE; bPER; bS; bSr; bSI; bSIr].

(** baseKernels.py:12 [base_sigmoids]. *)
Definition is_sigmoid (b : base) : bool :=
  match b with bS | bSr | bSI | bSIr => true | _ => false end.
(** baseKernels.py:14-15 [stationary_kerns], [non_stationary_kerns]. *)
Definition non_stationary (b : base) : bool :=
  match b with bWN | bC | bSE | bPER => false | _ => true end.

(** ** collections.Counter: insertion-ordered dictionary of integer counts *)
Definition counter : Type := list (base * Z).

(** [c[b]]: a missing key reads as 0 and is not inserted. *)
Definition cget (c : counter) (b : base) : Z := match dict_get base_eqb c b with Some n => n | None => 0 end.
Definition cset (c : counter) (b : base) (n : Z) : counter := dict_set base_eqb c b n.
(** [b in c]: key presence. *)
Definition chas (c : counter) (b : base) : bool := dict_has base_eqb c b.
(** [+c]: keep positive counts. *)
Definition cpos (c : counter) : counter := filter (fun kv => 0 <? snd kv) c.
(** [c.update(d)] with a mapping. *)
Definition cupdate (c d : counter) : counter :=
  fold_left (fun acc kv => cset acc (fst kv) (snd kv + cget acc (fst kv))) d c.
(** [c.update(l)] with an iterable of keys; [Counter(l)]. *)
Definition cupdate_list (c : counter) (l : list base) : counter :=
  fold_left (fun acc b => cset acc b (cget acc b + 1)) l c.
Definition counter_of (l : list base) : counter := cupdate_list [] l.
(** [a + b] and [a - b]: positive results only, keys of [a] first. *)
Definition cadd (a b : counter) : counter :=
  filter (fun kv => 0 <? snd kv) (map (fun kv => (fst kv, snd kv + cget b (fst kv))) a)
  ++ filter (fun kv => negb (chas a (fst kv)) && (0 <? snd kv)) b.
Definition csub (a b : counter) : counter :=
  filter (fun kv => 0 <? snd kv) (map (fun kv => (fst kv, snd kv - cget b (fst kv))) a)
  ++ map (fun kv => (fst kv, 0 - snd kv)) (filter (fun kv => negb (chas a (fst kv)) && (snd kv <? 0)) b).
(** [c.elements()]: each key repeated count times, in key order. *)
Definition celements (c : counter) : list base := concat (map (fun kv => repeat (fst kv) (Z.to_nat (snd kv))) c).
(** [sum(c.values())]. *)
Definition csum (c : counter) : Z := fold_left (fun acc kv => acc + snd kv) c 0.
(** [a == b] (python >= 3.10: missing counts are zero; all counters stored in expressions have positive counts, for
    which the older plain dictionary comparison is the same). *)
Definition ceqb (a b : counter) : bool := forallb (fun x => cget a x =? cget b x) (map fst a ++ map fst b).

(** ** Kernel expressions *)
Inductive kind : Type := KSum | KProd.
Inductive cpcw : Type := CP | CW.

(** [Comm KSum] is SumKE, [Comm KProd] is ProductKE, [Change] is ChangeKE; a branch of a Change is a bare base-kernel
    string ([inl]) or an expression ([inr]). *)
Inductive kex : Type :=
| Comm (k : kind) (bts : counter) (cts : list kex)
| Change (c : cpcw) (l r : base + kex).

Definition branch : Type := (base + kex)%type.

Definition kind_eqb (a b : kind) : bool :=
  match a, b with KSum, KSum | KProd, KProd => true | _, _ => false end.
Definition cpcw_eqb (a b : cpcw) : bool :=
  match a, b with CP, CP | CW, CW => true | _, _ => false end.

(** isinstance(ct, type(self)) (commutative_base.py:58). *)
Definition is_kind (k : kind) (e : kex) : bool :=
  match e with Comm k' _ _ => kind_eqb k k' | Change _ _ _ => false end.

(** ** __eq__ (commutative_base.py:29-30, change.py:27-28, genericUtil.py:100-105)
    [eq_dir true a b] is [a.__eq__(b)] and [eq_dir false a b] is [b.__eq__(a)], both by recursion on [a]:
    [eq_elems(self.cts, other.cts)] calls [cys.remove(x)], i.e. [y.__eq__(x)] for x in self.cts and y in other.cts, so
    the roles swap at each level.  The python [is] shortcut of [list.remove] agrees because [==] is reflexive (C01). *)
(** [eq_elems(xs, ys)] where each y is given as the test [fun x => y == x]. *)
Fixpoint eq_elems_cys {A : Type} (xs : list A) (cys : list (A -> bool)) : bool :=
  match xs with
  | [] => match cys with [] => true | _ => false end
  | x :: t => match list_remove (fun f => f x) cys with
              | None => false
              | Some cys' => eq_elems_cys t cys'
              end
  end.
(** [eq_elems(xs, ys)] where each x is given as the test [fun y => y == x]. *)
Fixpoint eq_elems_xs {A : Type} (xs : list (A -> bool)) (cys : list A) : bool :=
  match xs with
  | [] => match cys with [] => true | _ => false end
  | px :: t => match list_remove px cys with
               | None => false
               | Some cys' => eq_elems_xs t cys'
               end
  end.

Fixpoint eq_dir (d : bool) (a b : kex) {struct a} : bool :=
  match a, b with
  | Comm k bts cts, Comm k' bts' cts' =>
      kind_eqb k k'
      && (if d then ceqb bts bts' else ceqb bts' bts)
      && (if d then eq_elems_xs (map (eq_dir (negb d)) cts) cts' else eq_elems_cys cts' (map (eq_dir (negb d)) cts))
  | Change c l r, Change c' l' r' =>
      cpcw_eqb c c'
      && (match l, l' with
          | inl x, inl y => base_eqb x y
          | inr x, inr y => eq_dir d x y
          | _, _ => false end)
      && (match r, r' with
          | inl x, inl y => base_eqb x y
          | inr x, inr y => eq_dir d x y
          | _, _ => false end)
  | _, _ => false
  end.
Definition keq (a b : kex) : bool := eq_dir true a b.

(** ** Simplification.  [offset] is config.__USE_LIN_KERNEL_HORIZONTAL_OFFSET. *)
Section Simplify.
  Context (offset : bool).

  (** SumKE.simplify_base_terms (commutatives.py:15-24). *)
  Definition simp_base_sum (c : counter) : counter :=
    let c1 := if 1 <? cget c bWN then cset c bWN 1 else c in
    let c2 := if 1 <? cget c1 bC then cset c1 bC 1 else c1 in
    let c3 := if offset && (0 <? cget c2 bLIN) then cset c2 bC 0 else c2 in
    cpos c3.

  (** commutatives.py:78: total count of the sigmoids. *)
  Definition sigmoid_count (c : counter) : Z :=
    fold_left (fun acc sb => acc + cget c sb) [bS; bSr; bSI; bSIr] 0.

  (** ProductKE.simplify_base_terms (commutatives.py:71-82); [nct] is len(self.composite_terms), used by term_count
      (commutative_base.py:108-109). *)
  Definition simp_base_prod (c : counter) (nct : nat) : counter :=
    if 0 <? cget c bWN then
      cpos (filter (fun kv => match fst kv with bWN | bLIN => true | b => is_sigmoid b end) (cset c bWN 1))
    else
      let c1 := if 0 <? cget c bC
                then cset c bC (if (csum c + Z.of_nat nct) - sigmoid_count c =? cget c bC then 1 else 0)
                else c in
      let c2 := if 1 <? cget c1 bSE then cset c1 bSE 1 else c1 in
      cpos c2.

  Definition simp_base (k : kind) (c : counter) (nct : nat) : counter :=
    match k with KSum => simp_base_sum c | KProd => simp_base_prod c nct end.

  (** extract_if_singleton (commutative_base.py:52-55, change.py:35-36): the base term, the only composite, or self. *)
  Definition extract (e : kex) : branch :=
    match e with
    | Comm _ bts cts =>
        if (csum bts =? 1) && (Nat.eqb (length cts) 0)
        then match celements bts with b :: _ => inl b | [] => inr e end (* list(...)[0]; non-empty since the sum is 1 *)
        else if (csum bts =? 0) && (Nat.eqb (length cts) 1)
             then match cts with ct :: _ => inr ct | [] => inr e end
             else inr e
    | Change _ _ _ => inr e
    end.

  (** absorb_homogeneous_composites (commutative_base.py:57-65): each same-type composite's base terms and composites move up;
      the base terms are simplified while the absorbed composite is still counted; [remove] drops the first == element. *)
  Definition absorb_one (k : kind) (st : counter * list kex) (hc : kex) : counter * list kex :=
    match hc with
    | Comm _ hb hcs =>
        let b := simp_base k (cupdate (fst st) hb) (length (snd st)) in
        let cs := snd st ++ hcs in
        (b, match list_remove (fun y => keq y hc) cs with Some r => r | None => cs end)
    | Change _ _ _ => st
    end.
  Definition absorb_homogeneous (k : kind) (bts : counter) (cts : list kex) : counter * list kex :=
    fold_left (absorb_one k) (filter (is_kind k) cts) (bts, cts).

  (** absorb_singletons (commutative_base.py:44-47) with new_base (93-99). *)
  Definition bases_of (l : list branch) : list base :=
    concat (map (fun x => match x with inl b => [b] | inr _ => [] end) l).
  Definition kexs_of (l : list branch) : list kex :=
    concat (map (fun x => match x with inl _ => [] | inr e => [e] end) l).
  Definition absorb_singletons (k : kind) (bts : counter) (cts : list kex) : counter * list kex :=
    let ex := map extract cts in
    let cts' := kexs_of ex in
    (simp_base k (cupdate_list bts (bases_of ex)) (length cts'), cts').

  (** SumOrProductKE.simplify (commutative_base.py:36-38) once the composites are simplified. *)
  Definition simp_node (k : kind) (bts : counter) (cts : list kex) : kex :=
    let h := absorb_homogeneous k bts cts in
    let s := absorb_singletons k (fst h) (snd h) in
    Comm k (simp_base k (fst s) (length (snd s))) (snd s).

  (** simplify (commutative_base.py:36-38, change.py:30-33). *)
  Fixpoint simplify (e : kex) : kex :=
    match e with
    | Comm k bts cts => simp_node k bts (map simplify cts)
    | Change c l r =>
        Change c (match l with inl b => inl b | inr x => extract (simplify x) end)
                 (match r with inl b => inl b | inr x => extract (simplify x) end)
    end.

  (** Constructors: SumKE(bts, cts), ProductKE(bts, cts) (commutative_base.py:12-19) with a Counter of base terms, and with a list;
      ChangeKE(c, l, r) (change.py:12-19).  All copy their arguments and simplify. *)
  Definition mk (k : kind) (bts : counter) (cts : list kex) : kex := simplify (Comm k bts cts).
  Definition mkl (k : kind) (bts : list base) (cts : list kex) : kex := mk k (counter_of bts) cts.
  Definition mk_change (c : cpcw) (l r : branch) : kex := simplify (Change c l r).

  (** _initialise (base.py:89-90), without the pointers. *)
  Definition initialise (e : kex) : kex := simplify e.

  (** term_count (commutative_base.py:108-109); [None] on a Change, which has no such method. *)
  Definition term_count (e : kex) : option Z :=
    match e with Comm _ bts cts => Some (csum bts + Z.of_nat (length cts)) | Change _ _ _ => None end.

  (** traverse (commutative_base.py:67-68, change.py:38-43): pre-order; a bare string branch gives a new singleton SumKE. *)
  Fixpoint traverse (e : kex) : list kex :=
    match e with
    | Comm k bts cts => e :: concat (map traverse cts)
    | Change c l r =>
        e :: (match l with inl b => [mkl KSum [b] []] | inr x => traverse x end)
          ++ (match r with inl b => [mkl KSum [b] []] | inr x => traverse x end)
    end.

  (** reduce (commutative_base.py:70-71, change.py:45-50). *)
  Fixpoint kreduce {A : Type} (func : kex -> A -> A) (e : kex) (acc : A) : A :=
    match e with
    | Comm k bts cts => fold_left (fun acc2 f => f acc2) (map (kreduce func) cts) (func e acc)
    | Change c l r =>
        let fl := match l with inl b => func (mkl KSum [b] []) | inr x => kreduce func x end in
        let fr := match r with inl b => func (mkl KSum [b] []) | inr x => kreduce func x end in
        fr (fl (func e acc))
    end.
End Simplify.

(** contains_base with a list of names (commutative_base.py:111-113, change.py:76-78). *)
Fixpoint contains_base (bs : list base) (e : kex) : bool :=
  match e with
  | Comm _ bts cts => existsb (fun b => chas bts b) bs || existsb (contains_base bs) cts
  | Change _ l r =>
      (match l with inl b => existsb (base_eqb b) bs | inr x => contains_base bs x end)
      || (match r with inl b => existsb (base_eqb b) bs | inr x => contains_base bs x end)
  end.

(** is_stationary (commutative_base.py:115-116, change.py:80-81). *)
Fixpoint is_stationary (e : kex) : bool :=
  match e with
  | Comm _ bts cts => forallb (fun ns => negb (chas bts ns)) (filter non_stationary all_bases) && forallb is_stationary cts
  | Change _ _ _ => false
  end.
