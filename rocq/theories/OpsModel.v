(** Model of GPy_ABCD/KernelExpansion/kernelExpressionOperations.py and grammar.py.

    Operands are python strings ([inl b]) or kernel expressions ([inr e]).  Object identity matters in one place only (the
    [is] test of ChangeKE.reassign_child) and is represented by the address of the node.  Operands are trees: an expression
    object occurring twice in one composite list is modelled as two equal expressions. *)
From Coq Require Import String List Bool Arith ZArith.
From Verif Require Import Py UtilModel KexModel.
Import ListNotations.
Local Open Scope list_scope.
Local Open Scope Z_scope.

Section Ops.
  Context (offset : bool).
  Notation SumKE := (mk offset KSum).
  Notation ProductKE := (mk offset KProd).
  Notation ChangeKE := (mk_change offset).
  Notation SumL := (mkl offset KSum).
  Notation ProductL := (mkl offset KProd).

  (** kernelExpressionOperations.py:20-49 [add] with with_nested_case = False; kernelUtil.py:6-8 [sortOutTypePair] sorts the
      operands by type, [list(pair.values())] keeps the argument order. *)
  Definition add (k1 k2 : branch) : kex :=
    match k1, k2 with
    | inr (Comm KSum b1 c1), inr (Comm KSum b2 c2) => SumKE (cadd (cpos b1) b2) (c1 ++ c2)
    | inr (Comm KProd b1 c1), inr (Comm KProd b2 c2) => SumL [] [Comm KProd b1 c1; Comm KProd b2 c2]
    | inr (Change o1 l1 r1), inr (Change o2 l2 r2) => SumL [] [Change o1 l1 r1; Change o2 l2 r2]
    | inl x, inl y => SumL [x; y] []
    | inl x, inr (Comm KSum b c) | inr (Comm KSum b c), inl x => SumKE (cadd (cpos b) (counter_of [x])) c
    | inl x, inr e | inr e, inl x => SumL [x] [e]
    | inr (Comm KSum b c), inr (Comm KProd b' c') | inr (Comm KProd b' c'), inr (Comm KSum b c) =>
        SumKE (cpos b) (c ++ [Comm KProd b' c'])
    | inr (Comm KSum b c), inr (Change o l r) | inr (Change o l r), inr (Comm KSum b c) =>
        SumKE (cpos b) (c ++ [Change o l r])
    | inr e1, inr e2 => SumL [] [e1; e2]
    end.
  (** [add] with with_nested_case = True (the default): base + Product also adds the base to each factor. *)
  Definition add_nested (k1 k2 : branch) : list kex :=
    match k1, k2 with
    | inl x, inr (Comm KProd b c) | inr (Comm KProd b c), inl x =>
        SumL [x] [Comm KProd b c]
        :: map (fun bt => ProductKE (csub (cpos b) (counter_of [bt])) (c ++ [SumL [x; bt] []])) (celements b)
    | _, _ => [add k1 k2]
    end.

  (** kernelExpressionOperations.py:52-81 [multiply]. *)
  Definition multiply (k1 k2 : branch) : kex :=
    match k1, k2 with
    | inr (Comm KProd b1 c1), inr (Comm KProd b2 c2) => ProductKE (cadd (cpos b1) b2) (c1 ++ c2)
    | inr (Comm KSum b1 c1), inr (Comm KSum b2 c2) => ProductL [] [Comm KSum b1 c1; Comm KSum b2 c2]
    | inr (Change o1 l1 r1), inr (Change o2 l2 r2) => ProductL [] [Change o1 l1 r1; Change o2 l2 r2]
    | inl x, inl y => ProductL [x; y] []
    | inl x, inr (Comm KProd b c) | inr (Comm KProd b c), inl x => ProductKE (cadd (cpos b) (counter_of [x])) c
    | inl x, inr e | inr e, inl x => ProductL [x] [e]
    | inr (Comm KProd b c), inr (Comm KSum b' c') | inr (Comm KSum b' c'), inr (Comm KProd b c) =>
        ProductKE (cpos b) (c ++ [Comm KSum b' c'])
    | inr (Comm KProd b c), inr (Change o l r) | inr (Change o l r), inr (Comm KProd b c) =>
        ProductKE (cpos b) (c ++ [Change o l r])
    | inr e1, inr e2 => ProductL [] [e1; e2]
    end.
  Definition multiply_nested (k1 k2 : branch) : list kex :=
    match k1, k2 with
    | inl x, inr (Comm KSum b c) | inr (Comm KSum b c), inl x =>
        ProductL [x] [Comm KSum b c]
        :: map (fun bt => SumKE (csub (cpos b) (counter_of [bt])) (c ++ [ProductL [x; bt] []])) (celements b)
    | _, _ => [multiply k1 k2]
    end.

  (** The dictionary literal [{bt: -1, B: 1}]: a repeated key keeps the last value. *)
  Definition swap_counter (bt B : base) : counter := cset (cset [] bt (-1)) B 1.

  (** kernelExpressionOperations.py:84-93 [swap_base] (on an expression).  [swap_args] are the arguments of the constructor calls for
      Sum and Product. *)
  Definition swap_args (bts : counter) (B : base) : list counter :=
    map (fun bt => cadd (cpos bts) (swap_counter bt B)) (map fst (cpos bts)).
  Definition swap_base (S : kex) (B : base) : list kex :=
    match S with
    | Comm k bts cts => map (fun c => mk offset k c cts) (swap_args bts B)
    | Change o l r =>
        (match l with inl b => if base_eqb b B then [] else [ChangeKE o (inl B) r] | inr _ => [] end)
        ++ (match r with inl b => if base_eqb b B then [] else [ChangeKE o l (inl B)] | inr _ => [] end)
    end.

  (** [S2 == S] for operands: strings and expressions are never equal. *)
  Definition branch_eqb (a b : branch) : bool :=
    match a, b with inl x, inl y => base_eqb x y | inr x, inr y => keq x y | _, _ => false end.
  (** kernelExpressionOperations.py:96-98 [one_change]; [None] is python's default S2 = None. *)
  Definition one_change (S : branch) (o : cpcw) (S2 : option branch) : list kex :=
    match S2 with
    | None => [ChangeKE o S S]
    | Some s2 => if branch_eqb s2 S then [ChangeKE o S S] else [ChangeKE o S s2; ChangeKE o s2 S]
    end.
  (** kernelExpressionOperations.py:101-106 [both_changes]. *)
  Definition both_changes (S : branch) (S2 : option branch) : list kex :=
    concat (map (fun o => match S2 with
                          | None => [ChangeKE o S S]
                          | Some s2 => if branch_eqb s2 S then [ChangeKE o S S] else [ChangeKE o S s2; ChangeKE o s2 S]
                          end) [CP; CW]).

  (** kernelExpressionOperations.py:109-110 [replace_node]. *)
  Definition replace_node (S : kex) (S2 : branch) : list kex :=
    match S2 with inl b => [SumL [b] []] | inr e => [e] end.

  (** kernelExpressionOperations.py:113-124 [remove_a_term] (on an expression); [remove_args]: arguments of the constructor calls. *)
  Definition drop_nth {A : Type} (i : nat) (l : list A) : list A := firstn i l ++ skipn (S i) l.
  Definition remove_args (bts : counter) (cts : list kex) : list (counter * list kex) :=
    if 1 <? csum bts + Z.of_nat (length cts) then
      map (fun bt => (cadd (cpos bts) [(bt, -1)], cts)) (map fst (cpos bts))
      ++ map (fun i => (cpos bts, drop_nth i cts)) (seq 0 (length cts))
    else [].
  Definition remove_a_term (S : kex) : list kex :=
    match S with
    | Comm k bts cts => map (fun a => mk offset k (fst a) (snd a)) (remove_args bts cts)
    | Change _ l r => map (fun br => match br with inl b => SumL [b] [] | inr e => e end) [l; r]
    end.

  (** kernelExpressionOperations.py:127-145 [higher_curves] ([del] on a Counter ignores missing keys). *)
  Definition higher_kers : list kex := [ProductL [bLIN; bLIN] []; ProductL [bLIN; bLIN; bLIN] []].
  Definition del_se (e : kex) : kex :=
    match e with Comm k bts cts => Comm k (dict_del base_eqb bts bSE) cts | Change _ _ _ => e end.
  Definition higher_curves (S : kex) : list kex :=
    match S with
    | Comm KSum bts cts =>
        let res := map (fun ct => SumKE (cpos bts) (cts ++ [ct])) higher_kers in
        if chas (cpos bts) bSE then map del_se res else res
    | Comm KProd bts cts =>
        let res := map (fun c => ProductKE (cadd (cpos bts) c) cts)
                       [[(bLIN, 2)]; [(bLIN, 3)]; (if chas (cpos bts) bPER then [(bPER, 1)] else [(bPER, 2)])] in
        if chas (cpos bts) bSE then map del_se res else res
    | Change o l r =>
        (match l with inl _ => map (fun ct => ChangeKE o (inr ct) r) higher_kers | inr _ => [] end)
        ++ (match r with inl _ => map (fun ct => ChangeKE o l (inr ct)) higher_kers | inr _ => [] end)
    end.

  (** ** grammar.py *)

  (** commutative_base.py:49-50 [_is_singleton]. *)
  Definition is_singleton (bts : counter) (cts : list kex) : bool := csum bts + Z.of_nat (length cts) =? 1.

  (** grammar.py:10-14 [standardise_singleton_root].  The python recursion is on the extracted composite; [fuel] bounds its depth, and the
      size of the expression always suffices ([standardise_unfold]). *)
  Fixpoint standardise_fuel (fuel : nat) (e : kex) : kex :=
    let s := simplify offset e in
    match fuel with
    | O => s
    | S n =>
        match s with
        | Comm k bts cts =>
            match extract s with
            | inl b => SumL [b] []
            | inr x => if is_singleton bts cts then standardise_fuel n x else s
            end
        | Change _ _ _ => s
        end
    end.
  Fixpoint size (e : kex) : nat :=
    match e with
    | Comm _ _ cts => S (list_sum (map size cts))
    | Change _ l r => S ((match l with inl _ => 0 | inr x => size x end) + (match r with inl _ => 0 | inr x => size x end))
    end.
  Definition standardise (e : kex) : kex := standardise_fuel (size e) e.

  (** new_tree_with_self_replaced (base.py:92-98) for every node listed by traverse: the node and the function from its replacement to the new
      tree.  reassign_child: commutative_base.py:88-91 removes the first == child and appends; change.py:71-74 writes the left branch if
      it is the replaced object, else the right one, so the temporary node standing for a string on the left (change.py:41) writes the right one. *)
  Definition set_nth {A : Type} (i : nat) (l : list A) (x : A) : list A := firstn i l ++ x :: skipn (S i) l.
  Definition remove_eq (c : kex) (cts : list kex) : list kex :=
    match list_remove (fun y => keq y c) cts with Some r => r | None => cts end.
  Fixpoint occs_below (e : kex) : list (kex * (kex -> kex)) :=
    match e with
    | Comm k bts cts =>
        concat (map (fun ico : nat * (kex * list (kex * (kex -> kex))) =>
                       let i := fst ico in let c := fst (snd ico) in
                       (c, fun n => Comm k bts (remove_eq c cts ++ [n]))
                       :: map (fun xf => (fst xf, fun n => Comm k bts (set_nth i cts (snd xf n)))) (snd (snd ico)))
                    (combine (seq 0 (length cts)) (map (fun c => (c, occs_below c)) cts)))
    | Change o l r =>
        (match l with
         | inl b => [(SumL [b] [], fun n => Change o l (inr n))]
         | inr x => (x, fun n => Change o (inr n) r) :: map (fun xf => (fst xf, fun n => Change o (inr (snd xf n)) r)) (occs_below x)
         end)
        ++ (match r with
            | inl b => [(SumL [b] [], fun n => Change o l (inr n))]
            | inr x => (x, fun n => Change o l (inr n)) :: map (fun xf => (fst xf, fun n => Change o l (inr (snd xf n)))) (occs_below x)
            end)
    end.
  Definition occs (e : kex) : list (kex * (kex -> kex)) := (e, fun n => n) :: occs_below e.

  (** A production rule gives, for a node, lists of replacement nodes (one list per deep_apply call; grammar.py:23). *)
  Definition rule : Type := kex -> list (list kex).
  (** grammar.py:20 [expand_node]: replacement nodes are compared, not whole trees. *)
  Definition expand_node (rules : list rule) (n : kex) : list kex :=
    unique keq (concat (concat (map (fun pr : rule => pr n) rules))).
  (** grammar.py:16,18 [roots], [expand]. *)
  Definition expand (rules : list rule) (e : kex) : list kex :=
    unique keq (map standardise (concat (map (fun nf => map (snd nf) (expand_node rules (fst nf))) (occs e)))).

  (** grammar.py:32-71: the built-in rules.  [bases] is base_kerns_for_prod (a frozenset) in its iteration order; [bases - {'C'}] keeps
      the others in an order that is again arbitrary, hence the separate argument [noC]. *)
  Section Rules.
    Context (bases noC : list base).
    Definition plus_base : rule := fun S => map (fun B => add_nested (inr S) (inl B)) bases.
    Definition times_base : rule := fun S => map (fun B => multiply_nested (inr S) (inl B)) noC.
    Definition replace_base : rule := fun S => map (fun B => swap_base S B) bases.
    Definition change_new_base : rule := fun S => map (fun B => both_changes (inr S) (Some (inl B))) noC.
    Definition change_same : rule := fun S => [both_changes (inr S) None].
    Definition change_window_constant : rule := fun S => [one_change (inr S) CW (Some (inl bC))].
    Definition change_window_linear : rule := fun S => [one_change (inr S) CW (Some (inl bLIN))].
    Definition change_point_linear : rule := fun S => [one_change (inr S) CP (Some (inl bLIN))].
    Definition times_shifted_base : rule := fun S => map (fun B => multiply_nested (inr S) (inr (SumL [B; bC] []))) noC.
    Definition replace_with_singleton : rule := fun S => map (fun B => replace_node S (inr (SumL [B] []))) bases.
    Definition remove_some_term : rule := fun S => [remove_a_term S].
    Definition try_higher_curves : rule := fun S => [higher_curves S].

    (** grammar.py:99-104 (the iteration order of the dictionaries is their insertion order). *)
    Definition rules_all : list rule :=
      [plus_base; times_base; replace_base; change_new_base; change_same; change_point_linear; change_window_constant;
       change_window_linear; times_shifted_base; replace_with_singleton; remove_some_term; try_higher_curves].
    Definition rules_original : list rule :=
      [plus_base; times_base; replace_base; change_same; change_window_constant; times_shifted_base; replace_with_singleton; remove_some_term].
    Definition rules_minimal : list rule := [plus_base; times_base; replace_base; change_same].
    Definition rules_default : list rule :=
      [plus_base; times_base; replace_base; change_point_linear; change_window_linear; times_shifted_base; replace_with_singleton; remove_some_term].
  End Rules.

  (** ** Start kernels.  A user-given item: an expression, or a string. *)
  Definition base_of_name (s : string) : option base :=
    if String.eqb s "WN" then Some bWN else if String.eqb s "C" then Some bC else if String.eqb s "LIN" then Some bLIN
    else if String.eqb s "SE" then Some bSE else if String.eqb s "PER" then Some bPER else None.
  (** grammar.py:110-113 [pseudo_to_real_kex] (baseKernels.py:11 base_kerns). *)
  Definition pseudo_to_real_kex (p : string + kex) : res kex :=
    match p with
    | inr e => Ok e
    | inl s => match base_of_name s with Some b => Ok (SumL [b] []) | None => Raise EValueError end
    end.
  (** grammar.py:114 [make_simple_kexs]. *)
  Definition make_simple_kexs (ps : list (string + kex)) : res (list kex) :=
    mapM (fun p => rmap (initialise offset) (pseudo_to_real_kex p)) ps.

  (** grammar.py:119-131 [start_kernels]; [names] is list(base_kerns - {'SE'}) in its iteration order. *)
  Definition start_extra : list (string + kex) :=
    [inr (ProductL [bLIN; bLIN] []); inr (ProductL [bLIN; bLIN; bLIN] []); inr (SumL [bPER; bC] [])].
  Definition with_lin_c (l : res (list kex)) : res (list kex) :=
    if offset then l else do a <- l; do b <- make_simple_kexs [inr (SumL [bLIN; bC] [])]; Ok (a ++ b).
  Definition start_default (names : list string) : res (list kex) :=
    with_lin_c (make_simple_kexs (map inl names ++ start_extra ++ map inr (both_changes (inl bLIN) None))).
  Definition start_extended (names : list string) : res (list kex) :=
    with_lin_c (make_simple_kexs (map inl names ++ start_extra ++ map (fun ck => inr (SumL [bC] [ck])) (both_changes (inl bLIN) None))).
  Definition start_original : res (list kex) := with_lin_c (make_simple_kexs [inl "WN"%string]).
End Ops.
