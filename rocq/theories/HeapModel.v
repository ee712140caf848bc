(** Object-level model of kernel expressions: nodes with identities, root and parent pointers, in-place updates and deep copies
    (base.py:22-27,67-98, commutative_base.py:12-19,36-106, change.py:12-19,30-74, kernelExpressionOperations.py, grammar.py:10-71).
    The other models work on plain trees; [expand] below is shown to compute the same trees (HeapProps.v). *)
From Coq Require Import List Bool Arith ZArith NArith.
From Verif Require Import Py UtilModel KexModel OpsModel.
Import ListNotations.
Local Open Scope list_scope.

(** ** Objects *)
Definition ref : Type := N.
(** The data fields; [parameters] (empty before a fit), [symbol] and [GPy_name] (constants of the class) are left out. *)
Inductive body : Type :=
| BComm (k : kind) (base_terms : counter) (composite_terms : list ref)
| BChange (c : cpcw) (left right : base + ref).
Record object : Type := Obj { root : option ref; parent : option ref; data : body }.
(** [next]: the first unused reference. *)
Record heap : Type := Heap { next : ref; obj : ref -> object }.

(** Computations: [None] stands for an exception (AssertionError, ValueError, RecursionError). The first argument of the recursive
    functions below is the recursion limit. *)
Definition HM (A : Type) : Type := heap -> option (A * heap).
Definition hret {A : Type} (a : A) : HM A := fun h => Some (a, h).
Definition hbind {A B : Type} (m : HM A) (f : A -> HM B) : HM B := fun h => match m h with Some (a, h') => f a h' | None => None end.
Definition hfail {A : Type} : HM A := fun _ => None.
Notation "'let*' x := m 'in' f" := (hbind m (fun x => f)) (at level 200, x pattern, m at level 100, f at level 200).
Fixpoint hmap {A B : Type} (f : A -> HM B) (l : list A) : HM (list B) :=
  match l with
  | [] => hret []
  | x :: t => let* y := f x in let* ys := hmap f t in hret (y :: ys)
  end.
Definition hbranch {A : Type} (f : ref -> HM A) (l : base + ref) : HM (base + A) :=
  match l with inl b => hret (inl b) | inr i => let* x := f i in hret (inr x) end.

Definition get (i : ref) : HM object := fun h => Some (obj h i, h).
Definition put (i : ref) (o : object) : HM Datatypes.unit := fun h => Some (tt, Heap (next h) (fun j => if N.eqb j i then o else obj h j)).
Definition alloc (o : object) : HM ref := fun h => Some (next h, Heap (N.succ (next h)) (fun j => if N.eqb j (next h) then o else obj h j)).
Definition set_data (i : ref) (b : body) : HM Datatypes.unit := let* o := get i in put i (Obj (root o) (parent o) b).
(** base.py:77-79 *)
Definition set_parent (i : ref) (p : option ref) : HM Datatypes.unit := let* o := get i in put i (Obj (root o) p (data o)).

(** copy.deepcopy copies every object that can be reached from its argument, through the data fields, [root] and [parent], each once.  Here all
    objects are copied; the copies of the others cannot be reached from anywhere. The result is the distance between an object and its copy. *)
Definition shift_body (n : ref) (b : body) : body :=
  match b with
  | BComm k bts cts => BComm k bts (map (N.add n) cts)
  | BChange c l r => BChange c (match l with inl b => inl b | inr i => inr (N.add n i) end) (match r with inl b => inl b | inr i => inr (N.add n i) end)
  end.
Definition shift (n : ref) (o : object) : object := Obj (option_map (N.add n) (root o)) (option_map (N.add n) (parent o)) (shift_body n (data o)).
Definition deepcopy : HM ref := fun h =>
  Some (next h, Heap (N.add (next h) (next h)) (fun j => if N.ltb j (next h) then obj h j else shift (next h) (obj h (N.sub j (next h))))).

(** ** Methods *)
(** The tree of an object: __eq__ (commutative_base.py:29-30, change.py:27-28) compares these ([keq]). *)
Fixpoint read (n : nat) (i : ref) : HM kex :=
  match n with
  | O => hfail
  | S m =>
      let* o := get i in
      match data o with
      | BComm k bts cts => let* es := hmap (read m) cts in hret (Comm k bts es)
      | BChange c l r => let* l' := hbranch (read m) l in let* r' := hbranch (read m) r in hret (Change c l' r')
      end
  end.
Definition equal (n : nat) (a b : ref) : HM bool := let* x := read n a in let* y := read n b in hret (keq x y).
(** list.remove: ValueError if there is no equal element *)
Fixpoint remove (n : nat) (c : ref) (l : list ref) : HM (list ref) :=
  match l with
  | [] => hfail
  | y :: t => let* e := equal n y c in if e then hret t else let* r := remove n c t in hret (y :: r)
  end.

(** commutative_base.py:73-77, change.py:52-57 *)
Fixpoint set_root (n : nat) (i : ref) (new_root : option ref) : HM Datatypes.unit :=
  match n with
  | O => hfail
  | S m =>
      let r := match new_root with None => i | Some r => r end in
      let* o := get i in
      let* _ := put i (Obj (Some r) (parent o) (data o)) in
      match data o with
      | BComm _ _ cts => let* _ := hmap (fun c => set_root m c (Some r)) cts in hret tt
      | BChange _ x y => let* _ := hbranch (fun c => set_root m c (Some r)) x in let* _ := hbranch (fun c => set_root m c (Some r)) y in hret tt
      end
  end.
(** commutative_base.py:79-83, change.py:59-66 *)
Fixpoint set_all_parents (n : nat) (i : ref) : HM Datatypes.unit :=
  match n with
  | O => hfail
  | S m =>
      let* o := get i in
      let child c := let* _ := set_parent c (Some i) in set_all_parents m c in
      match data o with
      | BComm _ _ cts => let* _ := hmap child cts in hret tt
      | BChange _ x y => let* _ := hbranch child x in let* _ := hbranch child y in hret tt
      end
  end.

Section Methods.
  Context (offset : bool).

  (** extract_if_singleton (commutative_base.py:52-55, change.py:35-36) *)
  Definition extract (i : ref) : HM (base + ref) :=
    let* o := get i in
    match data o with
    | BComm _ bts cts =>
        if Z.eqb (csum bts) 1 && Nat.eqb (length cts) 0 then match celements bts with b :: _ => hret (inl b) | [] => hfail end
        else if Z.eqb (csum bts) 0 && Nat.eqb (length cts) 1
             then match cts with c :: _ => let* _ := set_parent c (parent o) in hret (inr c) | [] => hfail end
             else hret (inr i)
    | BChange _ _ _ => hret (inr i)
    end.
  (** isinstance(ct, type(self)) *)
  Definition has_kind (k : kind) (i : ref) : HM bool :=
    let* o := get i in hret (match data o with BComm k' _ _ => kind_eqb k k' | BChange _ _ _ => false end).
  (** The loop of absorb_homogeneous_composites (commutative_base.py:59-64) for one same-type composite [hc] of [i] *)
  Definition absorb (n : nat) (i hc : ref) : HM Datatypes.unit :=
    let* o := get i in
    let* ho := get hc in
    match data o, data ho with
    | BComm k bts cts, BComm _ hb hcts =>
        let bts' := simp_base offset k (cupdate bts hb) (length cts) in
        let* _ := set_data i (BComm k bts' cts) in
        let* _ := hmap (fun c => set_parent c (Some i)) hcts in
        let* r := remove n hc (cts ++ hcts) in
        set_data i (BComm k bts' r)
    | _, _ => hfail
    end.
  (** simplify (commutative_base.py:36-38,44-47,57-65, change.py:30-33), which returns the object itself *)
  Fixpoint simplify (n : nat) (i : ref) : HM Datatypes.unit :=
    match n with
    | O => hfail
    | S m =>
        let* o := get i in
        match data o with
        | BComm k _ cts =>
            let* _ := hmap (simplify m) cts in
            let* hs := hmap (has_kind k) cts in
            let* _ := hmap (absorb m i) (map fst (filter snd (combine cts hs))) in
            let* o := get i in
            match data o with
            | BComm _ bts cts =>
                let* ex := hmap extract cts in
                let bs := concat (map (fun x => match x with inl b => [b] | inr _ => [] end) ex) in
                let cs := concat (map (fun x => match x with inl _ => [] | inr c => [c] end) ex) in
                set_data i (BComm k (simp_base offset k (simp_base offset k (cupdate_list bts bs) (length cs)) (length cs)) cs)
            | BChange _ _ _ => hfail
            end
        | BChange c l r =>
            let child b := match b with inl b => hret (inl b) | inr x => let* _ := simplify m x in extract x end in
            let* l' := child l in
            let* _ := set_data i (BChange c l' r) in
            let* r' := child r in
            set_data i (BChange c l' r')
        end
    end.

  (** SumKE, ProductKE (commutative_base.py:12-19, with a Counter of base terms; root = parent = None) *)
  Definition new_comm (n : nat) (k : kind) (bts : counter) (cts : list ref) : HM ref :=
    let* d := deepcopy in
    let* i := alloc (Obj None None (BComm k bts (map (N.add d) cts))) in
    let* _ := simplify n i in
    let* o := get i in
    match data o with
    | BComm _ _ cts => let* _ := hmap (fun c => let* _ := set_parent c (Some i) in set_root n c (root o)) cts in hret i
    | BChange _ _ _ => hfail
    end.
  Definition new_list (n : nat) (k : kind) (bs : list base) (cts : list ref) : HM ref := new_comm n k (counter_of bs) cts.
  (** ChangeKE (change.py:12-19); the branches are copied separately *)
  Definition copy_branch (b : base + ref) : HM (base + ref) := hbranch (fun i => let* d := deepcopy in hret (N.add d i)) b.
  Definition new_change (n : nat) (c : cpcw) (l r : base + ref) : HM ref :=
    let* l' := copy_branch l in
    let* r' := copy_branch r in
    let* i := alloc (Obj None None (BChange c l' r')) in
    let* _ := simplify n i in
    let* o := get i in
    match data o with
    | BChange _ l' r' =>
        let child x := let* _ := set_parent x (Some i) in set_root n x (root o) in
        let* _ := hbranch child l' in
        let* _ := hbranch child r' in
        hret i
    | BComm _ _ _ => hfail
    end.
  (** _initialise (base.py:89-90) *)
  Definition initialise (n : nat) (i : ref) : HM ref :=
    let* _ := set_root n i None in
    let* _ := set_all_parents n i in
    let* _ := simplify n i in
    hret i.

  (** traverse (commutative_base.py:67-68, change.py:38-43) *)
  Fixpoint traverse (n : nat) (i : ref) : HM (list ref) :=
    match n with
    | O => hfail
    | S m =>
        let* o := get i in
        match data o with
        | BComm _ _ cts => let* ls := hmap (traverse m) cts in hret (i :: concat ls)
        | BChange _ l r =>
            let child b :=
              match b with
              | inr x => traverse m x
              | inl b => let* s := new_list m KSum [b] [] in let* _ := set_root m s (root o) in let* _ := set_parent s (Some i) in hret [s]
              end in
            let* ls := child l in
            let* rs := child r in
            hret (i :: ls ++ rs)
        end
    end.

  (** ** kernelExpressionOperations.py; operands are strings or objects *)
  Definition operand : Type := (base + ref)%type.
  Definition view (k : operand) : HM (base + (ref * body)) :=
    match k with inl b => hret (inl b) | inr i => let* o := get i in hret (inr (i, data o)) end.
  Definition the_list (m : HM ref) : HM (list ref) := let* i := m in hret [i].
  (** kernelExpressionOperations.py:20-49 [add] with with_nested_case = True *)
  Definition add (n : nat) (k1 k2 : operand) : HM (list ref) :=
    let* v1 := view k1 in
    let* v2 := view k2 in
    match v1, v2 with
    | inr (_, BComm KSum b1 c1), inr (_, BComm KSum b2 c2) => the_list (new_comm n KSum (cadd (cpos b1) b2) (c1 ++ c2))
    | inr (i1, BComm KProd _ _), inr (i2, BComm KProd _ _) => the_list (new_list n KSum [] [i1; i2])
    | inr (i1, BChange _ _ _), inr (i2, BChange _ _ _) => the_list (new_list n KSum [] [i1; i2])
    | inl x, inl y => the_list (new_list n KSum [x; y] [])
    | inl x, inr (_, BComm KSum b c) | inr (_, BComm KSum b c), inl x => the_list (new_comm n KSum (cadd (cpos b) (counter_of [x])) c)
    | inl x, inr (i, BComm KProd b c) | inr (i, BComm KProd b c), inl x =>
        let* res := new_list n KSum [x] [i] in
        let* more := hmap (fun bt => let* s := new_list n KSum [x; bt] [] in new_comm n KProd (csub (cpos b) (counter_of [bt])) (c ++ [s])) (celements b) in
        hret (res :: more)
    | inl x, inr (i, BChange _ _ _) | inr (i, BChange _ _ _), inl x => the_list (new_list n KSum [x] [i])
    | inr (_, BComm KSum b c), inr (i, BComm KProd _ _) | inr (i, BComm KProd _ _), inr (_, BComm KSum b c) =>
        the_list (new_comm n KSum (cpos b) (c ++ [i]))
    | inr (_, BComm KSum b c), inr (i, BChange _ _ _) | inr (i, BChange _ _ _), inr (_, BComm KSum b c) =>
        the_list (new_comm n KSum (cpos b) (c ++ [i]))
    | inr (i1, _), inr (i2, _) => the_list (new_list n KSum [] [i1; i2])
    end.
  (** kernelExpressionOperations.py:52-81 [multiply] *)
  Definition multiply (n : nat) (k1 k2 : operand) : HM (list ref) :=
    let* v1 := view k1 in
    let* v2 := view k2 in
    match v1, v2 with
    | inr (_, BComm KProd b1 c1), inr (_, BComm KProd b2 c2) => the_list (new_comm n KProd (cadd (cpos b1) b2) (c1 ++ c2))
    | inr (i1, BComm KSum _ _), inr (i2, BComm KSum _ _) => the_list (new_list n KProd [] [i1; i2])
    | inr (i1, BChange _ _ _), inr (i2, BChange _ _ _) => the_list (new_list n KProd [] [i1; i2])
    | inl x, inl y => the_list (new_list n KProd [x; y] [])
    | inl x, inr (_, BComm KProd b c) | inr (_, BComm KProd b c), inl x => the_list (new_comm n KProd (cadd (cpos b) (counter_of [x])) c)
    | inl x, inr (i, BComm KSum b c) | inr (i, BComm KSum b c), inl x =>
        let* res := new_list n KProd [x] [i] in
        let* more := hmap (fun bt => let* s := new_list n KProd [x; bt] [] in new_comm n KSum (csub (cpos b) (counter_of [bt])) (c ++ [s])) (celements b) in
        hret (res :: more)
    | inl x, inr (i, BChange _ _ _) | inr (i, BChange _ _ _), inl x => the_list (new_list n KProd [x] [i])
    | inr (_, BComm KProd b c), inr (i, BComm KSum _ _) | inr (i, BComm KSum _ _), inr (_, BComm KProd b c) =>
        the_list (new_comm n KProd (cpos b) (c ++ [i]))
    | inr (_, BComm KProd b c), inr (i, BChange _ _ _) | inr (i, BChange _ _ _), inr (_, BComm KProd b c) =>
        the_list (new_comm n KProd (cpos b) (c ++ [i]))
    | inr (i1, _), inr (i2, _) => the_list (new_list n KProd [] [i1; i2])
    end.
  (** kernelExpressionOperations.py:84-93 [swap_base] *)
  Definition swap_base (n : nat) (s : ref) (B : base) : HM (list ref) :=
    let* o := get s in
    match data o with
    | BComm k bts cts => hmap (fun c => new_comm n k c cts) (swap_args bts B)
    | BChange c l r =>
        let* ls := match l with inl b => if base_eqb b B then hret [] else the_list (new_change n c (inl B) r) | inr _ => hret [] end in
        let* rs := match r with inl b => if base_eqb b B then hret [] else the_list (new_change n c l (inl B)) | inr _ => hret [] end in
        hret (ls ++ rs)
    end.
  (** [S2 == S] *)
  Definition operand_equal (n : nat) (a b : operand) : HM bool :=
    match a, b with inl x, inl y => hret (base_eqb x y) | inr x, inr y => equal n x y | _, _ => hret false end.
  (** kernelExpressionOperations.py:96-98 [one_change] *)
  Definition one_change (n : nat) (s : operand) (c : cpcw) (s2 : option operand) : HM (list ref) :=
    match s2 with
    | None => the_list (new_change n c s s)
    | Some s2 =>
        let* e := operand_equal n s2 s in
        if e then the_list (new_change n c s s)
        else let* a := new_change n c s s2 in let* b := new_change n c s2 s in hret [a; b]
    end.
  (** kernelExpressionOperations.py:101-106 [both_changes]: the body of the loop is that of one_change *)
  Definition both_changes (n : nat) (s : operand) (s2 : option operand) : HM (list ref) :=
    let* l := hmap (fun c => one_change n s c s2) [CP; CW] in hret (concat l).
  (** kernelExpressionOperations.py:109-110 [replace_node] *)
  Definition replace_node (n : nat) (s : ref) (s2 : operand) : HM (list ref) :=
    match s2 with inl b => the_list (new_list n KSum [b] []) | inr i => hret [i] end.
  (** kernelExpressionOperations.py:113-124 [remove_a_term]: the branches of a Change are returned themselves *)
  Definition remove_a_term (n : nat) (s : ref) : HM (list ref) :=
    let* o := get s in
    match data o with
    | BComm k bts cts =>
        if Z.ltb 1 (csum bts + Z.of_nat (length cts)) then
          let* xs := hmap (fun bt => new_comm n k (cadd (cpos bts) [(bt, (-1)%Z)]) cts) (map fst (cpos bts)) in
          let* ys := hmap (fun i => new_comm n k (cpos bts) (drop_nth i cts)) (seq 0 (length cts)) in
          hret (xs ++ ys)
        else hret []
    | BChange _ l r => hmap (fun b => match b with inl b => new_list n KSum [b] [] | inr x => hret x end) [l; r]
    end.
  (** kernelExpressionOperations.py:127-145 [higher_curves]; [del r.base_terms['SE']] *)
  Definition del_se (i : ref) : HM Datatypes.unit :=
    let* o := get i in
    match data o with BComm k bts cts => set_data i (BComm k (dict_del base_eqb bts bSE) cts) | BChange _ _ _ => hfail end.
  Definition higher_curves (n : nat) (s : ref) : HM (list ref) :=
    let* k2 := new_list n KProd [bLIN; bLIN] [] in
    let* k3 := new_list n KProd [bLIN; bLIN; bLIN] [] in
    let higher_kers := [k2; k3] in
    let* o := get s in
    match data o with
    | BComm k bts cts =>
        let* res :=
          match k with
          | KSum => hmap (fun ct => new_comm n KSum (cpos bts) (cts ++ [ct])) higher_kers
          | KProd => hmap (fun c => new_comm n KProd (cadd (cpos bts) c) cts)
                          [[(bLIN, 2%Z)]; [(bLIN, 3%Z)]; (if chas (cpos bts) bPER then [(bPER, 1%Z)] else [(bPER, 2%Z)])]
          end in
        if chas (cpos bts) bSE then let* _ := hmap del_se res in hret res else hret res
    | BChange c l r =>
        let* ls := match l with inl _ => hmap (fun ct => new_change n c (inr ct) r) higher_kers | inr _ => hret [] end in
        let* rs := match r with inl _ => hmap (fun ct => new_change n c l (inr ct)) higher_kers | inr _ => hret [] end in
        hret (ls ++ rs)
    end.

  (** ** grammar.py *)
  (** is_root (base.py:67-71), with its assertion *)
  Definition is_root (i : ref) : HM bool :=
    let* o := get i in
    match root o with
    | Some r => if N.eqb r i then match parent o with None => hret true | Some _ => hfail end else hret false
    | None => hret false
    end.
  (** reassign_child (commutative_base.py:88-91, change.py:71-74) *)
  Definition reassign_child (n : nat) (i old new : ref) : HM ref :=
    let* o := get i in
    match data o with
    | BComm k bts cts => let* r := remove n old cts in let* _ := set_data i (BComm k bts (r ++ [new])) in hret new
    | BChange c l r =>
        let* _ := match l with
                  | inr x => if N.eqb x old then set_data i (BChange c (inr new) r) else set_data i (BChange c l (inr new))
                  | inl _ => set_data i (BChange c l (inr new))
                  end in
        hret new
    end.
  (** new_tree_with_self_replaced (base.py:92-98) *)
  Definition new_tree_with_self_replaced (n : nat) (self replacement : ref) : HM ref :=
    let* d := deepcopy in
    let r := N.add d replacement in
    let s := N.add d self in
    let* top := is_root s in
    if top then let* _ := set_parent r None in let* _ := set_root n r None in hret r
    else
      let* o := get s in
      let* _ := set_parent r (parent o) in
      let* _ := set_root n r (root o) in
      match parent o with Some p => reassign_child n p s r | None => hfail end.
  (** grammar.py:23 [deep_apply], with the operator applied *)
  Definition deep_apply (n : nat) (operator : HM (list ref)) (s : ref) : HM (list ref) :=
    let* news := operator in hmap (new_tree_with_self_replaced n s) news.

  (** grammar.py:32-71: the production rules by name; [bases] and [noC] as in OpsModel.v *)
  Inductive rule_name : Set :=
  | PlusBase | TimesBase | ReplaceBase | ChangeNewBase | ChangeSame | ChangeWindowConstant | ChangeWindowLinear | ChangePointLinear
  | TimesShiftedBase | ReplaceWithSingleton | RemoveSomeTerm | TryHigherCurves.
  Definition apply_rule (bases noC : list base) (n : nat) (r : rule_name) (s : ref) : HM (list (list ref)) :=
    match r with
    | PlusBase => hmap (fun B => deep_apply n (add n (inr s) (inl B)) s) bases
    | TimesBase => hmap (fun B => deep_apply n (multiply n (inr s) (inl B)) s) noC
    | ReplaceBase => hmap (fun B => deep_apply n (swap_base n s B) s) bases
    | ChangeNewBase => hmap (fun B => deep_apply n (both_changes n (inr s) (Some (inl B))) s) noC
    | ChangeSame => let* l := deep_apply n (both_changes n (inr s) None) s in hret [l]
    | ChangeWindowConstant => let* l := deep_apply n (one_change n (inr s) CW (Some (inl bC))) s in hret [l]
    | ChangeWindowLinear => let* l := deep_apply n (one_change n (inr s) CW (Some (inl bLIN))) s in hret [l]
    | ChangePointLinear => let* l := deep_apply n (one_change n (inr s) CP (Some (inl bLIN))) s in hret [l]
    | TimesShiftedBase => hmap (fun B => let* k := new_list n KSum [B; bC] [] in deep_apply n (multiply n (inr s) (inr k)) s) noC
    | ReplaceWithSingleton => hmap (fun B => let* k := new_list n KSum [B] [] in deep_apply n (replace_node n s (inr k)) s) bases
    | RemoveSomeTerm => let* l := deep_apply n (remove_a_term n s) s in hret [l]
    | TryHigherCurves => let* l := deep_apply n (higher_curves n s) s in hret [l]
    end.

  (** genericUtil.unique: keeps the first of equal elements *)
  Definition unique_refs (n : nat) (l : list ref) : HM (list ref) :=
    let* es := hmap (read n) l in
    hret (map fst (unique (fun a b : ref * kex => keq (snd a) (snd b)) (combine l es))).
  (** grammar.py:20 *)
  Definition expand_node (bases noC : list base) (n : nat) (rules : list rule_name) (s : ref) : HM (list ref) :=
    let* ls := hmap (fun r => apply_rule bases noC n r s) rules in unique_refs n (concat (concat ls)).
  (** grammar.py:10-14 *)
  Fixpoint standardise (n : nat) (i : ref) : HM ref :=
    match n with
    | O => hfail
    | S m =>
        let* _ := simplify m i in
        let* x := extract i in
        match x with
        | inl b => let* s := new_list m KSum [b] [] in let* _ := set_root m s None in hret s
        | inr j =>
            if N.eqb j i then hret i
            else let* _ := set_parent j None in let* _ := set_root m j None in standardise m j
        end
    end.
  (** grammar.py:16: [kex.root] *)
  Definition roots (n : nat) (l : list ref) : HM (list ref) :=
    hmap (fun i => let* o := get i in match root o with Some r => standardise n r | None => hfail end) l.
  (** grammar.py:18 *)
  Definition expand (bases noC : list base) (n : nat) (rules : list rule_name) (i : ref) : HM (list ref) :=
    let* nodes := traverse n i in
    let* ls := hmap (expand_node bases noC n rules) nodes in
    let* rs := roots n (concat ls) in
    unique_refs n rs.
End Methods.
