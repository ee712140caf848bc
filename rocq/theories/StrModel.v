(** Model of the textual forms of kernel expressions: __str__, __repr__ and to_kernel_unrefined
    (commutative_base.py:21-27,32-34, commutatives.py:67-69, change.py:21-25, base.py:117-123). *)
From Coq Require Import String Ascii List Bool Arith ZArith.
From Verif Require Import Py KexModel SemModel PySpec.
Import ListNotations.
Local Open Scope string_scope.
Local Open Scope list_scope.

(** The names of the base kernels and sigmoids (baseKernels.py:11-12). *)
Definition base_name (b : base) : string :=
  match b with
  | bWN => "WN" | bC => "C" | bLIN => "LIN" | bSE => "SE" | bPER => "PER" | bS => "S" | bSr => "Sr" | bSI => "SI" | bSIr => "SIr"
  end.
Definition change_name (c : cpcw) : string := match c with CP => "CP" | CW => "CW" end.
(** type(self).__name__ *)
Definition class_name (k : kind) : string := match k with KSum => "SumKE" | KProd => "ProductKE" end.
(** [symbol] (commutatives.py:13,65) *)
Definition symbol (k : kind) : string := match k with KSum => "+" | KProd => "*" end.
(** base.py:121-123 *)
Definition bs (s : string) : string := "(" ++ s ++ ")".
(** bracket_if_needed (commutative_base.py:32-34, commutatives.py:67-69); [s] is str(kex) *)
Definition bracket_if_needed (k : kind) (kex : kex) (s : string) : string :=
  match k with
  | KSum => s
  | KProd => match kex with Comm KSum _ _ => bs s | _ => s end
  end.

(** __str__ (commutative_base.py:21-22, change.py:21-22); str of a string is itself *)
Fixpoint str (e : kex) : string :=
  match e with
  | Comm k bts cts =>
      String.concat (" " ++ symbol k ++ " ")
        (map base_name (order_base_kerns (celements bts)) ++ map (fun f => bracket_if_needed k f (str f)) cts)%list
  | Change c l r =>
      change_name c ++ bs ((match l with inl b => base_name b | inr x => str x end) ++ ", " ++
                           (match r with inl b => base_name b | inr x => str x end))
  end%string.

(** The repr of a string without quotes inside *)
Definition quoted (s : string) : string := ("'" ++ s ++ "'")%string.
(** __repr__ (commutative_base.py:24-27, change.py:24-25) *)
Fixpoint repr (e : kex) : string :=
  match e with
  | Comm k bts cts =>
      let res := class_name k ++ "([" ++ String.concat ", " (map (fun b => quoted (base_name b)) (celements bts)) ++ "]" in
      let ct := match cts with [] => "" | _ => ", [" ++ String.concat ", " (map repr cts) ++ "]" end in
      res ++ ct ++ ")"
  | Change c l r =>
      "ChangeKE('" ++ change_name c ++ "', " ++ (match l with inl b => quoted (base_name b) | inr x => repr x end) ++ ", " ++
      (match r with inl b => quoted (base_name b) | inr x => repr x end) ++ ")"
  end%string.

(** re.sub(r'([A-Z]+(?!\(|[A-Z]))', r'\1()', s) (base.py:119): the lookahead excludes matches ending before a capital or an opening bracket,
    so a match ends exactly at each capital that is followed by neither. *)
Definition is_capital (c : ascii) : bool := (65 <=? nat_of_ascii c)%nat && (nat_of_ascii c <=? 90)%nat.
Fixpoint call_names (s : string) : string :=
  match s with
  | EmptyString => EmptyString
  | String c t =>
      let ends := match t with EmptyString => true | String d _ => negb (Ascii.eqb d "(") && negb (is_capital d) end in
      if is_capital c && ends then String c (String "(" (String ")" (call_names t))) else String c (call_names t)
  end.

(** The names in scope of the eval of base.py:119 (baseKernels.py:28-41,56-57): the base kernels are functions without arguments, CP and CW
    functions of two kernels; + and * of GPy kernels are their sum and product.  (The sigmoids of baseKernels.py:46-51 are left out.) *)
Definition actual_bases : list base := [bWN; bC; bLIN; bSE; bPER].
Definition base_called (f : string) : option base := find (fun b => String.eqb f (base_name b)) actual_bases.
Fixpoint eval_kernel (p : pyexp) : option gkern :=
  match p with
  | PCall f [] => match base_called f with Some b => Some (GBase b true) | None => None end
  | PCall f [a; b] =>
      match eval_kernel a, eval_kernel b with
      | Some ka, Some kb =>
          if String.eqb f "CP" then Some (GChange CP ka kb) else if String.eqb f "CW" then Some (GChange CW ka kb) else None
      | _, _ => None
      end
  | PAdd a b => match eval_kernel a, eval_kernel b with Some ka, Some kb => Some (GAdd ka kb) | _, _ => None end
  | PMul a b => match eval_kernel a, eval_kernel b with Some ka, Some kb => Some (GMul ka kb) | _, _ => None end
  | _ => None
  end.
(** to_kernel_unrefined (base.py:117-119) returns [g] *)
Definition to_kernel_unrefined (e : kex) (g : gkern) : Prop :=
  exists p, reads (call_names (str e)) p /\ eval_kernel p = Some g.
