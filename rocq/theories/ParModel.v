(** Model of what happens to an expression after a fit: the names and values of the fitted kernel's parameters, their assignment to the
    terms of the expression, the sum-of-products form and the report (commutative_base.py:122-138, commutatives.py:29-60,90-147,
    change.py:88-137, base.py:127-149, kernelOperations.py:12-36).  Numbers are reals. *)
From Coq Require Import String Ascii Reals List Bool Arith ZArith DecimalString.
From Verif Require Import Py KexModel KernModel SemModel IvModel.
Import ListNotations.
Local Open Scope list_scope.

(** * Names *)

Definition pname_str (n : pname) : string :=
  match n with
  | pVariance => "variance" | pLengthscale => "lengthscale" | pPeriod => "period" | pOffset => "offset"
  | pLocation => "location" | pWidth => "width" | pSlope => "slope"
  end%string.
Definition is_variance (n : pname) : bool := pname_eqb n pVariance.

Section Config.
  (** config.__USE_LIN_KERNEL_HORIZONTAL_OFFSET and config.__FIX_SIGMOIDAL_KERNELS_SLOPE *)
  Context (offset fixed : bool).

  (** base_k_param_names[b]['name'] (kernelOperations.py:12): the names of the kernel objects (GPy's White, Bias and RBF;
      linearOffsetKernel.py:32, linearKernel.py:36, periodicKernel.py:63).  A sigmoid is not a key. *)
  Definition base_name (b : base) : string :=
    match b with
    | bWN => "white" | bC => "bias" | bLIN => if offset then "linear_with_offset" else "linear"
    | bSE => "rbf" | bPER => "pure_std_periodic" | _ => ""
    end%string.
  (** base_k_param_names[b]['parameters'] (kernelOperations.py:12) *)
  Definition base_params (b : base) : list pname :=
    match b with
    | bWN | bC => [pVariance]
    | bLIN => if offset then [pVariance; pOffset] else [pVariance]
    | bSE => [pVariance; pLengthscale]
    | bPER => [pVariance; pPeriod; pLengthscale]
    | _ => []
    end.
  (** base_k_param_names['CP'], ['CW'] (kernelOperations.py:13-14) *)
  Definition change_name (c : cpcw) : string := match c with CP => "change_point" | CW => "change_window" end%string.
  Definition change_params (c : cpcw) : list pname :=
    match c with
    | CP => if fixed then [pLocation] else [pLocation; pSlope]
    | CW => if fixed then [pLocation; pWidth] else [pLocation; pSlope; pWidth]
    end.
  (** GPy_name (commutatives.py:13,65, change.py:13) *)
  Definition kind_name (k : kind) : string := match k with KSum => "sum" | KProd => "mul" end%string.
  Definition kex_name (e : kex) : string := match e with Comm k _ _ => kind_name k | Change c _ _ => change_name c end.

  (** * Fitted kernel objects (GPy, paramz) *)

  (** A kernel object with the values of its free parameters; GPy's sums and products hold a flat list of parts. *)
  Inductive vkern : Type :=
  | VBase (b : base) (ps : pdict)
  | VAdd (parts : list vkern)
  | VMul (parts : list vkern)
  | VChange (c : cpcw) (first second : vkern) (ps : pdict).
  (** GPy's [+] and [*]: the parts of a sum that is added are added one by one, likewise for products. *)
  Definition add_parts (k : vkern) : list vkern := match k with VAdd l => l | _ => [k] end.
  Definition mul_parts (k : vkern) : list vkern := match k with VMul l => l | _ => [k] end.
  Definition vadd (a b : vkern) : vkern := VAdd (add_parts a ++ add_parts b).
  Definition vmul (a b : vkern) : vkern := VMul (mul_parts a ++ mul_parts b).

  Definition vkern_name (k : vkern) : string :=
    match k with VBase b _ => base_name b | VAdd _ => kind_name KSum | VMul _ => kind_name KProd | VChange c _ _ _ => change_name c end.

  (** paramz: a linked object whose name is taken gets the first free one of name_1, name_2, ... *)
  Definition count_str (seen : list string) (n : string) : nat := length (filter (String.eqb n) seen).
  Definition postfix (k : nat) : string := match k with O => "" | _ => "_" ++ nat_str k end%string.
  Definition component_name (seen : list string) (n : string) : string := (n ++ postfix (count_str seen n) ++ ".")%string.
  (** parameter_names_flat() with param_array (kernelOperations.py:21-24): the dotted names with the values; the prefix is that of the
      object itself. *)
  Definition own_params (prefix : string) (ps : pdict) : list (string * R) :=
    map (fun nv => ((prefix ++ pname_str (fst nv))%string, snd nv)) ps.
  Fixpoint flat_names (prefix : string) (k : vkern) : list (string * R) :=
    match k with
    | VBase _ ps => own_params prefix ps
    | VAdd l | VMul l =>
        (fix go (seen : list string) (l : list vkern) : list (string * R) :=
           match l with
           | [] => []
           | k :: t => flat_names (prefix ++ component_name seen (vkern_name k))%string k ++ go (vkern_name k :: seen) t
           end) [] l
    | VChange _ a b ps =>
        flat_names (prefix ++ component_name [] (vkern_name a))%string a
        ++ flat_names (prefix ++ component_name [vkern_name a] (vkern_name b))%string b ++ own_params prefix ps
    end.
  (** kernelOperations.py:21-24 for the kernel of a GPy regression model *)
  Definition get_param_dict (k : vkern) : list (string * R) :=
    fold_left (fun d nv => dict_set String.eqb d (fst nv) (snd nv))
      (flat_names ("GP_regression." ++ vkern_name k ++ ".")%string k) [].

  (** * Expressions with parameters *)

  (** [bts], [ps], [cts] are the fields base_terms, parameters and composite_terms. *)
  Inductive pkex : Type :=
  | PComm (k : kind) (bts : counter) (ps : params) (cts : list pkex)
  | PChange (c : cpcw) (ps : params) (l r : base + pkex).
  Fixpoint erase (p : pkex) : kex :=
    match p with
    | PComm k bts _ cts => Comm k bts (map erase cts)
    | PChange c _ l r => Change c (match l with inl b => inl b | inr x => inr (erase x) end)
                                  (match r with inl b => inl b | inr x => inr (erase x) end)
    end.
  (** [self.parameters[k].append(p)] *)
  Definition pappend (d : params) (k : pkey) (p : pdict) : params := dict_set pkey_eqb d k (pars d k ++ [p]).

  (** ** match_up_fit_parameters *)
  Definition lookup (d : list (string * R)) (n : string) : res R :=
    match dict_get String.eqb d n with Some v => Ok v | None => Raise EKeyError end.
  (** commutative_base.py:130-132; KeyError for a missing name other than 'variance', and for base_k_param_names['S'] etc. *)
  Fixpoint read_params (d : list (string * R)) (skip : bool) (prefix : string) (ns : list pname) : res pdict :=
    match ns with
    | [] => Ok []
    | n :: t =>
        let full := (prefix ++ pname_str n)%string in
        if skip && is_variance n && negb (dict_has String.eqb d full) then read_params d skip prefix t
        else do v <- lookup d full; do ps <- read_params d skip prefix t; Ok ((n, v) :: ps)
    end.
  Definition read_base (d : list (string * R)) (skip : bool) (prefix : string) (b : base) (post : string) : res pdict :=
    if is_sigmoid b then Raise EKeyError else read_params d skip (prefix ++ base_name b ++ post)%string (base_params b).
  (** commutative_base.py:127-132; [seen] are the base terms already met. *)
  Definition count_base (seen : list base) (b : base) : nat := length (filter (base_eqb b) seen).
  Fixpoint match_bases (d : list (string * R)) (prefix : string) (seen bs : list base) (ps : params) : res params :=
    match bs with
    | [] => Ok ps
    | b :: t =>
        do p <- read_base d true prefix b (postfix (count_base seen b) ++ ".")%string;
        match_bases d prefix (b :: seen) t (pappend ps (KBase b) p)
    end.
  (** commutatives.py:105-114: the first variance found is moved to the product.  In the code 'variance' becomes None if there is none;
      here that is an exception, which C31 shows not to occur. *)
  Fixpoint take_variance (l : list pdict) : option (R * list pdict) :=
    match l with
    | [] => None
    | p :: t =>
        match dict_get pname_eqb p pVariance with
        | Some v => Some (v, dict_del pname_eqb p pVariance :: t)
        | None => match take_variance t with Some (v, t') => Some (v, p :: t') | None => None end
        end
    end.
  Fixpoint take_single_variance (ps : params) : option (R * params) :=
    match ps with
    | [] => None
    | (k, l) :: t =>
        match take_variance l with
        | Some (v, l') => Some (v, (k, l') :: t)
        | None => match take_single_variance t with Some (v, t') => Some (v, (k, l) :: t') | None => None end
        end
    end.
  Definition product_variance (bts : counter) (ps : params) : res params :=
    if (0 <? csum bts)%Z then
      match take_single_variance ps with
      | Some (v, ps') => Ok (pappend ps' KProduct [(pVariance, v)])
      | None => Raise (EOther 1)
      end
    else Ok ps.

  (** is_root() is the argument [root]: only the expression on which the method is called is its own root. *)
  Definition own_prefix (root : bool) (prefix : string) (suffix : string) : res string :=
    if root then Ok (prefix ++ suffix)%string
    else if String.eqb prefix "" then Raise EValueError else Ok prefix.
  Definition is_singleton (bts : counter) (cts : list kex) : bool := (csum bts + Z.of_nat (length cts) =? 1)%Z.
  (** type(left) == type(right) and (same GPy_name, or equal strings) (change.py:97-98); equal expressions have the same GPy_name. *)
  Definition same_type_branches (l r : branch) : bool :=
    match l, r with
    | inl a, inl b => base_eqb a b
    | inr x, inr y => String.eqb (kex_name x) (kex_name y)
    | _, _ => false
    end.

  (** commutative_base.py:124-138, commutatives.py:103-115, change.py:93-103, on an expression without parameters *)
  Fixpoint match_up (d : list (string * R)) (root : bool) (prefix : string) (e : kex) : res pkex :=
    match e with
    | Comm k bts cts =>
        do pre <- own_prefix root prefix (if is_singleton bts cts then "" else kind_name k ++ ".");
        do ps <- match_bases d pre [] (celements bts) [];
        do pcts <- (fix go (seen : list string) (l : list kex) : res (list pkex) :=
                      match l with
                      | [] => Ok []
                      | c :: t =>
                          do pc <- match_up d false (pre ++ component_name seen (kex_name c)) c;
                          do pt <- go (kex_name c :: seen) t;
                          Ok (pc :: pt)
                      end) [] cts;
        do ps' <- (match k with KSum => Ok ps | KProd => product_variance bts ps end);
        Ok (PComm k bts ps' pcts)
    | Change c l r =>
        do pre <- own_prefix root prefix (change_name c ++ ".");
        do own <- read_params d false pre (change_params c);
        let ps0 := pappend [] (KChange c) own in
        do lp <- (match l with
                  | inl b => do p <- read_base d false pre b "."; Ok (inl b, pappend ps0 (KLeaf true b) p)
                  | inr x => do px <- match_up d false (pre ++ kex_name x ++ ".") x; Ok (inr px, ps0)
                  end);
        let post := (if same_type_branches l r then "_1." else ".") in
        do rp <- (match r with
                  | inl b => do p <- read_base d false pre b post; Ok (inl b, pappend (snd lp) (KLeaf false b) p)
                  | inr x => do px <- match_up d false (pre ++ kex_name x ++ post) x; Ok (inr px, snd lp)
                  end);
        Ok (PChange c (snd rp) (fst lp) (fst rp))
    end%string.
  (** kernelOperations.py:31-35 *)
  Definition fit_ker_to_kex_with_params (k : vkern) (e : kex) : res pkex := match_up (get_param_dict k) true "GP_regression." e.

  (** ** The constructors on expressions with parameters: simplify (commutative_base.py:36-38, change.py:30-33) moves base terms and composites
      and drops the parameters of the nodes that disappear. *)
  Definition pextract (p : pkex) : base + pkex :=
    match p with
    | PComm _ bts _ cts =>
        if (csum bts =? 1)%Z && (Nat.eqb (length cts) 0)
        then match celements bts with b :: _ => inl b | [] => inr p end
        else if (csum bts =? 0)%Z && (Nat.eqb (length cts) 1)
             then match cts with ct :: _ => inr ct | [] => inr p end
             else inr p
    | PChange _ _ _ _ => inr p
    end.
  Definition pis_kind (k : kind) (p : pkex) : bool := match p with PComm k' _ _ _ => kind_eqb k k' | PChange _ _ _ _ => false end.
  Definition pabsorb_one (k : kind) (st : counter * list pkex) (hc : pkex) : counter * list pkex :=
    match hc with
    | PComm _ hb _ hcs =>
        let b := simp_base offset k (cupdate (fst st) hb) (length (snd st)) in
        let cs := snd st ++ hcs in
        (b, match list_remove (fun y => keq (erase y) (erase hc)) cs with Some r => r | None => cs end)
    | PChange _ _ _ _ => st
    end.
  Definition pabsorb_homogeneous (k : kind) (bts : counter) (cts : list pkex) : counter * list pkex :=
    fold_left (pabsorb_one k) (filter (pis_kind k) cts) (bts, cts).
  Definition pbases_of (l : list (base + pkex)) : list base := concat (map (fun x => match x with inl b => [b] | inr _ => [] end) l).
  Definition pkexs_of (l : list (base + pkex)) : list pkex := concat (map (fun x => match x with inl _ => [] | inr e => [e] end) l).
  Definition pabsorb_singletons (k : kind) (bts : counter) (cts : list pkex) : counter * list pkex :=
    let ex := map pextract cts in
    let cts' := pkexs_of ex in
    (simp_base offset k (cupdate_list bts (pbases_of ex)) (length cts'), cts').
  Definition psimp_node (k : kind) (bts : counter) (ps : params) (cts : list pkex) : pkex :=
    let h := pabsorb_homogeneous k bts cts in
    let s := pabsorb_singletons k (fst h) (snd h) in
    PComm k (simp_base offset k (fst s) (length (snd s))) ps (snd s).
  Fixpoint psimplify (p : pkex) : pkex :=
    match p with
    | PComm k bts ps cts => psimp_node k bts ps (map psimplify cts)
    | PChange c ps l r =>
        PChange c ps (match l with inl b => inl b | inr x => pextract (psimplify x) end)
                     (match r with inl b => inl b | inr x => pextract (psimplify x) end)
    end.
  (** SumKE(bts, cts), ProductKE(bts, cts) (commutative_base.py:12-19) *)
  Definition pmk (k : kind) (bts : counter) (cts : list pkex) : pkex := psimplify (PComm k bts [] cts).
  (** _new_parameters (base.py:127-129): dict.update *)
  Definition update_params (d new : params) : params := fold_left (fun acc kv => dict_set pkey_eqb acc (fst kv) (snd kv)) new d.
  Definition new_parameters (p : pkex) (new : params) : pkex :=
    match p with PComm k bts ps cts => PComm k bts (update_params ps new) cts | PChange c ps l r => PChange c (update_params ps new) l r end.

  (** ** Products with parameters *)

  (** commutatives.py:92-101 *)
  Definition se_step (acc l : R) : R := ((acc + l) / sqrt (acc ^ 2 + l ^ 2))%R.
  Definition simplify_base_terms_params (bts : counter) (ps : params) : res params :=
    let ps1 := if dict_has pkey_eqb ps (KBase bWN)
               then filter (fun kv => match fst kv with KBase bWN | KProduct => true | KBase b => is_sigmoid b | _ => false end) ps
               else ps in
    let ps2 := if dict_has pkey_eqb ps1 (KBase bC)
               then if negb (chas bts bC) then dict_del pkey_eqb ps1 (KBase bC)
                    else if Nat.ltb 1 (length (pars ps1 (KBase bC))) then dict_set pkey_eqb ps1 (KBase bC) [[]] else ps1
               else ps1 in
    if dict_has pkey_eqb ps2 (KBase bSE) && Nat.ltb 1 (length (pars ps2 (KBase bSE)))
    then do ls <- mapM (fun p => pget p pLengthscale) (pars ps2 (KBase bSE));
         match ls with
         | [] => Raise ETypeError
         | l :: t => Ok (dict_set pkey_eqb ps2 (KBase bSE) [[(pLengthscale, fold_left se_step t l)]])
         end
    else Ok ps2.

  (** commutatives.py:120-126, one turn of the loop on the base terms and the parameters.  In the code a key that is not a base name would become
      one; only base names and 'ProductKE' occur (C32). *)
  Definition new_base_with_parameters (st : counter * params) (kp : pkey * pdict) : res (counter * params) :=
    let '(bts, ps) := st in
    let '(k, p) := kp in
    do r <- match dict_get pname_eqb p pVariance with
            | Some v =>
                match pars ps KProduct with
                | [] => Raise EIndexError
                | p0 :: rest =>
                    do v0 <- pget p0 pVariance;
                    Ok (dict_set pkey_eqb ps KProduct (dict_set pname_eqb p0 pVariance (v0 * v)%R :: rest), dict_del pname_eqb p pVariance, true)
                end
            | None => Ok (ps, p, false)
            end;
    let '(ps', p', had) := r in
    match k with
    | KProduct => if had then Ok (bts, ps') else Raise (EOther 2)
    | KBase b => Ok (cset bts b (cget bts b + 1)%Z, pappend ps' k p')
    | _ => Raise (EOther 2)
    end.
  (** commutatives.py:117-129; only products have this method *)
  Definition new_bases_with_parameters (p : pkex) (bpss : list (pkey * pdict)) : res pkex :=
    match p with
    | PComm KProd bts ps cts =>
        let ps0 := if dict_has pkey_eqb ps KProduct then ps else dict_set pkey_eqb ps KProduct [[(pVariance, 1%R)]] in
        do st <- foldM new_base_with_parameters bpss (bts, ps0);
        let bts' := simp_base_prod (fst st) (length cts) in
        do ps' <- simplify_base_terms_params bts' (snd st);
        Ok (PComm KProd bts' ps' cts)
    | _ => Raise EAttributeError
    end.
  Definition empty_product : pkex := pmk KProd [] [].
  Definition parameters_of (p : pkex) : params := match p with PComm _ _ ps _ => ps | PChange _ ps _ _ => ps end.
  Definition composites_of (p : pkex) : list pkex := match p with PComm _ _ _ cts => cts | PChange _ _ _ _ => [] end.
  Definition entries (ps : params) : list (pkey * pdict) := concat (map (fun kv => map (fun p => (fst kv, p)) (snd kv)) ps).
  (** commutatives.py:131-134; [ps] are the parameters of k0 *)
  Definition multiply_pure_prods_with_params (ps : params) (ks : list pkex) : res pkex :=
    if forallb (fun k => Nat.eqb (length (composites_of k)) 0) ks
    then new_bases_with_parameters empty_product (concat (map entries (ps :: map parameters_of ks)))
    else Raise EAssertionError.

  (** ** sum_of_prods_form *)
  Definition is_sum (p : pkex) : bool := pis_kind KSum p.
  Definition is_product (p : pkex) : bool := pis_kind KProd p.
  (** commutatives.py:42-49: the composites of a Sum after those of its composites are in the required form *)
  Definition flatten_sum (ct : pkex) : res (list pkex) :=
    match ct with
    | PComm KSum bts _ cts => if (csum bts =? 0)%Z then Ok cts else Raise EAssertionError
    | _ => Ok [ct]
    end.
  (** commutatives.py:51-55 *)
  Fixpoint bases_to_products (bs : list base) (ps : params) (acc : list pkex) : res (params * list pkex) :=
    match bs with
    | [] => Ok (ps, acc)
    | b :: t =>
        match pars ps (KBase b) with
        | [] => Raise EIndexError
        | p0 :: rest =>
            do np <- new_bases_with_parameters empty_product [(KBase b, p0)];
            bases_to_products t (match rest with [] => dict_del pkey_eqb ps (KBase b) | _ => dict_set pkey_eqb ps (KBase b) rest end) (np :: acc)
        end
    end.
  (** itertools.product *)
  Definition cartesian {A : Type} (ls : list (list A)) : list (list A) :=
    fold_right (fun l acc => concat (map (fun x => map (cons x) acc) l)) [[]] ls.
  (** update_dict_with(d0, d1, operator.add) (genericUtil.py:129-134) on lists *)
  Definition update_with_append (d0 d1 : params) : params :=
    fold_left (fun acc kv => dict_set pkey_eqb acc (fst kv) (pars acc (fst kv) ++ snd kv)) d1 d0.
  (** change.py:105-115; sortOutTypePair (kernelUtil.py:6-8) gives one entry for two expressions of the same type.  A Change has no base_terms. *)
  Definition add_sum_of_prods_terms (k1 k2 : pkex) : res pkex :=
    match k1, k2 with
    | PComm KProd _ _ _, PComm KProd _ _ _ => Ok (pmk KSum [] [k1; k2])
    | PComm KSum b1 p1 c1, PComm KSum b2 p2 c2 => Ok (new_parameters (pmk KSum (cadd (cpos b1) b2) (c1 ++ c2)) (update_with_append p1 p2))
    | PComm KProd _ _ _, PComm KSum b2 p2 c2 => Ok (new_parameters (pmk KSum (cpos b2) (k1 :: c2)) p2)
    | PComm KSum b1 p1 c1, PComm KProd _ _ _ => Ok (new_parameters (pmk KSum (cpos b1) (c1 ++ [k2])) p1)
    | _, _ => Raise EAttributeError
    end.
  (** kernelOperations.py:18 *)
  Definition change_sigmoid (c : cpcw) (left : bool) : base :=
    match c, left with CP, true => bSr | CP, false => bS | CW, true => bSIr | CW, false => bSI end.
  (** change.py:123: the first value whose key is a pair with this branch *)
  Definition leaf_params (ps : params) (left : bool) : res pdict :=
    match filter (fun kv => match fst kv with KLeaf l _ => Bool.eqb l left | _ => false end) ps with
    | (_, p :: _) :: _ => Ok p
    | _ => Raise EIndexError
    end.
  (** change.py:126-134: the new child for a branch that is an expression, with the sigmoid of the branch put on each of its terms *)
  Fixpoint sigmoid_on_bases (sp : pkey * pdict) (bs : list base) (ps : params) (acc : list pkex) : res (params * list pkex) :=
    match bs with
    | [] => Ok (ps, acc)
    | b :: t =>
        match pars ps (KBase b) with
        | [] => Raise EIndexError
        | p0 :: rest =>
            do np <- new_bases_with_parameters empty_product [(KBase b, p0); sp];
            sigmoid_on_bases sp t (match rest with [] => dict_del pkey_eqb ps (KBase b) | _ => dict_set pkey_eqb ps (KBase b) rest end) (acc ++ [np])
        end
    end.
  Definition put_sigmoid (sp : pkey * pdict) (child : pkex) : res pkex :=
    match child with
    | PComm KProd _ _ _ => new_bases_with_parameters child [sp]
    | PComm KSum bts ps cts =>
        do cts' <- mapM (fun pt => new_bases_with_parameters pt [sp]) cts;
        do r <- sigmoid_on_bases sp (celements bts) ps cts';
        Ok (PComm KSum [] (fst r) (snd r))
    | PChange _ _ _ _ => Raise EAttributeError
    end.
  Definition no_parameters (ps : params) : bool := match ps with [] => true | _ => false end.

  (** commutatives.py:38-60, 136-147, change.py:117-137 *)
  Fixpoint sum_of_prods_form (p : pkex) : res pkex :=
    match p with
    | PComm k bts ps cts =>
        if no_parameters ps then Raise EAssertionError else
        match k with
        | KSum =>
            do rs <- seqM (map sum_of_prods_form cts);
            do ls <- mapM flatten_sum rs;
            do r <- bases_to_products (celements bts) ps (concat ls);
            if negb (no_parameters (fst r)) then Raise EAssertionError
            else if negb (forallb is_product (snd r)) then Raise EAssertionError
            else Ok (PComm KSum [] [] (snd r))
        | KProd =>
            match cts with
            | [] => Ok (PComm KSum [] [] [new_parameters (pmk KProd bts []) ps])
            | _ =>
                do rs <- seqM (map sum_of_prods_form cts);
                if negb (forallb is_sum rs) then Raise EAssertionError
                else do ts <- mapM (multiply_pure_prods_with_params ps) (cartesian (map composites_of rs));
                     Ok (PComm KSum [] [] ts)
            end
        end
    | PChange c ps l r =>
        if no_parameters ps then Raise EAssertionError else
        do own <- head (pars ps (KChange c));
        do kl <- (match l with
                  | inl b => do lp <- leaf_params ps true; new_bases_with_parameters empty_product [(KBase b, lp); (KBase (change_sigmoid c true), own)]
                  | inr x => do ch <- sum_of_prods_form x; put_sigmoid (KBase (change_sigmoid c true), own) ch
                  end);
        do kr <- (match r with
                  | inl b => do rp <- leaf_params ps false; new_bases_with_parameters empty_product [(KBase b, rp); (KBase (change_sigmoid c false), own)]
                  | inr x => do ch <- sum_of_prods_form x; put_sigmoid (KBase (change_sigmoid c false), own) ch
                  end);
        add_sum_of_prods_terms kl kr
    end.

  (** ** get_interpretation (base.py:144-149), given the sum-of-products form; [fmt] is [{:.2f}] *)
  Definition get_interpretation (fmt : R -> string) (sops : pkex) : res string :=
    match sops with
    | PComm _ bts _ cts =>
        if (csum bts =? 0)%Z then
          do ts <- mapM (fun ct => do t <- base_factors_interpretation fixed offset fmt (parameters_of ct);
                                   Ok (String "010"%char (String "009"%char "") ++ t)%string) cts;
          Ok ("The fit kernel consists of " ++ nat_str (length cts) ++ " components:" ++ String.concat "" ts)%string
        else Raise EAssertionError
    | PChange _ _ _ _ => Raise EAttributeError
    end.
End Config.
