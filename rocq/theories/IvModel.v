(** Model of the description of a pure product: the reduction of its sigmoids to intervals and the text
    (GPy_ABCD/KernelExpansion/kernelInterpretation.py).  Numbers are reals; [{:.2f}] is an uninterpreted function. *)
From Coq Require Import String Reals List Bool Arith ZArith DecimalString.
From Verif Require Import Py KexModel KernModel SemModel.
Import ListNotations.
Local Open Scope list_scope.

(** * Parameters of expression nodes *)

(** The names under which parameter values are stored (base_k_param_names, kernelOperations.py:12-15). *)
Inductive pname : Type := pVariance | pLengthscale | pPeriod | pOffset | pLocation | pWidth | pSlope.
Definition pname_eqb (a b : pname) : bool :=
  match a, b with
  | pVariance, pVariance | pLengthscale, pLengthscale | pPeriod, pPeriod | pOffset, pOffset
  | pLocation, pLocation | pWidth, pWidth | pSlope, pSlope => true
  | _, _ => false
  end.
(** One dictionary of values: the parameters of one base term, of one change operator, or the variance of a product. *)
Definition pdict : Type := list (pname * R).
(** [p[name]] *)
Definition pget (p : pdict) (n : pname) : res R :=
  match dict_get pname_eqb p n with Some v => Ok v | None => Raise EKeyError end.
Definition phas (p : pdict) (n : pname) : bool := dict_has pname_eqb p n.

(** The keys of [KernelExpression.parameters]: base names, 'ProductKE', 'CP' / 'CW' and (branch, base name) pairs
    (base.py:22-27, commutative_base.py:130, commutatives.py:114, change.py:96,102). *)
Inductive pkey : Type := KBase (b : base) | KProduct | KChange (c : cpcw) | KLeaf (left : bool) (b : base).
Definition cpcw_eqb (a b : cpcw) : bool := match a, b with CP, CP | CW, CW => true | _, _ => false end.
Definition pkey_eqb (a b : pkey) : bool :=
  match a, b with
  | KBase x, KBase y => base_eqb x y
  | KProduct, KProduct => true
  | KChange x, KChange y => cpcw_eqb x y
  | KLeaf l x, KLeaf l' y => Bool.eqb l l' && base_eqb x y
  | _, _ => false
  end.
(** [KernelExpression.parameters], a [defaultdict(list)] in insertion order (base.py:27). *)
Definition params : Type := list (pkey * list pdict).
(** Reading a missing key of a defaultdict gives the empty list. *)
Definition pars (d : params) (k : pkey) : list pdict := match dict_get pkey_eqb d k with Some l => l | None => [] end.

(** * Intervals *)

(** A dictionary with some of the keys 'start', 'end', 'start_slope', 'end_slope' (kernelInterpretation.py:110-115). *)
Record ival : Type := Iv { i_start : option R; i_end : option R; i_sslope : option R; i_eslope : option R }.
(** What the interval functions pass around: None, such a dictionary, or a list of these. *)
Inductive val : Type := VNone | VIv (i : ival) | VList (l : list val).

(** [v['start']] etc.: TypeError on None and on lists, KeyError if missing. *)
Definition vget (f : ival -> option R) (v : val) : res R :=
  match v with
  | VIv i => match f i with Some x => Ok x | None => Raise EKeyError end
  | _ => Raise ETypeError
  end.
(** ['start' not in v] etc.: TypeError on None; a list has no element 'start'. *)
Definition vmissing (f : ival -> option R) (v : val) : res bool :=
  match v with
  | VNone => Raise ETypeError
  | VIv i => Ok (match f i with Some _ => false | None => true end)
  | VList _ => Ok true
  end.
(** [v['slope']]: none of the interval dictionaries has this key. *)
Definition vslope (v : val) : res R := match v with VIv _ => Raise EKeyError | _ => Raise ETypeError end.

(** [min(l, key)] / [max(l, key)] when [better a b] says that [a]'s key strictly beats [b]'s: the first best element;
    ValueError if there is none. *)
Fixpoint best_from (better : R -> R -> bool) (key : val -> res R) (v : val) (k : R) (l : list val) : res val :=
  match l with
  | [] => Ok v
  | x :: t => do kx <- key x; if better kx k then best_from better key x kx t else best_from better key v k t
  end.
Definition best (better : R -> R -> bool) (key : val -> res R) (l : list val) : res val :=
  match l with [] => Raise EValueError | x :: t => do kx <- key x; best_from better key x kx t end.

(** kernelInterpretation.py:110-118 *)
Definition S_interval (p : pdict) : res val :=
  do l <- pget p pLocation; do s <- pget p pSlope; Ok (VIv (Iv (Some l) None (Some s) None)).
Definition Sr_interval (p : pdict) : res val :=
  do l <- pget p pLocation; do s <- pget p pSlope; Ok (VIv (Iv None (Some l) None (Some s))).
Definition SI_ps_left (p : pdict) : res R := pget p pLocation.
Definition SI_ps_right (p : pdict) : res R := do l <- pget p pLocation; do w <- pget p pWidth; Ok (l + w)%R.
Definition SI_interval (p : pdict) : res val :=
  do l <- SI_ps_left p; do r <- SI_ps_right p; do s <- pget p pSlope; Ok (VIv (Iv (Some l) (Some r) (Some s) (Some s))).
Definition SIr_hole_interval (p : pdict) : res val :=
  do l <- SI_ps_left p; do r <- SI_ps_right p; do s <- pget p pSlope; Ok (VIv (Iv (Some r) (Some l) (Some s) (Some s))).
Definition SIr_split_intervals (hole : val) : res (list val) :=
  do e <- vget i_end hole; do es <- vget i_eslope hole; do s <- vget i_start hole; do ss <- vget i_sslope hole;
  Ok [VIv (Iv None (Some e) None (Some es)); VIv (Iv (Some s) None (Some ss) None)].

(** kernelInterpretation.py:124-133 *)
Definition Sr_overlap (l : list val) : res val := best Rltb (vget i_end) l.
Definition S_overlap (l : list val) : res val := best (fun a b => Rltb b a) (vget i_start) l.
Definition SI_overlap (l : list val) : res val :=
  do start <- S_overlap l; do end_ <- Sr_overlap l;
  do s <- vget i_start start; do e <- vget i_end end_; do ss <- vget i_sslope start; do es <- vget i_eslope end_;
  Ok (if Rltb s e then VIv (Iv (Some s) (Some e) (Some ss) (Some es)) else VNone).

(** kernelInterpretation.py:146-154 *)
Definition intersect_segment_semiline (seg semi : val) : res val :=
  do nostart <- vmissing i_start semi;
  do first <- (if nostart then do a <- vget i_start seg; do e <- vget i_end semi; Ok (Rltb a e) else Ok false);
  if first then
    do b <- vget i_end seg; do e <- vget i_end semi;
    if Rltb b e then Ok seg
    else do a <- vget i_start seg; do ss <- vget i_sslope seg; do es <- vget i_eslope semi;
         Ok (VIv (Iv (Some a) (Some e) (Some ss) (Some es)))
  else
    do noend <- vmissing i_end semi;
    do second <- (if noend then do b <- vget i_end seg; do s <- vget i_start semi; Ok (Rltb s b) else Ok false);
    if second then
      do a <- vget i_start seg; do s <- vget i_start semi;
      if Rltb s a then Ok seg
      else do b <- vget i_end seg; do ss <- vget i_sslope semi; do es <- vget i_eslope seg;
           Ok (VIv (Iv (Some s) (Some b) (Some ss) (Some es)))
    else Ok VNone.

(** kernelInterpretation.py:156-163: the pieces appended to the accumulator [res]. *)
Definition intersect_segment_hole (seg hole : val) : res (list val) :=
  do a <- vget i_start seg; do he <- vget i_end hole;
  do p1 <- (if Rltb a he then
              do b <- vget i_end seg;
              if Rltb b he then Ok [seg]
              else do ss <- vget i_sslope seg; do es <- vslope hole; Ok [VIv (Iv (Some a) (Some he) (Some ss) (Some es))]
            else Ok []);
  do b <- vget i_end seg; do hs <- vget i_start hole;
  do p2 <- (if Rltb hs b then
              if Rltb hs a then Ok [seg]
              else do ss <- vslope hole; do es <- vget i_eslope seg; Ok [VIv (Iv (Some hs) (Some b) (Some ss) (Some es))]
            else Ok []);
  Ok (p1 ++ p2).
(** kernelInterpretation.py:165-176 *)
Definition intersect_semiline_hole (semi hole : val) : res (list val) :=
  do nostart <- vmissing i_start semi;
  if nostart then
    do he <- vget i_end hole; do e <- vget i_end semi;
    if Rltb he e then
      do sl <- vslope hole;
      do hs <- vget i_start hole;
      do more <- (if Rltb hs e then
                    do ss <- vget i_sslope hole; do es <- vget i_eslope semi;
                    Ok [VIv (Iv (Some hs) (Some e) (Some ss) (Some es))]
                  else Ok []);
      Ok (VIv (Iv None (Some he) None (Some sl)) :: more)
    else Ok [semi]
  else
    do hs <- vget i_start hole; do s <- vget i_start semi;
    if Rltb s hs then
      do he <- vget i_end hole;
      do more <- (if Rltb s he then
                    do ss <- vget i_sslope semi; do es <- vget i_eslope hole;
                    Ok [VIv (Iv (Some s) (Some he) (Some ss) (Some es))]
                  else Ok []);
      do hss <- vget i_sslope hole;
      Ok (more ++ [VIv (Iv (Some hs) None (Some hss) None)])
    else Ok [semi].

(** kernelInterpretation.py:135-141 *)
Definition SIr_overlap_step (acc : list val) (p : val) : res (list val) :=
  rmap (@concat val)
    (mapM (fun a => do nostart <- vmissing i_start a;
                    do semi <- (if nostart then Ok true else vmissing i_end a);
                    if semi then intersect_semiline_hole a p else intersect_segment_hole a p) acc).
Fixpoint foldM {A B : Type} (f : A -> B -> res A) (l : list B) (a : A) : res A :=
  match l with [] => Ok a | x :: t => do a' <- f a x; foldM f t a' end.
(** [SIr_params[0]] raises IndexError on an empty list. *)
Definition SIr_overlap (l : list val) : res val :=
  match l with
  | [] => Raise EIndexError
  | h :: t => do s <- SIr_split_intervals h; rmap VList (foldM SIr_overlap_step t s)
  end.

(** kernelInterpretation.py:209-214 *)
Definition identify_interval_type (v : val) : res (base * val) :=
  match v with
  | VNone => Raise ETypeError
  | VIv i => Ok ((match i_start i, i_end i with None, _ => bSr | _, None => bS | _, _ => bSI end), v)
  | VList _ => Ok (bSIr, v)
  end.

(** kernelInterpretation.py:206 *)
Definition unwrap (v : val) : val := match v with VList [x] => x | _ => v end.
(** [{**a, **b}] *)
Definition or_else {A : Type} (a b : option A) : option A := match b with Some _ => b | None => a end.
Definition merge (a b : val) : res val :=
  match a, b with
  | VIv i, VIv j =>
      Ok (VIv (Iv (or_else (i_start i) (i_start j)) (or_else (i_end i) (i_end j))
                  (or_else (i_sslope i) (i_sslope j)) (or_else (i_eslope i) (i_eslope j))))
  | _, _ => Raise ETypeError
  end.

(** [pair[b]] of the two-entry dictionary of kernelInterpretation.py:191 *)
Definition from_pair (p q : base * val) (b : base) : res val :=
  if base_eqb (fst p) b then Ok (snd p) else if base_eqb (fst q) b then Ok (snd q) else Raise EKeyError.
Definition in_pair (p q : base * val) (b : base) : bool := base_eqb (fst p) b || base_eqb (fst q) b.

(** kernelInterpretation.py:190-206 when neither of two different types is 'SIr', or both types are the same *)
Definition pair_plain (p q : base * val) : res val :=
  if base_eqb (fst p) (fst q) then
    match fst p with
    | bSI => rmap unwrap (SI_overlap [snd p; snd q])
    | bS => rmap unwrap (S_overlap [snd p; snd q])
    | bSr => rmap unwrap (Sr_overlap [snd p; snd q])
    | _ => Raise EKeyError
    end
  else if in_pair p q bSI then
    do seg <- from_pair p q bSI; do semi <- from_pair p q (if in_pair p q bS then bS else bSr);
    do r <- intersect_segment_semiline seg semi;
    Ok (match r with VNone => VList [] | _ => r end)
  else
    do ps <- from_pair p q bS; do s <- vget i_start ps; do pe <- from_pair p q bSr; do e <- vget i_end pe;
    if Rltb s e then merge ps pe else Ok (VList []).

Definition is_empty_list (v : val) : bool := match v with VList [] => true | _ => false end.
(** kernelInterpretation.py:195-197 on each element of the list of type 'SIr', [o] being the other entry: line 196 calls
    the function with [o], whose type is not 'SIr', and the type of the element. *)
Fixpoint pair_element (o : base * val) (v : val) {struct v} : res val :=
  match v with
  | VNone => Raise ETypeError
  | VIv _ => do t <- identify_interval_type v; pair_plain o t
  | VList l =>
      rmap (fun rs => unwrap (VList rs))
        ((fix go (l : list val) : res (list val) :=
            match l with
            | [] => Ok []
            | x :: t => do y <- pair_element o x; do ys <- go t; Ok (if is_empty_list y then ys else y :: ys)
            end) l)
  end.
(** kernelInterpretation.py:190-206.  Only lists are ever labelled 'SIr' (SIr_overlap, identify_interval_type). *)
Definition pair_list (o : base * val) (v : val) : res val :=
  match v with VList _ => pair_element o v | _ => Raise ETypeError end.
Definition simplify_sigmoidal_interval_pair (p q : base * val) : res val :=
  if base_eqb (fst p) (fst q) then pair_plain p q
  else if base_eqb (fst p) bSIr then pair_list q (snd p)
  else if base_eqb (fst q) bSIr then pair_list p (snd q)
  else pair_plain p q.

(** kernelInterpretation.py:182-187; [None] is python's None. *)
Definition simplify_sigmoidal_intervals_step (acc : option (base * val)) (new : base * val) : res (option (base * val)) :=
  match acc with
  | None => Ok None
  | Some a =>
      do r <- simplify_sigmoidal_interval_pair a new;
      match r with VNone => Ok None | _ => rmap Some (identify_interval_type r) end
  end.
Definition simplify_sigmoidal_intervals (items : list (base * val)) : res val :=
  match items with
  | [] => Raise ETypeError
  | x :: t =>
      do r <- foldM simplify_sigmoidal_intervals_step t (Some x);
      match r with Some a => Ok (snd a) | None => Raise ETypeError end
  end.

(** kernelInterpretation.py:97; [fixed] is config.__FIX_SIGMOIDAL_KERNELS_SLOPE. *)
Definition check_slope (fixed : bool) (ps : list pdict) : list pdict :=
  if fixed then map (fun p => dict_set pname_eqb p pSlope 1%R) ps else ps.
(** kernelInterpretation.py:100-103: the overlap of all the sigmoids of one type. *)
Definition type_overlap (fixed : bool) (b : base) (ps : list pdict) : res val :=
  match b with
  | bS => do l <- mapM S_interval (check_slope fixed ps); S_overlap l
  | bSr => do l <- mapM Sr_interval (check_slope fixed ps); Sr_overlap l
  | bSI => do l <- mapM SI_interval (check_slope fixed ps); SI_overlap l
  | _ => do l <- mapM SIr_hole_interval (check_slope fixed ps); SIr_overlap l
  end.
(** kernelInterpretation.py:98-104: the dictionary [sigmoidals], in the order of the keys of the argument. *)
Fixpoint sigmoidals (fixed : bool) (d : params) : res (list (base * val)) :=
  match d with
  | [] => Ok []
  | (KBase b, ps) :: t =>
      if is_sigmoid b then do v <- type_overlap fixed b ps; do rest <- sigmoidals fixed t; Ok ((b, v) :: rest)
      else sigmoidals fixed t
  | _ :: t => sigmoidals fixed t
  end.
(** kernelInterpretation.py:96-108: the value stored under 'sigmoidal_intervals', [None] when none is stored. *)
Definition sigmoids_to_intervals (fixed : bool) (d : params) : res (option (list val)) :=
  do s <- sigmoidals fixed d;
  match s with
  | [] => Ok None
  | _ => do r <- simplify_sigmoidal_intervals s; Ok (Some (match r with VList l => l | _ => [r] end))
  end.

(** * Text *)
Section Text.
  (** config.__FIX_SIGMOIDAL_KERNELS_SLOPE, config.__USE_LIN_KERNEL_HORIZONTAL_OFFSET and [{:.2f}] *)
  Context (fixed offset : bool) (fmt : R -> string).
  Local Open Scope string_scope.

  Definition nat_str (n : nat) : string := NilEmpty.string_of_uint (Nat.to_uint n).
  (** [ps[0]] *)
  Definition head (ps : list pdict) : res pdict := match ps with [] => Raise EIndexError | p :: _ => Ok p end.
  (** [l[-1] = 'and ' + l[-1]; ', '.join(l)] for lists with at least two elements *)
  Fixpoint join_and (l : list string) : string :=
    match l with [] => "" | [x] => "and " ++ x | x :: t => x ++ ", " ++ join_and t end.
  Fixpoint join (l : list string) : string :=
    match l with [] => "" | [x] => x | x :: t => x ++ ", " ++ join t end.

  (** kernelInterpretation.py:45-48, 64-67 *)
  Definition roots_text (ps : list pdict) : res string :=
    do os <- mapM (fun p => rmap fmt (pget p pOffset)) ps; Ok (join_and os).
  (** Python's stable [sorted(ps, key = period, reverse = True)] (kernelInterpretation.py:35) *)
  Definition by_desc_period (ps : list pdict) : res (list pdict) :=
    do l <- mapM (fun p => do k <- pget p pPeriod; Ok (k, p)) ps;
    Ok (map snd (py_sorted (fun a b : R * pdict => negb (Rltb (fst a) (fst b))) l)).

  (** kernelInterpretation.py:27-54 *)
  Definition first_term_interpretation (b : base) (ps : list pdict) : res string :=
    match b with
    | bWN => Ok "Uncorrelated noise"
    | bC => Ok "A constant"
    | bSE => do p <- head ps; do l <- pget p pLengthscale; Ok ("A smooth function with lengthscale " ++ fmt l)
    | bPER =>
        if Nat.ltb 1 (length ps) then
          do sorted <- by_desc_period ps;
          do p0 <- head sorted;
          do per <- pget p0 pPeriod; do len <- pget p0 pLengthscale;
          do further <- mapM (fun p => do pp <- pget p pPeriod; do ll <- pget p pLengthscale;
                                       Ok ("period " ++ fmt pp ++ " and lengthscale " ++ fmt ll)) (tl sorted);
          Ok ("A periodic function with main period " ++ fmt per ++ " and lengthscale " ++ fmt len ++ ", then "
              ++ (if Nat.eqb (length ps) 2 then "modulated by another periodic function of "
                  else "repeatedly modulated by " ++ nat_str (length ps - 1) ++ " more periodic functions (by decreasing period) of ")
              ++ (if Nat.ltb 2 (length ps) then join_and further else join further))
        else
          do p <- head ps; do per <- pget p pPeriod; do len <- pget p pLengthscale;
          Ok ("A periodic function with period " ++ fmt per ++ " and lengthscale " ++ fmt len)
    | bLIN =>
        if Nat.ltb 1 (length ps) then
          if offset then do r <- roots_text ps; Ok ("A polynomial function of order " ++ nat_str (length ps) ++ " with roots " ++ r)
          else Ok ("A polynomial function of order " ++ nat_str (length ps))
        else
          if offset then do p <- head ps; do o <- pget p pOffset; Ok ("A linear function with horizontal offset " ++ fmt o)
          else Ok "A linear function"
    | _ => Raise EValueError
    end.

  (** kernelInterpretation.py:57-71, 89: the postmodifiers other than the intervals *)
  Definition postmodifier_base (b : base) (ps : list pdict) : res string :=
    match b with
    | bSE => do p <- head ps; do l <- pget p pLengthscale; Ok ("whose shape changes smoothly with lengthscale " ++ fmt l)
    | bLIN =>
        if Nat.ltb 1 (length ps) then
          if offset then do r <- roots_text ps; Ok ("with polynomially varying amplitude of order " ++ nat_str (length ps) ++ " with roots " ++ r)
          else Ok ("with polynomially varying amplitude of order " ++ nat_str (length ps))
        else
          if offset then do p <- head ps; do o <- pget p pOffset; Ok ("with linearly varying amplitude with horizontal offset " ++ fmt o)
          else Ok "with linearly varying amplitude"
    | _ => if is_sigmoid b then Ok "" else Raise EValueError
    end.

  (** kernelInterpretation.py:76-86 *)
  Definition interval_text (v : val) : res string :=
    do nostart <- vmissing i_start v;
    if nostart then
      do e <- vget i_end v;
      if fixed then Ok ("until " ++ fmt e)
      else do es <- vget i_eslope v; Ok ("until " ++ fmt e ++ " (with change slope " ++ fmt es ++ ")")
    else
      do noend <- vmissing i_end v;
      if noend then
        do s <- vget i_start v;
        if fixed then Ok ("from " ++ fmt s)
        else do ss <- vget i_sslope v; Ok ("from " ++ fmt s ++ " (with change slope " ++ fmt ss ++ ")")
      else
        do s <- vget i_start v; do e <- vget i_end v;
        let t := "between " ++ fmt s ++ " and " ++ fmt e in
        if fixed then
          do ss <- vget i_sslope v; do es <- vget i_eslope v;
          if Req_EM_T ss es then Ok (t ++ " (with same change slopes " ++ fmt ss ++ ")")
          else Ok (t ++ " (with change slopes " ++ fmt ss ++ " and " ++ fmt es ++ ")")
        else Ok t.
  (** kernelInterpretation.py:72-88 *)
  Definition intervals_text (l : list val) : res string :=
    do ts <- mapM interval_text l; Ok (if Nat.ltb 1 (length ts) then join_and ts else join ts).

  (** An item of the dictionary that is described: a base name with its parameters, or 'sigmoidal_intervals'. *)
  Definition item : Type := base * list pdict + list val.
  (** base_kern_interp_order (kernelInterpretation.py:9) *)
  Definition item_order (i : item) : nat := match i with inl (b, _) => interp_order b | inr _ => 9 end.
  Definition postmodifier_interpretation (i : item) : res string :=
    match i with inl (b, ps) => postmodifier_base b ps | inr l => intervals_text l end.
  Definition item_first (i : item) : res string :=
    match i with inl (b, ps) => first_term_interpretation b ps | inr _ => Raise EValueError end.
  (** The items other than 'ProductKE'; a key that is not in the order dictionary raises KeyError (kernelInterpretation.py:17-19). *)
  Definition item_of (kv : pkey * list pdict) : res item :=
    match fst kv with KBase b => Ok (inl (b, snd kv)) | _ => Raise EKeyError end.
  Definition is_empty_string (s : string) : bool := match s with EmptyString => true | _ => false end.

  (** kernelInterpretation.py:13-24 *)
  Definition base_factors_interpretation (bs_params : params) : res string :=
    do ivs <- sigmoids_to_intervals fixed bs_params;
    do pv <- head (pars bs_params KProduct);
    do var <- pget pv pVariance;
    let description_end := (match ivs with Some _ => ", and it" | None => "; this component" end) ++ " has overall variance " ++ fmt var in
    do its <- mapM item_of (dict_del pkey_eqb bs_params KProduct);
    let ordered := py_sorted (fun a b => Nat.leb (item_order a) (item_order b))
                     ((its ++ match ivs with Some l => [inr l] | None => [] end)%list) in
    do post <- mapM (fun i => do t <- postmodifier_interpretation i;
                              Ok (if is_empty_string t then "" else
                                    (match i with inr _ => "; this component applies " | inl _ => ", " end) ++ t)) (tl ordered);
    match ordered with
    | [] => Raise EIndexError
    | i :: _ => do t <- item_first i; Ok (t ++ String.concat "" post ++ description_end)
    end.
End Text.
