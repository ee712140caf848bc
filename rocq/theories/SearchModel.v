(** Model of GPy_ABCD/Models/modelSearch.py: fitting with retries, the process pool, and the search loop.

    A fitted GPModel object is a record of its identity, its kernel expression and its fitted data; GPModel has no __eq__, so
    lists of models are compared by identity.  The mutable attribute cached_utility_function lives in a heap.  Scores are elements of
    any type with a total preorder (so NaN scores are not modelled).  The utility function is a function of the model and may raise. *)
From Coq Require Import String List Bool Arith ZArith.
From Verif Require Import Py UtilModel KexModel OpsModel.
Import ListNotations.
Local Open Scope list_scope.
Local Open Scope Z_scope.

(** [l[:b]] for an integer b (negative counts from the end). *)
Definition slice_to {A : Type} (l : list A) (b : Z) : list A :=
  if b <? 0 then firstn (Z.to_nat (Z.of_nat (length l) + b)) l else firstn (Z.to_nat b) l.

(** ** Fitting *)
Section Fit.
  Context {W A : Type}.
  (** One GPModel(X, Y, kex).fit(restarts, optimiser) call: external code with side effects on the world, e.g. the random
      state (only subclasses of Exception are modelled as raised). *)
  Context (attempt : W -> kex -> W * res A).

  (** modelSearch.py:26-34 [fit_one_model]; [left] = max_retries - retry, as a natural number. *)
  Fixpoint fit_loop (left : nat) (w : W) (k : kex) : W * res A :=
    match attempt w k with
    | (w', Ok m) => (w', Ok m)
    | (w', Raise e) => match left with O => (w', Raise e) | S n => fit_loop n w' k end
    end.
  Definition fit_one_model (max_retries : Z) (w : W) (k : kex) : W * res A := fit_loop (Z.to_nat max_retries) w k.

  (** modelSearch.py:36-38 [fit_mods_not_parallel]. *)
  Fixpoint fit_mods_not_parallel (max_retries : Z) (w : W) (ks : list kex) : W * res (list A) :=
    match ks with
    | [] => (w, Ok [])
    | k :: t =>
        match fit_one_model max_retries w k with
        | (w1, Raise e) => (w1, Raise e)
        | (w1, Ok m) =>
            match fit_mods_not_parallel max_retries w1 t with
            | (w2, Raise e) => (w2, Raise e)
            | (w2, Ok ms) => (w2, Ok (m :: ms))
            end
        end
    end.
End Fit.

(** modelSearch.py:39-45 [fit_mods_parallel_processes]: python's multiprocessing.pool (Pool.starmap_async, _map_async, MapResult).
    [out i] is the outcome of task i (in the worker process that runs it); [order] the order in which the chunks' results arrive. *)
Section Pool.
  Context {A : Type}.
  (** int(len(k_exprs) / cpu_count()) + 1 *)
  Definition chunksize (n cpus : nat) : nat := S (n / cpus).
  (** Pool._get_tasks: consecutive slices of the task list (here: of the task numbers); starmapstar runs one, stopping at an exception. *)
  Definition chunk_tasks (n size c : nat) : list nat := firstn size (skipn (c * size) (seq 0 n)).
  Definition run_chunk (out : nat -> res A) (n size c : nat) : res (list A) := mapM out (chunk_tasks n size c).
  (** MapResult: [_value] (a list of None at first), [_success]. *)
  Definition slots : Type := res (list (option A)).
  (** MapResult._set: a successful chunk is written in its slice unless an exception was stored; the first exception is kept. *)
  Definition pool_set (size : nat) (s : slots) (c : nat) (r : res (list A)) : slots :=
    match s, r with
    | Ok v, Ok l => Ok (firstn (c * size) v ++ map Some l ++ skipn (S c * size) v)
    | Ok _, Raise e => Raise e
    | Raise e, _ => Raise e
    end.
  (** The value when all chunks have arrived (MapResult.get); number of chunks: _number_left in MapResult.__init__. *)
  Definition n_chunks (n size : nat) : nat := (n / size + (if (n mod size =? 0)%nat then 0 else 1))%nat.
  Definition pool_map (out : nat -> res A) (n size : nat) (order : list nat) : slots :=
    fold_left (fun s c => pool_set size s c (run_chunk out n size c)) order (Ok (repeat None n)).
  Definition fit_mods_parallel (out : nat -> res A) (n cpus : nat) (order : list nat) : slots :=
    pool_map out n (chunksize n cpus) order.
End Pool.

(** ** Search *)
Section Search.
  Context {D Sc W : Type} (sle : Sc -> Sc -> bool).

  Record gp : Type := { gid : nat; gkex : kex; gdata : D }.
  (** Identity comparison of GPModel objects. *)
  Definition gp_is (a b : gp) : bool := Nat.eqb (gid a) (gid b).

  (** World: the external state and the heap of cached_utility_function attributes (None at first). *)
  Definition heap : Type := nat -> option Sc.
  Definition hset (h : heap) (i : nat) (s : Sc) : heap := fun j => if Nat.eqb i j then Some s else h j.
  Definition M (A : Type) : Type := W * heap -> (W * heap) * res A.
  Definition ret {A : Type} (a : A) : M A := fun w => (w, Ok a).
  Definition raise {A : Type} (e : exn) : M A := fun w => (w, Raise e).
  Definition bindM {A B : Type} (m : M A) (f : A -> M B) : M B :=
    fun w => match m w with (w', Ok a) => f a w' | (w', Raise e) => (w', Raise e) end.
  Notation "'let*' x <- m ; k" := (bindM m (fun x => k)) (at level 200, x name, m at level 100, k at level 200).

  (** model_list_fitter(X, Y, kexs, restarts, optimiser, max_retries), with all arguments but the expressions fixed. *)
  Definition fitter : Type := W -> list kex -> W * res (list gp).
  Definition run_fitter (f : fitter) (ks : list kex) : M (list gp) :=
    fun w => let '(w1, r) := f (fst w) ks in ((w1, snd w), r).

  (** model.py:71-74 [compute_utility]: sets the cache. *)
  Definition compute_utility (utility : gp -> res Sc) (m : gp) : M Sc :=
    fun w => match utility m with
             | Ok s => ((fst w, hset (snd w) (gid m) s), Ok s)
             | Raise e => (w, Raise e)
             end.
  Fixpoint keys_utility (utility : gp -> res Sc) (ms : list gp) : M (list (Sc * gp)) :=
    match ms with
    | [] => ret []
    | m :: t => let* s <- compute_utility utility m; let* l <- keys_utility utility t; ret ((s, m) :: l)
    end.
  Definition sort_keyed (l : list (Sc * gp)) : list gp := map snd (py_sorted (fun a b => sle (fst a) (fst b)) l).
  (** sorted(ms, key = score) *)
  Definition sorted_by_score (utility : gp -> res Sc) (ms : list gp) : M (list gp) :=
    let* l <- keys_utility utility ms; ret (sort_keyed l).
  (** sorted(ms, key = attrgetter('cached_utility_function')): comparing a None raises TypeError. *)
  Fixpoint keys_cached (h : heap) (ms : list gp) : option (list (Sc * gp)) :=
    match ms with
    | [] => Some []
    | m :: t => match h (gid m), keys_cached h t with Some s, Some l => Some ((s, m) :: l) | _, _ => None end
    end.
  Definition sorted_by_cache (ms : list gp) : M (list gp) :=
    fun w => match keys_cached (snd w) ms with
             | Some l => (w, Ok (sort_keyed l))
             | None => if (length ms <=? 1)%nat then (w, Ok ms) else (w, Raise ETypeError)
             end.

  (** modelSearch.py:22-23 [print_k_list]: only its possible IndexError is modelled. *)
  Definition print_list {A : Type} (l : list A) : M unit := match l with [] => raise EIndexError | _ => ret tt end.

  (** The five values returned by explore_model_space and taken by model_search_rounds. *)
  Record results : Type := {
    sorted_models : list gp; tested_models : list (list gp); tested_k_exprs : list kex;
    expanded : list gp; not_expanded : list gp }.

  (** The expressions fitted in a round (modelSearch.py:121). *)
  Definition new_exprs (offset : bool) (rules : list rule) (st : results) (b : Z) : list kex :=
    filter (fun k => negb (existsb (fun t => keq t k) (tested_k_exprs st)))
           (unique keq (concat (map (fun m => expand offset rules (gkex m)) (slice_to (not_expanded st) b)))).

  (** One round (modelSearch.py:121-129). *)
  Definition search_round (offset : bool) (fit : fitter) (rules : list rule) (utility : gp -> res Sc) (verbose : bool)
             (beam : list Z) (r : nat) (b : Z) (st : results) : M results :=
    let new := new_exprs offset rules st b in
    let* fitted <- run_fitter fit new;
    let* ranked <- sorted_by_score utility fitted;
    let tested := tested_models st ++ [ranked] in
    let* srt <- sorted_by_cache (concat tested);
    let exp := expanded st ++ slice_to (not_expanded st) b in
    let st' := {| sorted_models := srt; tested_models := tested; tested_k_exprs := tested_k_exprs st ++ new;
                  expanded := exp; not_expanded := diff gp_is srt exp |} in
    if verbose then
      match nth_error tested r, beam with
      | Some tr, b0 :: _ =>
          let* _ <- print_list (slice_to tr b0); let* _ <- print_list (slice_to srt b0);
          let* _ <- print_list (slice_to (not_expanded st') b); ret st'
      | _, _ => raise EIndexError
      end
    else ret st'.

  (** modelSearch.py:120: for r, b in zip(range(1, rounds + 1), beam). *)
  Fixpoint search_loop offset fit rules utility verbose (beam : list Z) (rbs : list (nat * Z)) (st : results) : M results :=
    match rbs with
    | [] => ret st
    | (r, b) :: t =>
        let* st' <- search_round offset fit rules utility verbose beam r b st;
        search_loop offset fit rules utility verbose beam t st'
    end.
  (** modelSearch.py:110-131 [model_search_rounds] (its argument sorted_models is returned if there is no round). *)
  Definition model_search_rounds offset fit rules utility (rounds : Z) (beam : list Z) verbose (st : results) : M results :=
    search_loop offset fit rules utility verbose beam (combine (seq 1 (Z.to_nat rounds)) beam) st.
  (** What the caller's own lists hold once model_search_rounds has returned st': tested_models.append, expanded += and
      tested_k_exprs += modify the argument lists in place, while sorted_models and not_expanded are rebound (modelSearch.py:122-127). *)
  Definition caller_lists_after (st st' : results) : results :=
    {| sorted_models := sorted_models st; tested_models := tested_models st'; tested_k_exprs := tested_k_exprs st';
       expanded := expanded st'; not_expanded := not_expanded st |}.

  (** The beam argument: a list (elements that are not integers are [None]), an integer, or something else. *)
  Inductive beam_arg : Type := BList (l : list (option Z)) | BInt (z : Z) | BOther.
  (** all(isinstance(x, int) for x in beam) *)
  Fixpoint ints (l : list (option Z)) : option (list Z) :=
    match l with
    | [] => Some []
    | Some z :: t => option_map (cons z) (ints t)
    | None :: _ => None
    end.
  (** modelSearch.py:94-97. *)
  Definition norm_beam (rounds : Z) (beam : beam_arg) : res (list Z) :=
    match beam with
    | BList l =>
        match ints l with
        | Some bs =>
            let more := rounds - Z.of_nat (length bs) in
            if 0 <? more then
              match bs with [] => Raise EIndexError | b :: _ => Ok (bs ++ repeat (last bs b) (Z.to_nat more)) end
            else Ok (slice_to bs rounds)
        | None => Raise ETypeError
        end
    | BInt z => Ok (repeat z (Z.to_nat rounds))
    | BOther => Raise ETypeError
    end.
  Definition lift {A : Type} (r : res A) : M A := fun w => (w, r).

  (** modelSearch.py:48-106 [explore_model_space]. *)
  Definition explore_model_space offset (fit : fitter) rules utility (start : list (string + kex)) (rounds : Z) (beam : beam_arg) (verbose : bool)
    : M results :=
    let* start_kexs <- lift (make_simple_kexs offset start);
    let* _ <- (if verbose then print_list start_kexs else ret tt);
    let* fitted <- run_fitter fit start_kexs;
    let* ranked <- sorted_by_score utility fitted;
    let* srt <- sorted_by_score utility (concat [ranked]);
    let* bs <- lift (norm_beam rounds beam);
    let* _ <- (if verbose then match bs with [] => raise EIndexError | b0 :: _ => print_list (slice_to srt b0) end else ret tt);
    let* st <- model_search_rounds offset fit rules utility rounds bs verbose
                 {| sorted_models := srt; tested_models := [ranked]; tested_k_exprs := start_kexs; expanded := []; not_expanded := srt |};
    let* _ <- (if verbose then match bs with [] => raise EIndexError | b0 :: _ => print_list (slice_to (sorted_models st) b0) end else ret tt);
    ret st.
End Search.
Arguments gp : clear implicits.
Arguments fitter : clear implicits.
Arguments results : clear implicits.
