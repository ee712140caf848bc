(** Properties of fitting and search: C21-C28, C48-C50.  Scores form any total preorder; the utility function, the fitter (any function with
    side effects that returns new model objects), the production rules, the start list and the initial state are arbitrary. *)
From Coq Require Import String List Bool Arith ZArith Lia Sorted Permutation.
From Verif Require Import Py KexModel OpsModel OpsSpec SearchModel SearchSpec SearchProofs.
Import ListNotations.
Local Open Scope list_scope.
Local Open Scope Z_scope.

(** C21 *)
Theorem C21_ranked : forall D Sc W (sle : Sc -> Sc -> bool), total_preorder sle ->
  forall (next : W -> nat) (fit : fitter D W), fresh_fitter next fit ->
  forall offset rules utility start rounds beam verbose w w' st,
  explore_model_space sle offset fit rules utility start rounds beam verbose w = (w', Ok st) ->
  Permutation (sorted_models st) (concat (tested_models st)) /\ ranked sle utility (sorted_models st)
  /\ ties_in_order sle utility (concat (tested_models st)) (sorted_models st).
Proof. intros D Sc W sle H. exact (explore_ranked sle H). Qed.
Print Assumptions C21_ranked.
Example C21_example : total_preorder Z.leb /\ fresh_fitter (fun w => w) toy_fit
  /\ ids_of (toy_explore 2 (BList [Some 1; Some 2]) false)
     = Ok ([1; 2; 4; 8; 16; 0; 3; 5; 6; 7; 9; 17; 10; 11; 15; 14; 12; 13; 18; 19],
           [[1; 0]; [2; 4; 3; 5; 6; 7]; [8; 16; 9; 17; 10; 11; 15; 14; 12; 13; 18; 19]],
           [1; 2; 4], [8; 16; 0; 3; 5; 6; 7; 9; 17; 10; 11; 15; 14; 12; 13; 18; 19])%nat.
Proof. split; [exact zleb_total|]. split; [apply toy_fit_fresh|]. vm_compute. reflexivity. Qed.

(** C22 *)
Theorem C22_partition : forall D Sc W (sle : Sc -> Sc -> bool), total_preorder sle ->
  forall (next : W -> nat) (fit : fitter D W), fresh_fitter next fit ->
  forall offset rules utility start rounds beam verbose w w' st,
  explore_model_space sle offset fit rules utility start rounds beam verbose w = (w', Ok st) ->
  Permutation (expanded st ++ not_expanded st) (sorted_models st) /\ ranked sle utility (not_expanded st).
Proof. intros D Sc W sle H. exact (explore_partition sle H). Qed.
Print Assumptions C22_partition.
(** C21, C22 after a continuation (with the same utility function, any other settings). *)
Theorem C22_continued : forall D Sc W (sle : Sc -> Sc -> bool), total_preorder sle ->
  forall (next : W -> nat) (fit : fitter D W), fresh_fitter next fit ->
  forall offset rules utility start rounds beam verbose w w1 st1,
  explore_model_space sle offset fit rules utility start rounds beam verbose w = (w1, Ok st1) ->
  forall fit' offset' rules' rounds' beam' verbose' w2 st2, fresh_fitter next fit' ->
  model_search_rounds sle offset' fit' rules' utility rounds' beam' verbose' st1 w1 = (w2, Ok st2) ->
  Permutation (sorted_models st2) (concat (tested_models st2)) /\ ranked sle utility (sorted_models st2)
  /\ ties_in_order sle utility (concat (tested_models st2)) (sorted_models st2)
  /\ Permutation (expanded st2 ++ not_expanded st2) (sorted_models st2) /\ ranked sle utility (not_expanded st2).
Proof. intros D Sc W sle H. exact (continued_ranked sle H). Qed.
Print Assumptions C22_continued.

(** C23 *)
Theorem C23_no_repeats : forall D Sc W (sle : Sc -> Sc -> bool), total_preorder sle ->
  forall (fit : fitter D W), fits_each fit ->
  forall offset rules utility start start_kexs rounds beam verbose w w' st,
  make_simple_kexs offset start = Ok start_kexs -> pairwise_different start_kexs ->
  explore_model_space sle offset fit rules utility start rounds beam verbose w = (w', Ok st) ->
  pairwise_different (tested_k_exprs st) /\ Permutation (map gkex (concat (tested_models st))) (tested_k_exprs st).
Proof. intros D Sc W sle H fit Hf offset rules utility. exact (explore_exprs sle H fit offset rules utility Hf). Qed.
Print Assumptions C23_no_repeats.
Example C23_example : fits_each toy_fit /\ make_simple_kexs true toy_start = Ok [Comm KSum [(bWN, 1)] []; Comm KSum [(bPER, 1)] []]
  /\ pairwise_different [Comm KSum [(bWN, 1)] []; Comm KSum [(bPER, 1)] []].
Proof.
  split; [apply toy_fit_fresh|]. split; [reflexivity|]. intros i j x y Hne Hi Hj.
  destruct i as [|[|[|i]]]; try discriminate; destruct j as [|[|[|j]]]; try discriminate; try congruence; injection Hi as <-; injection Hj as <-; reflexivity.
Qed.

(** C24: n rounds and then m more with the following beam values are n + m rounds (same results, same effects on the world). *)
Theorem C24_continue : forall D Sc W (sle : Sc -> Sc -> bool) (fit : fitter D W) offset rules utility start n m beam beam2 w,
  0 <= n -> 0 <= m -> valid_beam (n + m) beam ->
  length beam2 = Z.to_nat m -> (forall i z, nth_error beam2 i = Some z -> beam_value beam (Z.to_nat n + i) z) ->
  explore_model_space sle offset fit rules utility start (n + m) beam false w
  = match explore_model_space sle offset fit rules utility start n beam false w with
    | (w1, Ok st1) => model_search_rounds sle offset fit rules utility m beam2 false st1 w1
    | (w1, Raise e) => (w1, Raise e)
    end.
Proof. exact @explore_continues. Qed.
Print Assumptions C24_continue.
Theorem C24_continue_rounds : forall D Sc W (sle : Sc -> Sc -> bool) (fit : fitter D W) offset rules utility n m b1 b2 st w,
  0 <= n -> 0 <= m -> length b1 = Z.to_nat n ->
  model_search_rounds sle offset fit rules utility (n + m) (b1 ++ b2) false st w
  = match model_search_rounds sle offset fit rules utility n b1 false st w with
    | (w1, Ok st1) => model_search_rounds sle offset fit rules utility m b2 false st1 w1
    | (w1, Raise e) => (w1, Raise e)
    end.
Proof. exact @rounds_app. Qed.
Print Assumptions C24_continue_rounds.
Example C24_example : valid_beam (1 + 2) (BList [Some 1; Some 2]) /\ length [2; 2] = Z.to_nat 2
  /\ forall i z, nth_error [2; 2] i = Some z -> beam_value (BList [Some 1; Some 2]) (Z.to_nat 1 + i) z.
Proof.
  split; [|split; [reflexivity|]].
  - split; [|left; discriminate]. intros x [<-|[<-|[]]]; discriminate.
  - intros [|[|i]] z; [intros [= <-]; left; reflexivity|intros [= <-]; right; split; [simpl; lia|exists [Some 1]; reflexivity]|destruct i; discriminate].
Qed.

(** C25 *)
Theorem C25_best_improves : forall D Sc W (sle : Sc -> Sc -> bool), total_preorder sle ->
  forall (next : W -> nat) (fit : fitter D W), fresh_fitter next fit ->
  forall offset rules utility start n k beam w w1 st1 w2 st2 best others, 0 <= n -> 0 <= k -> valid_beam (n + k) beam ->
  explore_model_space sle offset fit rules utility start n beam false w = (w1, Ok st1) ->
  explore_model_space sle offset fit rules utility start (n + k) beam false w = (w2, Ok st2) ->
  sorted_models st1 = best :: others ->
  exists best' others', sorted_models st2 = best' :: others' /\ at_most sle utility best' best.
Proof. intros D Sc W sle H. exact (explore_better sle H). Qed.
Print Assumptions C25_best_improves.
Example C25_example : match snd (toy_explore 0 (BInt 1) false), snd (toy_explore 1 (BInt 1) false) with
  | Ok st0, Ok st1 => map gid (sorted_models st0) = [1; 0]%nat /\ map gid (sorted_models st1) = [1; 2; 4; 0; 3; 5; 6; 7]%nat
  | _, _ => False
  end.
Proof. vm_compute. auto. Qed.

(** C26: the beam argument is used as the list of its values, and there are exactly [rounds] rounds. *)
Theorem C26_beam_values : forall rounds beam, 0 <= rounds -> valid_beam rounds beam ->
  exists bs, norm_beam rounds beam = Ok bs /\ length bs = Z.to_nat rounds
             /\ forall i z, (i < Z.to_nat rounds)%nat -> (nth_error bs i = Some z <-> beam_value beam i z).
Proof. exact norm_beam_spec. Qed.
Print Assumptions C26_beam_values.
Theorem C26_rounds : forall D Sc W (sle : Sc -> Sc -> bool) (fit : fitter D W) offset rules utility start rounds beam verbose w w' st,
  0 <= rounds -> valid_beam rounds beam ->
  explore_model_space sle offset fit rules utility start rounds beam verbose w = (w', Ok st) ->
  length (tested_models st) = S (Z.to_nat rounds).
Proof. exact @explore_rounds. Qed.
Print Assumptions C26_rounds.
(** Once the start models are fitted, any other argument raises TypeError, but the empty list IndexError if there are rounds. *)
Theorem C26_type_error : forall D Sc W (sle : Sc -> Sc -> bool) (fit : fitter D W) offset rules utility start rounds beam w w1 st,
  (forall z, beam <> BInt z) -> ~ integer_list beam ->
  explore_model_space sle offset fit rules utility start 0 (BInt 1) false w = (w1, Ok st) ->
  explore_model_space sle offset fit rules utility start rounds beam false w = (w1, Raise ETypeError).
Proof. intros D Sc W sle fit offset rules u start rounds beam w w1 st H1 H2. exact (explore_bad_beam sle fit offset rules u start rounds beam _ w w1 st (norm_beam_type_error rounds beam H1 H2)). Qed.
Print Assumptions C26_type_error.
Theorem C26_empty_list : forall D Sc W (sle : Sc -> Sc -> bool) (fit : fitter D W) offset rules utility start rounds w w1 st, 0 < rounds ->
  explore_model_space sle offset fit rules utility start 0 (BInt 1) false w = (w1, Ok st) ->
  explore_model_space sle offset fit rules utility start rounds (BList []) false w = (w1, Raise EIndexError).
Proof. intros D Sc W sle fit offset rules u start rounds w w1 st H. exact (explore_bad_beam sle fit offset rules u start rounds _ _ w w1 st (norm_beam_empty rounds H)). Qed.
Print Assumptions C26_empty_list.
Example C26_example : norm_beam 5 (BList [Some 3; Some 2; Some 1]) = Ok [3; 2; 1; 1; 1] /\ norm_beam 2 (BList [Some 3; Some 2; Some 1]) = Ok [3; 2]
  /\ norm_beam 3 (BInt 4) = Ok [4; 4; 4] /\ valid_beam 5 (BList [Some 3; Some 2; Some 1])
  /\ ~ integer_list (BList [Some 3; None]).
Proof.
  do 3 (split; [reflexivity|]). split.
  - split; [|left; discriminate]. intros x [<-|[<-|[<-|[]]]]; discriminate.
  - intros (l & [= <-] & H). apply (H None); [right; left; reflexivity|reflexivity].
Qed.

(** C27: some number n <= max_retries of failed attempts, then the attempt whose outcome is returned or raised; it is raised only after
    max_retries failures. *)
Theorem C27_retries : forall W A (attempt : W -> kex -> W * res A) max_retries w k w' r,
  fit_one_model attempt max_retries w k = (w', r) ->
  exists n w1, Z.of_nat n <= Z.max 0 max_retries /\ failed_attempts attempt k w n w1 /\ attempt w1 k = (w', r)
               /\ ((exists m, r = Ok m) \/ Z.of_nat n = Z.max 0 max_retries).
Proof. exact @fit_one_spec. Qed.
Print Assumptions C27_retries.
(** Fitting a list: new objects, one per expression, in order. *)
Theorem C27_list : forall D W (next : W -> nat) (attempt : W -> kex -> W * res (gp D)), fresh_attempt next attempt ->
  forall max_retries, fresh_fitter next (fit_mods_not_parallel attempt max_retries) /\ fits_each (fit_mods_not_parallel attempt max_retries).
Proof. exact @fit_seq_is_fresh. Qed.
Print Assumptions C27_list.
(** The third attempt succeeds. *)
Definition third (w : nat) (k : kex) : nat * res nat := (S w, if (w <? 2)%nat then Raise EValueError else Ok w).
Example C27_example : fit_one_model third 1 0%nat (Comm KSum [(bWN, 1)] []) = (2%nat, Raise EValueError)
  /\ fit_one_model third 2 0%nat (Comm KSum [(bWN, 1)] []) = (3%nat, Ok 2%nat) /\ fresh_attempt (fun w => w) toy_attempt.
Proof. split; [reflexivity|]. split; [reflexivity|]. exact toy_attempt_fresh. Qed.

(** C28: if all fits succeed, the result is that of fitting in sequence, for any completion order of the chunks of n / cpus + 1 tasks; if
    some fail, the exception of one of them is raised (and no exception otherwise). *)
Theorem C28_parallel : forall A (out : nat -> res A) n cpus order, all_chunks n (S (n / cpus)) order ->
  match mapM out (seq 0 n) with
  | Ok ms => fit_mods_parallel out n cpus order = Ok (map Some ms)
  | Raise _ => exists i e, (i < n)%nat /\ out i = Raise e /\ fit_mods_parallel out n cpus order = Raise e
  end.
Proof. exact @parallel_sequential. Qed.
Print Assumptions C28_parallel.
Example C28_example : all_chunks 10 (S (10 / 4)) [2; 0; 3; 1]%nat
  /\ fit_mods_parallel (fun i => Ok (i * i)%nat) 10 4 [2; 0; 3; 1]%nat = Ok (map Some [0; 1; 4; 9; 16; 25; 36; 49; 64; 81]%nat)
  /\ fit_mods_parallel (fun i => if (i =? 7)%nat then Raise EValueError else if (i =? 1)%nat then Raise ETypeError else Ok i) 10 4 [2; 0; 3; 1]%nat
     = Raise EValueError.
Proof.
  split; [|split; reflexivity]. split; [repeat constructor; simpl; intuition discriminate|]. intros c. change (S (10 / 4)) with 3%nat. simpl. lia.
Qed.

(** C48: printing can raise: no rounds, or a round without new models. *)
Theorem C48_refuted : exists rounds rules, 
  (exists w st, explore_model_space Z.leb true toy_fit rules toy_score toy_start rounds (BInt 1) false toy_world = (w, Ok st))
  /\ exists w, explore_model_space Z.leb true toy_fit rules toy_score toy_start rounds (BInt 1) true toy_world = (w, Raise EIndexError).
Proof. exists 1, [remove_some_term true]. split; [do 2 eexists|eexists]; vm_compute; reflexivity. Qed.
Print Assumptions C48_refuted.
(** What holds: printing changes nothing but may raise IndexError.  Missing: that it does not. *)
Theorem C48_partial : forall D Sc W (sle : Sc -> Sc -> bool) (fit : fitter D W) offset rules utility start rounds beam w,
  explore_model_space sle offset fit rules utility start rounds beam true w = explore_model_space sle offset fit rules utility start rounds beam false w
  \/ exists w1, explore_model_space sle offset fit rules utility start rounds beam true w = (w1, Raise EIndexError).
Proof. exact @explore_verbose. Qed.
Print Assumptions C48_partial.
Example C48_example : (exists w, toy_explore 0 (BInt 1) true = (w, Raise EIndexError))
  /\ ids_of (toy_explore 1 (BInt 1) true) = ids_of (toy_explore 1 (BInt 1) false).
Proof. split; [eexists|]; vm_compute; reflexivity. Qed.

(** C49: continuing with another utility function does not rank by it: the models of earlier rounds keep their cached scores. *)
Theorem C49_refuted : exists next fit utility utility' w w1 st1 w2 st2,
  total_preorder Z.leb /\ @fresh_fitter unit nat next fit
  /\ explore_model_space Z.leb true fit toy_rules utility toy_start 0 (BInt 1) false w = (w1, Ok st1)
  /\ model_search_rounds Z.leb true fit toy_rules utility' 1 [1] false st1 w1 = (w2, Ok st2)
  /\ (forall m, In m (sorted_models st2) -> exists s, utility' m = Ok s) /\ ~ ranked Z.leb utility' (sorted_models st2).
Proof. exact other_utility_not_ranked. Qed.
Print Assumptions C49_refuted.
(** What holds: the same utility function.  Missing: another one. *)
Theorem C49_partial : forall D Sc W (sle : Sc -> Sc -> bool), total_preorder sle ->
  forall (next : W -> nat) (fit : fitter D W), fresh_fitter next fit ->
  forall offset rules utility start rounds beam verbose w w1 st1,
  explore_model_space sle offset fit rules utility start rounds beam verbose w = (w1, Ok st1) ->
  forall fit' offset' rules' rounds' beam' verbose' w2 st2, fresh_fitter next fit' ->
  model_search_rounds sle offset' fit' rules' utility rounds' beam' verbose' st1 w1 = (w2, Ok st2) ->
  ranked sle utility (sorted_models st2).
Proof.
  intros D Sc W sle H next fit Hf offset rules u start rounds beam v w w1 st1 H1 fit' o' r' n' b' v' w2 st2 Hf' H2.
  exact (proj1 (proj2 (continued_ranked sle H next fit Hf offset rules u start rounds beam v w w1 st1 H1 fit' o' r' n' b' v' w2 st2 Hf' H2))).
Qed.
Print Assumptions C49_partial.

(** C50: a second continuation from the same lists goes wrong, because the first one has modified some of them. *)
Theorem C50_refuted : exists next fit utility w w0 st0 w1 st1 w2 st2,
  @fresh_fitter unit nat next fit
  /\ explore_model_space Z.leb true fit toy_rules utility toy_start 1 (BInt 1) false w = (w0, Ok st0)
  /\ model_search_rounds Z.leb true fit toy_rules utility 1 [2] false st0 w0 = (w1, Ok st1)
  /\ model_search_rounds Z.leb true fit toy_rules utility 1 [2] false (caller_lists_after st0 st1) w1 = (w2, Ok st2)
  /\ ~ Permutation (expanded st2 ++ not_expanded st2) (sorted_models st2).
Proof. exact continue_twice_fails. Qed.
Print Assumptions C50_refuted.
(** What holds: the first continuation is right.  Missing: later ones. *)
Theorem C50_partial : forall D Sc W (sle : Sc -> Sc -> bool), total_preorder sle ->
  forall (next : W -> nat) (fit : fitter D W), fresh_fitter next fit ->
  forall offset rules utility start rounds beam verbose w w1 st1,
  explore_model_space sle offset fit rules utility start rounds beam verbose w = (w1, Ok st1) ->
  forall fit' offset' rules' rounds' beam' verbose' w2 st2, fresh_fitter next fit' ->
  model_search_rounds sle offset' fit' rules' utility rounds' beam' verbose' st1 w1 = (w2, Ok st2) ->
  Permutation (expanded st2 ++ not_expanded st2) (sorted_models st2).
Proof.
  intros D Sc W sle H next fit Hf offset rules u start rounds beam v w w1 st1 H1 fit' o' r' n' b' v' w2 st2 Hf' H2.
  exact (proj1 (proj2 (proj2 (proj2 (continued_ranked sle H next fit Hf offset rules u start rounds beam v w w1 st1 H1 fit' o' r' n' b' v' w2 st2 Hf' H2))))).
Qed.
Print Assumptions C50_partial.
