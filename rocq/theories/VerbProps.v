(** C48: when printing the progress of a search raises. *)
From Coq Require Import String List Bool Arith ZArith Lia.
From Verif Require Import Py KexModel OpsModel SearchModel SearchSpec SearchProofs SearchVerb.
Import ListNotations.
Local Open Scope list_scope.
Local Open Scope Z_scope.

(** With at least one round and positive beams: exactly if every round fitted at least one new model does printing change nothing; otherwise it
    raises IndexError.  Missing from C48: the other case. *)
Theorem C48_exact_partial : forall D Sc W (sle : Sc -> Sc -> bool), total_preorder sle ->
  forall (next : W -> nat) (fit : fitter D W), fresh_fitter next fit ->
  forall offset rules utility, fits_each fit -> forall start rounds beam w w' st,
  0 < rounds -> valid_beam rounds beam -> (forall i z, (i < Z.to_nat rounds)%nat -> beam_value beam i z -> 0 < z) ->
  explore_model_space sle offset fit rules utility start rounds beam false w = (w', Ok st) ->
  (Forall (fun models => models <> []) (tested_models st) ->
     explore_model_space sle offset fit rules utility start rounds beam true w = (w', Ok st))
  /\ (~ Forall (fun models => models <> []) (tested_models st) ->
     exists w1, explore_model_space sle offset fit rules utility start rounds beam true w = (w1, Raise EIndexError)).
Proof. exact @loud_search. Qed.
Print Assumptions C48_exact_partial.
Example C48_exact_example : (exists w st, toy_explore 2 (BList [Some 2; Some 1]) false = (w, Ok st)
    /\ map (fun l => Nat.ltb 0 (List.length l)) (tested_models st) = [true; true; true])
  /\ ids_of (toy_explore 2 (BList [Some 2; Some 1]) true) = ids_of (toy_explore 2 (BList [Some 2; Some 1]) false).
Proof. split; [do 2 eexists; split; vm_compute; reflexivity|]. vm_compute. reflexivity. Qed.

(** Without rounds printing always raises. *)
Theorem C48_no_rounds : forall D Sc W (sle : Sc -> Sc -> bool) (fit : fitter D W) offset rules utility start beam w w' st, valid_beam 0 beam ->
  explore_model_space sle offset fit rules utility start 0 beam false w = (w', Ok st) ->
  exists w1, explore_model_space sle offset fit rules utility start 0 beam true w = (w1, Raise EIndexError).
Proof. exact @loud_no_rounds. Qed.
Print Assumptions C48_no_rounds.
Example C48_no_rounds_example : exists w st, toy_explore 0 (BInt 1) false = (w, Ok st).
Proof. do 2 eexists. vm_compute. reflexivity. Qed.
