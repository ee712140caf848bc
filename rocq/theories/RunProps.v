(** Two runs of the search: C62. *)
From Coq Require Import String List Bool Arith ZArith Lia Permutation.
From Verif Require Import Py UtilModel KexModel KexSpec KexProofs KexCheck OpsModel OpsSpec OpsProofs SearchModel SearchSpec SearchProofs
  ReachSpec ReachWit RunSpec RunProofs RunWit.
Import ListNotations.
Local Open Scope list_scope.
Local Open Scope Z_scope.

(** C62: two searches that judge expressions alike have the same outcome, whatever the fitters and utilities are, whatever order the base kernels and the
    start kernels come in, whichever objects the models are, and whether or not they print. *)
Theorem C62_same_outcome : forall D Sc W D' W' (sle : Sc -> Sc -> bool), total_preorder sle ->
  forall (next : W -> nat) (fit : fitter D W), fresh_fitter next fit -> fits_each fit -> forall (utility : gp D -> res Sc),
  forall (next' : W' -> nat) (fit' : fitter D' W'), fresh_fitter next' fit' -> fits_each fit' -> forall (utility' : gp D' -> res Sc),
  forall offset G bases bases' noC noC' start start' start_kexs rounds beam verbose verbose' w w1 st w' w1' st',
  In G [rules_all offset; rules_default offset; rules_original offset; rules_minimal offset] ->
  Permutation bases bases' -> Permutation noC noC' -> Permutation start start' ->
  make_simple_kexs offset start = Ok start_kexs -> (forall s, In s start_kexs -> wf s) ->
  explore_model_space sle offset fit (G bases noC) utility start rounds beam verbose w = (w1, Ok st) ->
  explore_model_space sle offset fit' (G bases' noC') utility' start' rounds beam verbose' w' = (w1', Ok st') ->
  scores_identify sle (fun e s => judged utility st e s \/ judged utility' st' e s) -> same_outcome st st'.
Proof. intros D Sc W D' W'. exact explore_groups_same. Qed.
Print Assumptions C62_same_outcome.
(** The same for any rules whose expansions of equal expressions are equal. *)
Theorem C62_any_rules : forall D Sc W D' W' (sle : Sc -> Sc -> bool), total_preorder sle ->
  forall (next : W -> nat) (fit : fitter D W), fresh_fitter next fit -> fits_each fit -> forall (utility : gp D -> res Sc),
  forall (next' : W' -> nat) (fit' : fitter D' W'), fresh_fitter next' fit' -> fits_each fit' -> forall (utility' : gp D' -> res Sc),
  forall offset rules rules' start start_kexs start' start_kexs' rounds beam verbose verbose' w w1 st w' w1' st', wf_rules rules -> wf_rules rules' ->
  (forall e e', wf e -> wf e' -> keq e e' = true -> same_up_to_eq (expand offset rules e) (expand offset rules' e')) ->
  make_simple_kexs offset start = Ok start_kexs -> make_simple_kexs offset start' = Ok start_kexs' -> same_multiset start_kexs start_kexs' ->
  (forall s, In s start_kexs -> wf s) -> (forall s, In s start_kexs' -> wf s) ->
  explore_model_space sle offset fit rules utility start rounds beam verbose w = (w1, Ok st) ->
  explore_model_space sle offset fit' rules' utility' start' rounds beam verbose' w' = (w1', Ok st') ->
  scores_identify sle (fun e s => judged utility st e s \/ judged utility' st' e s) -> same_outcome st st'.
Proof. intros D Sc W D' W'. exact explore_same. Qed.
Print Assumptions C62_any_rules.
(** Two runs of two rounds with 27 models each, other orders and other objects; scores tell their expressions apart. *)
Example C62_example : total_preorder Z.leb /\ fresh_fitter (fun w => w) toy_fit /\ fits_each toy_fit
  /\ match snd run_a, snd run_b with
     | Ok a, Ok b => scores_identify Z.leb (fun e s => judged code_score a e s \/ judged code_score b e s)
         /\ Datatypes.length (sorted_models a) = 27%nat /\ map gid (sorted_models a) <> map gid (sorted_models b) /\ tested_k_exprs a <> tested_k_exprs b
     | _, _ => False
     end.
Proof.
  split; [exact zleb_total|]. split; [apply toy_fit_fresh|]. split; [apply toy_fit_fresh|].
  destruct (snd run_a) as [a|e] eqn:Ea; [|vm_compute in Ea; discriminate]. destruct (snd run_b) as [b|e] eqn:Eb; [|vm_compute in Eb; discriminate].
  vm_compute in Ea, Eb. injection Ea as <-. injection Eb as <-. split; [apply identify_sound; vm_compute; reflexivity|].
  split; [reflexivity|]. split; discriminate.
Qed.
(** Ties are broken by the order in which models come: without distinct scores the order of the start kernels decides what is tried. *)
Theorem C62_ties_matter : exists start start' w1 st w1' st', Permutation start start'
  /\ explore_model_space Z.leb true toy_fit toy_rules (fun _ => Ok 0) start 1 (BInt 1) false toy_world = (w1, Ok st)
  /\ explore_model_space Z.leb true toy_fit toy_rules (fun _ => Ok 0) start' 1 (BInt 1) false toy_world = (w1', Ok st')
  /\ ~ same_multiset (tested_k_exprs st) (tested_k_exprs st').
Proof. exact ties_matter. Qed.
Print Assumptions C62_ties_matter.
