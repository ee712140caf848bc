(** C72: wider beams. *)
From Coq Require Import String List Bool Arith ZArith Lia Permutation.
From Verif Require Import Py UtilModel KexModel KexSpec OpsModel OpsSpec SearchModel SearchSpec SearchProofs ReachSpec RunSpec BeamSpec BeamProofs BeamWit.
Import ListNotations.
Local Open Scope list_scope.
Local Open Scope Z_scope.

(** A wider beam can give a worse best model, although equal expressions get equal scores. *)
Theorem C72_refuted : exists (next : nat -> nat) (fit : fitter unit nat) (utility : gp unit -> res Z) start rules w w1 st w2 st',
  total_preorder Z.leb /\ fresh_fitter next fit /\ fits_each fit /\ rules = rules_default true [bWN; bC; bLIN; bPER] [bWN; bLIN; bPER]
  /\ explore_model_space Z.leb true fit rules utility start 2 (BInt 1) false w = (w1, Ok st)
  /\ explore_model_space Z.leb true fit rules utility start 2 (BInt 2) false w = (w2, Ok st')
  /\ agreeing_scores Z.leb utility st utility st' /\ ~ no_worse Z.leb utility st utility st'.
Proof. exact wider_worse. Qed.
Print Assumptions C72_refuted.

(** A beam that is wider in the last round only (with one round: any wider beam) does not. *)
Theorem C72_last_round_partial : forall D Sc W (sle : Sc -> Sc -> bool), total_preorder sle ->
  forall (next : W -> nat) (fit : fitter D W), fresh_fitter next fit -> fits_each fit -> forall offset rules (utility : gp D -> res Sc),
  forall start n beam beam' w w1 st w' st', 0 <= n -> valid_beam (n + 1) beam -> valid_beam (n + 1) beam' -> wider_at_end (Z.to_nat n) beam beam' ->
  explore_model_space sle offset fit rules utility start (n + 1) beam false w = (w1, Ok st) ->
  explore_model_space sle offset fit rules utility start (n + 1) beam' false w = (w', Ok st') ->
  agreeing_scores sle utility st utility st' -> no_worse sle utility st utility st'.
Proof. intros D Sc W. exact search_wider_at_end. Qed.
Print Assumptions C72_last_round_partial.
(** One round with beams 1 and 2, and what they find. *)
Example C72_last_round_example : valid_beam (0 + 1) (BInt 1) /\ valid_beam (0 + 1) (BInt 2) /\ wider_at_end (Z.to_nat 0) (BInt 1) (BInt 2)
  /\ top (snd (beam_run 1 1)) = Some 5 /\ top (snd (beam_run 1 2)) = Some 3 /\ forall st st', agreeing_scores Z.leb table_score st table_score st'.
Proof.
  split; [exact Logic.I|]. split; [exact Logic.I|]. split; [split; [intros i z Hi; change (Z.to_nat 0) with 0%nat in Hi; lia|intros z z' -> ->; lia]|]. split; [vm_compute; reflexivity|]. split; [vm_compute; reflexivity|].
  exact table_fun.
Qed.

(** A search whose beam is never exceeded finds a model that is at least as good as any search with any beam and no more rounds. *)
Theorem C72_exhaustive_partial : forall D Sc W D' W' (sle : Sc -> Sc -> bool), total_preorder sle ->
  forall (next : W -> nat) (fit : fitter D W), fresh_fitter next fit -> fits_each fit -> forall (utility : gp D -> res Sc),
  forall (next' : W' -> nat) (fit' : fitter D' W'), fresh_fitter next' fit' -> fits_each fit' -> forall (utility' : gp D' -> res Sc),
  forall offset rules start start_kexs rounds rounds' beam beam' verbose verbose' w w1 st w' w1' st', wf_rules rules -> respects_eq rules ->
  make_simple_kexs offset start = Ok start_kexs -> (forall s, In s start_kexs -> wf s) -> 0 <= rounds' -> rounds <= rounds' ->
  explore_model_space sle offset fit rules utility start rounds beam verbose w = (w1, Ok st) ->
  explore_model_space sle offset fit' rules utility' start rounds' beam' verbose' w' = (w1', Ok st') ->
  beam_at_least rounds' beam' (Z.of_nat (Datatypes.length (sorted_models st'))) ->
  agreeing_scores sle utility st utility' st' -> no_worse sle utility st utility' st'.
Proof. intros D Sc W D' W'. exact search_exhaustive_best. Qed.
Print Assumptions C72_exhaustive_partial.
Example C72_exhaustive_example : match snd (beam_run 1 1), snd (beam_run 1 60) with
  | Ok st, Ok st' => beam_at_least 1 (BInt 60) (Z.of_nat (Datatypes.length (sorted_models st'))) /\ (5 < Datatypes.length (sorted_models st) < Datatypes.length (sorted_models st'))%nat
  | _, _ => False end.
Proof. vm_compute. split; [split; [exact Logic.I|intros i z _ ->; discriminate]|]. lia. Qed.
