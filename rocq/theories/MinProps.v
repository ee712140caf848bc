(** What the minimal group of rules reaches (C76). *)
From Coq Require Import String List Bool Arith ZArith Lia.
From Verif Require Import Py UtilModel KexModel KexSpec KexProofs KexCheck SemSpec OpsModel OpsSpec OpsProofs SearchModel SearchSpec SearchProofs ReachSpec
  ReachWit CountSpec CostSpec ReachKeep MinWit.
Import ListNotations.
Local Open Scope list_scope.
Local Open Scope Z_scope.

(** C76: from a base kernel the minimal rules reach every simplified expression within six expansions per symbol, less three. *)
Theorem C76_from_base : forall offset bases noC, grammar_bases bases noC -> In bWN bases -> forall A t, searchable offset bases t ->
  exists n e, (n <= 6 * symbols t - 3)%nat /\ reaches_in offset (rules_minimal offset bases noC) (Comm KSum [(A, 1)] []) n e /\ keq e t = true.
Proof. exact minimal_from_base. Qed.
Print Assumptions C76_from_base.
(** From a simplified expression they reach every one if and only if it has no change operator. *)
Theorem C76_exactly : forall offset bases noC, grammar_bases bases noC -> In bWN bases -> forall start, searchable offset bases start ->
  ((forall t, searchable offset bases t -> exists e, reaches offset (rules_minimal offset bases noC) start e /\ keq e t = true)
   <-> forall o l r, ~ node (Change o l r) start).
Proof. exact minimal_iff. Qed.
Print Assumptions C76_exactly.
(** A change operator is never lost altogether. *)
Theorem C76_stays : forall offset bases noC e x, wf e -> (exists o l r, node (Change o l r) e) -> reaches offset (rules_minimal offset bases noC) e x ->
  exists o l r, node (Change o l r) x.
Proof. exact change_stays. Qed.
Print Assumptions C76_stays.
(** The target WN + LIN * CW(LIN * PER, C + PER) of 11 symbols; PER + LIN * LIN starts a search for it, CP(PER, LIN) only for others with a change. *)
Example C76_example : grammar_bases [bWN; bC; bLIN; bPER] [bWN; bLIN; bPER] /\ In bWN [bWN; bC; bLIN; bPER] /\ searchable true [bWN; bC; bLIN; bPER] ex_target
  /\ searchable true [bWN; bC; bLIN; bPER] free_start /\ change_free free_start
  /\ searchable true [bWN; bC; bLIN; bPER] change_start /\ node (Change CP (inl bPER) (inl bLIN)) change_start
  /\ reaches true (rules_minimal true [bWN; bC; bLIN; bPER] [bWN; bLIN; bPER]) change_start (Change CP (inl bWN) (inl bLIN)).
Proof.
  split; [exact ex_grammar|]. split; [cbn; auto|]. split; [exact ex_searchable|].
  split; [|split; [apply nc_free; reflexivity|split; [|split; [constructor|]]]].
  - exact free_searchable.
  - exact change_searchable.
  - eapply reaches_step; [apply reaches_self|]. vm_compute. tauto.
Qed.

(** A long and wide enough search with the minimal rules finds the target if some start kernel has no change operator, *)
Theorem C76_finds : forall D Sc W (sle : Sc -> Sc -> bool), total_preorder sle ->
  forall (next : W -> nat) (fit : fitter D W), fresh_fitter next fit -> fits_each fit ->
  forall utility offset bases noC start start_kexs s t, never_raises fit utility -> grammar_bases bases noC -> In bWN bases ->
  make_simple_kexs offset start = Ok start_kexs -> (forall s, In s start_kexs -> wf s) ->
  In s start_kexs -> searchable offset bases s -> change_free s -> searchable offset bases t ->
  exists n, forall rounds w, n <= rounds -> exists w' st B, forall b, B <= b ->
    explore_model_space sle offset fit (rules_minimal offset bases noC) utility start rounds (BInt b) false w = (w', Ok st) /\ has_equal (tested_k_exprs st) t.
Proof. intros D Sc W. exact minimal_finds. Qed.
Print Assumptions C76_finds.
(** and otherwise never tries a model without one. *)
Theorem C76_misses : forall D Sc W (sle : Sc -> Sc -> bool), total_preorder sle ->
  forall (next : W -> nat) (fit : fitter D W), fresh_fitter next fit -> fits_each fit ->
  forall utility offset bases noC start start_kexs rounds beam verbose w w' st, make_simple_kexs offset start = Ok start_kexs ->
  (forall s, In s start_kexs -> wf s /\ ~ change_free s) ->
  explore_model_space sle offset fit (rules_minimal offset bases noC) utility start rounds beam verbose w = (w', Ok st) ->
  forall x, In x (tested_k_exprs st) -> exists o l r, node (Change o l r) x.
Proof. intros D Sc W. exact minimal_misses. Qed.
Print Assumptions C76_misses.
Example C76_search_example : total_preorder Z.leb /\ fresh_fitter (fun w => w) toy_fit /\ fits_each toy_fit /\ never_raises toy_fit toy_score
  /\ make_simple_kexs true [inr change_start] = Ok [change_start] /\ wf change_start /\ ~ change_free change_start
  /\ match explore_model_space Z.leb true toy_fit (rules_minimal true [bWN; bPER] [bPER]) toy_score [inr change_start] 1 (BInt 1) false toy_world with
     | (_, Ok st) => Datatypes.length (tested_k_exprs st) = 19%nat
     | (_, Raise _) => False
     end.
Proof.
  split; [exact zleb_total|]. split; [apply toy_fit_fresh|]. split; [apply toy_fit_fresh|]. split; [exact toy_never_raises|].
  split; [reflexivity|]. split; [apply okb_sound; reflexivity|]. split; [intros H; apply (H CP (inl bPER) (inl bLIN)); constructor|]. vm_compute. reflexivity.
Qed.
