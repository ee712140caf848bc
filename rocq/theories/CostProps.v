(** How large expressions get and how many models a search fits: C73. *)
From Coq Require Import String List Bool Arith ZArith Lia.
From Verif Require Import Py UtilModel KexModel KexSpec KexProofs KexCheck SemSpec OpsModel OpsSpec OpsProofs SearchModel SearchSpec SearchProofs ReachSpec
  CountSpec CostSpec CostProofs CostMore CostSearch.
Import ListNotations.
Local Open Scope list_scope.
Local Open Scope Z_scope.

(** C73: with the default rules an expansion adds at most four symbols; with any built-in group it at most doubles an expression (plus three). *)
Theorem C73_default_size : forall offset bases noC e x, wf e -> In x (expand offset (rules_default offset bases noC) e) -> (symbols x <= symbols e + 4)%nat.
Proof. exact expand_default_size. Qed.
Print Assumptions C73_default_size.
Theorem C73_size : forall offset G bases noC e x, In G [rules_all offset; rules_default offset; rules_original offset; rules_minimal offset] -> wf e ->
  In x (expand offset (G bases noC) e) -> (symbols x <= 2 * symbols e + 3)%nat.
Proof. exact expand_size. Qed.
Print Assumptions C73_size.
(** The other groups can double an expression over and over. *)
Theorem C73_doubling : forall offset G bases noC e n, In G [rules_all offset; rules_original offset; rules_minimal offset] -> normal offset e -> ~ singleton e ->
  exists x, reaches_in offset (G bases noC) e n x /\ (symbols x + 1 = 2 ^ n * (symbols e + 1))%nat.
Proof. exact doubling. Qed.
Print Assumptions C73_doubling.
(** The number of expansions is at most proportional to the number of symbols. *)
Theorem C73_count : forall offset G bases noC e, In G [rules_all offset; rules_default offset; rules_original offset; rules_minimal offset] -> wf e ->
  (Datatypes.length (expand offset (G bases noC) e) <= 3 * (3 * Datatypes.length bases + 6 * Datatypes.length noC + 13) * symbols e)%nat.
Proof. exact expand_count. Qed.
Print Assumptions C73_count.
(** Searches with the default rules: the models grow at most linearly with the rounds, so does the number fitted in a round, and the number of all models
    grows at most quadratically. *)
Theorem C73_search_default : forall D Sc W (sle : Sc -> Sc -> bool), total_preorder sle ->
  forall (next : W -> nat) (fit : fitter D W), fresh_fitter next fit -> fits_each fit ->
  forall utility offset bases noC start start_kexs rounds beam verbose w w' st S B,
  make_simple_kexs offset start = Ok start_kexs -> (forall s, In s start_kexs -> wf s /\ (symbols s <= S)%nat) ->
  0 <= rounds -> valid_beam rounds beam -> (forall i z, (i < Z.to_nat rounds)%nat -> beam_value beam i z -> 0 <= z <= Z.of_nat B) ->
  explore_model_space sle offset fit (rules_default offset bases noC) utility start rounds beam verbose w = (w', Ok st) ->
  (forall i ms m, nth_error (tested_models st) i = Some ms -> In m ms -> (symbols (gkex m) <= S + 4 * i)%nat)
  /\ (forall i ms, nth_error (tested_models st) (Datatypes.S i) = Some ms ->
       (Datatypes.length ms <= B * (per_symbol (Datatypes.length bases) (Datatypes.length noC) * (S + 4 * i)))%nat)
  /\ (Datatypes.length (sorted_models st) <= Datatypes.length start_kexs
       + B * per_symbol (Datatypes.length bases) (Datatypes.length noC) * (Z.to_nat rounds * (S + 2 * Z.to_nat rounds)))%nat.
Proof. intros D Sc W. exact explore_default_cost. Qed.
Print Assumptions C73_search_default.
(** With the other groups: exponential bounds. *)
Theorem C73_search : forall D Sc W (sle : Sc -> Sc -> bool), total_preorder sle ->
  forall (next : W -> nat) (fit : fitter D W), fresh_fitter next fit -> fits_each fit ->
  forall utility offset G bases noC start start_kexs rounds beam verbose w w' st S B,
  In G [rules_all offset; rules_default offset; rules_original offset; rules_minimal offset] ->
  make_simple_kexs offset start = Ok start_kexs -> (forall s, In s start_kexs -> wf s /\ (symbols s <= S)%nat) ->
  0 <= rounds -> valid_beam rounds beam -> (forall i z, (i < Z.to_nat rounds)%nat -> beam_value beam i z -> 0 <= z <= Z.of_nat B) ->
  explore_model_space sle offset fit (G bases noC) utility start rounds beam verbose w = (w', Ok st) ->
  forall i ms, nth_error (tested_models st) i = Some ms ->
  (forall m, In m ms -> (symbols (gkex m) + 3 <= 2 ^ i * (S + 3))%nat)
  /\ forall j, i = Datatypes.S j -> (Datatypes.length ms <= B * (per_symbol (Datatypes.length bases) (Datatypes.length noC) * (2 ^ j * (S + 3))))%nat.
Proof. intros D Sc W. exact explore_cost. Qed.
Print Assumptions C73_search.

(** PER + WN has three symbols; four more are reached with the default rules, and 2 * 3 + 1 with the others.  The default start kernels have at most four. *)
Example C73_example : let e := Comm KSum [(bPER, 1); (bWN, 1)] [] in
  wf e /\ normal true e /\ symbols e = 3%nat
  /\ existsb (fun x => Nat.eqb (symbols x) 7) (expand true (rules_default true [bWN; bC; bLIN; bPER] [bWN; bLIN; bPER]) e) = true
  /\ Datatypes.length (expand true (rules_default true [bWN; bC; bLIN; bPER] [bWN; bLIN; bPER]) e) = 25%nat
  /\ match start_default true ["WN"; "C"; "LIN"; "PER"]%string with Ok ks => forallb (fun s => Nat.leb (symbols s) 4) ks = true | Raise _ => False end.
Proof. split; [apply okb_sound; reflexivity|]. split; [apply normalb_sound; reflexivity|]. vm_compute. auto. Qed.
Example C73_search_example : match explore_model_space Z.leb true toy_fit (rules_default true [bWN; bC; bLIN; bPER] [bWN; bLIN; bPER]) toy_score toy_start 1 (BInt 2) false toy_world with
  | (_, Ok st) => Datatypes.length (sorted_models st) = 25%nat
  | _ => False end.
Proof. vm_compute. reflexivity. Qed.
