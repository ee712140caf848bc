(** How many rounds and how wide a beam are needed (C74), and what a search can raise (C75). *)
From Coq Require Import String List Bool Arith ZArith Lia.
From Verif Require Import Py UtilModel KexModel KexSpec KexProofs KexCheck SemSpec OpsModel OpsSpec OpsProofs SearchModel SearchSpec SearchProofs ReachSpec
  ReachWit CountSpec CostSpec RoundProofs.
Import ListNotations.
Local Open Scope list_scope.
Local Open Scope Z_scope.

(** C74: every simplified expression is reached from every expression within three expansions per symbol, less one. *)
Theorem C74_upper : forall offset bases noC rules start t, grammar_bases bases noC -> wf_rules rules -> enough_rules offset bases noC rules -> wf start ->
  searchable offset bases t -> exists n e, (n <= 3 * symbols t - 1)%nat /\ reaches_in offset rules start n e /\ keq e t = true.
Proof. exact complete_in. Qed.
Print Assumptions C74_upper.
Theorem C74_groups : forall offset bases noC G start t, grammar_bases bases noC -> In G [rules_all offset; rules_default offset; rules_original offset] -> wf start ->
  searchable offset bases t -> exists n e, (n <= 3 * symbols t - 1)%nat /\ reaches_in offset (G bases noC) start n e /\ keq e t = true.
Proof. exact complete_in_groups. Qed.
Print Assumptions C74_groups.
(** No better than linearly many suffice with the default rules, nor than logarithmically many with the others. *)
Theorem C74_lower_default : forall offset bases noC start t n e, wf start -> reaches_in offset (rules_default offset bases noC) start n e -> keq e t = true ->
  (symbols t <= symbols start + 4 * n)%nat.
Proof. exact reached_default_lower. Qed.
Print Assumptions C74_lower_default.
Theorem C74_lower : forall offset G bases noC start t n e, In G [rules_all offset; rules_default offset; rules_original offset; rules_minimal offset] ->
  wf start -> reaches_in offset (G bases noC) start n e -> keq e t = true -> (symbols t + 3 <= 2 ^ n * (symbols start + 3))%nat.
Proof. exact reached_lower. Qed.
Print Assumptions C74_lower.
(** WN + LIN * CW(LIN * PER, C + PER) has 11 symbols: at most 32 expansions with any of the groups, and at least three from a base with the default ones. *)
Example C74_example : grammar_bases [bWN; bC; bLIN; bPER] [bWN; bLIN; bPER] /\ wf (Comm KSum [(bPER, 1)] [])
  /\ searchable true [bWN; bC; bLIN; bPER] ex_target /\ symbols ex_target = 11%nat
  /\ reaches_in true (rules_default true [bWN; bC; bLIN; bPER] [bWN; bLIN; bPER]) (Comm KSum [(bPER, 1)] []) 1 (Comm KSum [(bLIN, 1)] []).
Proof.
  split; [exact ex_grammar|]. split; [apply okb_sound; reflexivity|]. split; [exact ex_searchable|]. split; [reflexivity|].
  eapply reaches_more; [apply reaches_zero|]. vm_compute. tauto.
Qed.

(** A search that returns has tried t if it had three rounds per symbol of t (less one) and a beam of the given width. *)
Theorem C74_search_default : forall D Sc W (sle : Sc -> Sc -> bool), total_preorder sle ->
  forall (next : W -> nat) (fit : fitter D W), fresh_fitter next fit -> fits_each fit ->
  forall utility offset bases noC start start_kexs rounds beam verbose w w' st t S, grammar_bases bases noC ->
  make_simple_kexs offset start = Ok start_kexs -> start_kexs <> [] -> (forall s, In s start_kexs -> wf s /\ (symbols s <= S)%nat) -> searchable offset bases t ->
  3 * Z.of_nat (symbols t) - 1 <= rounds ->
  beam_at_least rounds beam (Z.of_nat (Datatypes.length start_kexs
    * (1 + per_symbol (Datatypes.length bases) (Datatypes.length noC) * (S + 4 * Z.to_nat rounds)) ^ Z.to_nat rounds)) ->
  explore_model_space sle offset fit (rules_default offset bases noC) utility start rounds beam verbose w = (w', Ok st) -> has_equal (tested_k_exprs st) t.
Proof. intros D Sc W. exact explore_tries_default. Qed.
Print Assumptions C74_search_default.
Theorem C74_search : forall D Sc W (sle : Sc -> Sc -> bool), total_preorder sle ->
  forall (next : W -> nat) (fit : fitter D W), fresh_fitter next fit -> fits_each fit ->
  forall utility offset G bases noC start start_kexs rounds beam verbose w w' st t S, grammar_bases bases noC ->
  In G [rules_all offset; rules_default offset; rules_original offset] ->
  make_simple_kexs offset start = Ok start_kexs -> start_kexs <> [] -> (forall s, In s start_kexs -> wf s /\ (symbols s <= S)%nat) -> searchable offset bases t ->
  3 * Z.of_nat (symbols t) - 1 <= rounds ->
  beam_at_least rounds beam (Z.of_nat (Datatypes.length start_kexs
    * (1 + per_symbol (Datatypes.length bases) (Datatypes.length noC) * (2 ^ Z.to_nat rounds * (S + 3))) ^ Z.to_nat rounds)) ->
  explore_model_space sle offset fit (G bases noC) utility start rounds beam verbose w = (w', Ok st) -> has_equal (tested_k_exprs st) t.
Proof. intros D Sc W. exact explore_tries_any. Qed.
Print Assumptions C74_search.

(** C75: a search that prints nothing raises nothing but what fitting or the utility raise; if these do not, it returns. *)
Theorem C75_raises : forall D Sc W (sle : Sc -> Sc -> bool), total_preorder sle ->
  forall (next : W -> nat) (fit : fitter D W), fresh_fitter next fit ->
  forall utility offset rules start start_kexs rounds beam w w' e, make_simple_kexs offset start = Ok start_kexs -> 0 <= rounds -> valid_beam rounds beam ->
  explore_model_space sle offset fit rules utility start rounds beam false w = (w', Raise e) ->
  (exists w0 ks w1, fit w0 ks = (w1, Raise e)) \/ exists m, utility m = Raise e.
Proof. intros D Sc W. exact explore_raises. Qed.
Print Assumptions C75_raises.
Theorem C75_returns : forall D Sc W (sle : Sc -> Sc -> bool), total_preorder sle ->
  forall (next : W -> nat) (fit : fitter D W), fresh_fitter next fit ->
  forall utility offset rules start start_kexs rounds beam w, never_raises fit utility -> make_simple_kexs offset start = Ok start_kexs -> 0 <= rounds ->
  valid_beam rounds beam -> exists w' st, explore_model_space sle offset fit rules utility start rounds beam false w = (w', Ok st).
Proof. intros D Sc W. exact explore_runs. Qed.
Print Assumptions C75_returns.
(** Continuing (model_search_rounds) from at least two models, one of which was never scored, always raises TypeError. *)
Theorem C75_unscored : forall D Sc W (sle : Sc -> Sc -> bool), total_preorder sle ->
  forall (next : W -> nat) (fit : fitter D W), fresh_fitter next fit ->
  forall utility offset rules st w verbose beam rounds m, never_raises fit utility -> 0 < rounds -> beam <> [] ->
  In m (concat (tested_models st)) -> (gid m < next (fst w))%nat -> snd w (gid m) = None -> (2 <= Datatypes.length (concat (tested_models st)))%nat ->
  exists w', model_search_rounds sle offset fit rules utility rounds beam verbose st w = (w', Raise ETypeError).
Proof. intros D Sc W. exact continue_unscored. Qed.
Print Assumptions C75_unscored.
(** Two models fitted and not scored. *)
Example C75_unscored_example : exists w ms, toy_fit (fst toy_world) [Comm KSum [(bWN, 1)] []; Comm KSum [(bPER, 1)] []] = (w, Ok ms)
  /\ (forall m, In m ms -> (gid m < w)%nat /\ snd toy_world (gid m) = None) /\ Datatypes.length (concat [ms]) = 2%nat
  /\ snd (model_search_rounds Z.leb true toy_fit (rules_minimal true [bPER] [bPER]) toy_score 1 [1] false
       {| sorted_models := ms; tested_models := [ms]; tested_k_exprs := map gkex ms; expanded := []; not_expanded := ms |} (w, snd toy_world)) = Raise ETypeError.
Proof. eexists. eexists. split; [reflexivity|]. split; [|split; [reflexivity|vm_compute; reflexivity]]. intros m [<-|[<-|[]]]; cbn; split; try reflexivity; lia. Qed.
(** All hypotheses of the searches above at once: the 32 rounds needed for WN + LIN * CW(LIN * PER, C + PER), with the beam given there, return. *)
Example C75_example : let b := Z.of_nat (2 * (1 + per_symbol 4 3 * (2 + 4 * Z.to_nat 32)) ^ Z.to_nat 32) in
  total_preorder Z.leb /\ fresh_fitter (fun w => w) toy_fit /\ fits_each toy_fit /\ never_raises toy_fit toy_score
  /\ (exists ks, make_simple_kexs true toy_start = Ok ks /\ Datatypes.length ks = 2%nat /\ forall s, In s ks -> wf s /\ (symbols s <= 2)%nat)
  /\ 3 * Z.of_nat (symbols ex_target) - 1 = 32 /\ beam_at_least 32 (BInt b) b
  /\ exists w' st, explore_model_space Z.leb true toy_fit (rules_default true [bWN; bC; bLIN; bPER] [bWN; bLIN; bPER]) toy_score toy_start 32 (BInt b) false toy_world = (w', Ok st).
Proof.
  intros b. split; [exact zleb_total|]. split; [apply toy_fit_fresh|]. split; [apply toy_fit_fresh|]. split; [exact toy_never_raises|].
  split. { eexists. split; [reflexivity|]. split; [reflexivity|]. intros s [<-|[<-|[]]]; (split; [apply okb_sound; reflexivity|apply Nat.leb_le; reflexivity]). }
  split; [reflexivity|]. split; [split; [exact Logic.I|intros i z _ ->; lia]|].
  eapply (explore_runs Z.leb zleb_total (fun w => w) toy_fit); [apply toy_fit_fresh|exact toy_never_raises|reflexivity|lia|exact Logic.I].
Qed.
(** A utility that raises. *)
Example C75_raises_example : exists w', explore_model_space Z.leb true toy_fit (rules_minimal true [bPER] [bPER]) (fun _ => Raise EValueError) toy_start 1 (BInt 1) false toy_world
  = (w', Raise EValueError).
Proof. eexists. vm_compute. reflexivity. Qed.
