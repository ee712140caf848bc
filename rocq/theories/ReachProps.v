(** What the grammar can reach and what searches try: C58-C61. *)
From Coq Require Import String List Bool Arith ZArith Lia Permutation.
From Verif Require Import Py UtilModel KexModel KexSpec KexProofs KexCheck OpsModel OpsSpec OpsProofs SearchModel SearchSpec SearchProofs
  ReachSpec ReachProofs ReachCong ReachSearch ReachOver ReachWit.
Import ListNotations.
Local Open Scope list_scope.
Local Open Scope Z_scope.

(** C58: from any expression, finitely many expansions lead to any simplified expression over the grammar's bases. *)
Theorem C58_complete : forall offset bases noC rules start t, grammar_bases bases noC -> wf_rules rules -> enough_rules offset bases noC rules -> wf start ->
  searchable offset bases t -> exists e, reaches offset rules start e /\ keq e t = true.
Proof. exact complete_eq. Qed.
Print Assumptions C58_complete.
(** The built-in groups (all, default, original) have the rules that suffice. *)
Theorem C58_groups : forall offset bases noC G start t, grammar_bases bases noC -> In G [rules_all offset; rules_default offset; rules_original offset] ->
  wf start -> searchable offset bases t -> exists e, reaches offset (G bases noC) start e /\ keq e t = true.
Proof. exact complete_groups. Qed.
Print Assumptions C58_groups.
(** The grammar's four bases, and WN + LIN * CW(LIN * PER, C + PER). *)
Example C58_example : grammar_bases [bWN; bC; bLIN; bPER] [bWN; bLIN; bPER] /\ wf (Comm KSum [(bSE, 1)] [])
  /\ searchable true [bWN; bC; bLIN; bPER]
       (Comm KSum [(bWN, 1)] [Comm KProd [(bLIN, 1)] [Change CW (inr (Comm KProd [(bLIN, 1); (bPER, 1)] [])) (inr (Comm KSum [(bC, 1); (bPER, 1)] []))]]).
Proof. split; [exact ex_grammar|]. split; [apply okb_sound; reflexivity|exact ex_searchable]. Qed.

(** C59: equal expressions have equal expansions. *)
Theorem C59_expand_respects_eq : forall offset rules e e', wf e -> wf e' -> wf_rules rules -> respects_eq rules -> keq e e' = true ->
  same_up_to_eq (expand offset rules e) (expand offset rules e').
Proof. exact expand_cong. Qed.
Print Assumptions C59_expand_respects_eq.
Theorem C59_groups : forall offset G bases noC e e', In G [rules_all offset; rules_default offset; rules_original offset; rules_minimal offset] ->
  wf e -> wf e' -> keq e e' = true -> same_up_to_eq (expand offset (G bases noC) e) (expand offset (G bases noC) e').
Proof. exact groups_expand_cong. Qed.
Print Assumptions C59_groups.
Example C59_example :
  let a := Comm KSum [(bWN, 1); (bPER, 1)] [Comm KProd [(bLIN, 2)] []; Change CP (inl bLIN) (inl bPER)] in
  let b := Comm KSum [(bPER, 1); (bWN, 1)] [Change CP (inl bLIN) (inl bPER); Comm KProd [(bLIN, 2)] []] in
  wf a /\ wf b /\ keq a b = true /\ a <> b.
Proof. split; [apply okb_sound; reflexivity|]. split; [apply okb_sound; reflexivity|]. split; [reflexivity|discriminate]. Qed.

(** C60: a search tries nothing but what at most [rounds] expansions can give. *)
Theorem C60_only_reachable : forall D Sc W (sle : Sc -> Sc -> bool), total_preorder sle ->
  forall (next : W -> nat) (fit : fitter D W), fresh_fitter next fit -> fits_each fit ->
  forall offset rules utility start start_kexs rounds beam verbose w w' st, make_simple_kexs offset start = Ok start_kexs ->
  explore_model_space sle offset fit rules utility start rounds beam verbose w = (w', Ok st) ->
  forall x, In x (tested_k_exprs st) -> exists s n, In s start_kexs /\ (n <= Z.to_nat rounds)%nat /\ reaches_in offset rules s n x.
Proof. intros D Sc W. exact explore_sound. Qed.
Print Assumptions C60_only_reachable.
(** With a beam that is never exceeded, it tries all of it (up to ==). *)
Theorem C60_all_reachable : forall D Sc W (sle : Sc -> Sc -> bool), total_preorder sle ->
  forall (next : W -> nat) (fit : fitter D W), fresh_fitter next fit -> fits_each fit ->
  forall offset rules utility start start_kexs rounds beam verbose w w' st, wf_rules rules -> respects_eq rules ->
  make_simple_kexs offset start = Ok start_kexs -> (forall s, In s start_kexs -> wf s) -> 0 <= rounds ->
  explore_model_space sle offset fit rules utility start rounds beam verbose w = (w', Ok st) ->
  beam_at_least rounds beam (Z.of_nat (Datatypes.length (sorted_models st))) ->
  forall s n x, In s start_kexs -> (n <= Z.to_nat rounds)%nat -> reaches_in offset rules s n x -> has_equal (tested_k_exprs st) x.
Proof. intros D Sc W. exact explore_exhaustive. Qed.
Print Assumptions C60_all_reachable.
(** Hence any simplified expression is tried by all searches with enough rounds and a wide enough beam. *)
Theorem C60_finds : forall D Sc W (sle : Sc -> Sc -> bool), total_preorder sle ->
  forall (next : W -> nat) (fit : fitter D W), fresh_fitter next fit -> fits_each fit ->
  forall utility offset bases noC G start start_kexs t, never_raises fit utility -> grammar_bases bases noC ->
  In G [rules_all offset; rules_default offset; rules_original offset] ->
  make_simple_kexs offset start = Ok start_kexs -> start_kexs <> [] -> (forall s, In s start_kexs -> wf s) -> searchable offset bases t ->
  exists n, forall rounds w, n <= rounds -> exists w' st B, forall b, B <= b ->
    explore_model_space sle offset fit (G bases noC) utility start rounds (BInt b) false w = (w', Ok st) /\ has_equal (tested_k_exprs st) t.
Proof. intros D Sc W. exact explore_finds. Qed.
Print Assumptions C60_finds.
Example C60_example : total_preorder Z.leb /\ fresh_fitter (fun w => w) toy_fit /\ fits_each toy_fit /\ never_raises toy_fit toy_score
  /\ make_simple_kexs true toy_start = Ok [Comm KSum [(bWN, 1)] []; Comm KSum [(bPER, 1)] []]
  /\ match snd (toy_explore 1 (BInt 30) false) with
     | Ok st => Datatypes.length (sorted_models st) = 12%nat /\ beam_at_least 1 (BInt 30) 12
     | Raise _ => False
     end.
Proof.
  split; [exact zleb_total|]. split; [apply toy_fit_fresh|]. split; [apply toy_fit_fresh|]. split; [exact toy_never_raises|]. split; [reflexivity|].
  vm_compute. split; [reflexivity|]. split; [exact Logic.I|]. intros i z _ ->. discriminate.
Qed.

(** C61: expansions and searches introduce no base kernels but the grammar's, LIN, PER and C. *)
Theorem C61_expand : forall offset bs, In bLIN bs -> In bPER bs -> In bC bs ->
  forall G bases noC e x, In G [rules_all offset; rules_default offset; rules_original offset; rules_minimal offset] ->
  (forall b, In b bases \/ In b noC -> In b bs) -> wf e -> over bs e -> In x (expand offset (G bases noC) e) -> over bs x.
Proof. exact expand_over. Qed.
Print Assumptions C61_expand.
Theorem C61_search : forall D Sc W (sle : Sc -> Sc -> bool), total_preorder sle ->
  forall (next : W -> nat) (fit : fitter D W), fresh_fitter next fit -> fits_each fit ->
  forall utility offset bases noC G start start_kexs rounds beam verbose w w' st bs,
  In G [rules_all offset; rules_default offset; rules_original offset; rules_minimal offset] ->
  (forall b, In b bases \/ In b noC -> In b bs) -> In bLIN bs -> In bPER bs -> In bC bs ->
  make_simple_kexs offset start = Ok start_kexs -> (forall s, In s start_kexs -> wf s /\ over bs s) ->
  explore_model_space sle offset fit (G bases noC) utility start rounds beam verbose w = (w', Ok st) ->
  forall x, In x (tested_k_exprs st) -> over bs x.
Proof. intros D Sc W. exact explore_over. Qed.
Print Assumptions C61_search.
Example C61_example : wf ex_target /\ over [bWN; bC; bLIN; bPER] ex_target
  /\ Nat.ltb 20 (Datatypes.length (expand true (rules_all true [bWN; bC; bLIN; bPER] [bWN; bLIN; bPER]) (Comm KSum [(bPER, 1); (bC, 1)] []))) = true.
Proof. split; [apply okb_sound; reflexivity|]. split; [apply ex_searchable|]. vm_compute. reflexivity. Qed.
