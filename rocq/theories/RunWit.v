(** Built-in rules and examples for C62. *)
From Coq Require Import String List Bool Arith ZArith Lia Sorted Permutation.
From Verif Require Import Py UtilModel UtilProofs KexModel KexSpec KexProofs OpsModel OpsSpec OpsProofs SearchModel SearchSpec SearchProofs
  ReachSpec ReachProofs ReachCong ReachSearch ReachWit RunSpec RunProofs.
Import ListNotations.
Local Open Scope list_scope.
Local Open Scope Z_scope.

Lemma mapM_perm {A B} (f : A -> res B) l l' : Permutation l l' -> forall r, mapM f l = Ok r -> exists r', mapM f l' = Ok r' /\ Permutation r r'.
Proof.
  induction 1 as [|x l l' P IH|x y l|l l' l'' P1 IH1 P2 IH2]; intros r H; cbn [mapM] in *.
  - injection H as <-. eauto.
  - destruct (f x) as [b|]; [|discriminate]. cbn [bind] in *. destruct (mapM f l) as [bs|]; [|discriminate]. cbn [bind] in *. injection H as <-.
    destruct (IH bs eq_refl) as (r' & -> & P'). eexists. split; [reflexivity|]. constructor. exact P'.
  - destruct (f y) as [b|]; [|discriminate]. destruct (f x) as [a|]; [|discriminate]. cbn [bind] in *. destruct (mapM f l) as [bs|]; [|discriminate].
    cbn [bind] in *. injection H as <-. eexists. split; [reflexivity|]. constructor.
  - destruct (IH1 r H) as (r1 & H1 & Q1). destruct (IH2 r1 H1) as (r2 & H2 & Q2). exists r2. split; [exact H2|]. transitivity r1; assumption.
Qed.
Lemma perm_multiset l l' : Permutation l l' -> same_multiset l l'.
Proof. intros P. exists l. split; [symmetry; exact P|]. clear P. induction l; constructor; [apply keq_refl|assumption]. Qed.

Section Groups.
  Context {D Sc W D' W' : Type} (sle : Sc -> Sc -> bool) (Hsle : total_preorder sle).
  Context (next : W -> nat) (fit : fitter D W) (Hfit : fresh_fitter next fit) (Hall : fits_each fit) (u : gp D -> res Sc).
  Context (next' : W' -> nat) (fit' : fitter D' W') (Hfit' : fresh_fitter next' fit') (Hall' : fits_each fit') (u' : gp D' -> res Sc).
  Lemma explore_groups_same offset G bases bases' noC noC' start start' ks rounds beam v v' w w1 st w' w1' st' :
    In G (groups offset) -> Permutation bases bases' -> Permutation noC noC' -> Permutation start start' ->
    make_simple_kexs offset start = Ok ks -> (forall x, In x ks -> wf x) ->
    explore_model_space sle offset fit (G bases noC) u start rounds beam v w = (w1, Ok st) ->
    explore_model_space sle offset fit' (G bases' noC') u' start' rounds beam v' w' = (w1', Ok st') ->
    scores_identify sle (fun e s => judged u st e s \/ judged u' st' e s) -> same_outcome st st'.
  Proof.
    intros HG Pb Pc Ps Ek Wk H H'. destruct (mapM_perm _ _ _ Ps _ Ek) as (ks' & Ek' & Pk).
    apply (explore_same sle Hsle next fit Hfit Hall u next' fit' Hfit' Hall' u' offset (G bases noC) (G bases' noC') start ks start' ks' rounds beam v v' w w1 st w' w1' st');
      [exact (groups_wf offset G _ _ HG)|exact (groups_wf offset G _ _ HG)| |exact Ek|exact Ek'|apply perm_multiset, Pk|exact Wk| |exact H|exact H'].
    - intros e e' We We' E. destruct (groups_expand_cong offset G bases noC e e' HG We We' E) as [A1 A2].
      destruct (expand_order offset e' G bases bases' noC noC' We' HG Pb Pc) as [B1 B2]. split.
      + intros x Hx. destruct (A1 x Hx) as (y & Hy & Exy). destruct (B1 y Hy) as (z & Hz & Eyz). exists z. split; [exact Hz|exact (keq_trans _ _ _ Exy Eyz)].
      + intros x Hx. destruct (B2 x Hx) as (y & Hy & Exy). destruct (A2 y Hy) as (z & Hz & Eyz). exists z. split; [exact Hz|]. exact (keq_trans _ _ _ Eyz Exy).
    - intros x Hx. apply Wk. eapply Permutation_in; [symmetry; exact Pk|exact Hx].
  Qed.
End Groups.

(** A score that tells expressions apart (those of the example). *)
Definition base_code (b : base) : Z := match b with bWN => 3 | bC => 5 | bLIN => 7 | bPER => 11 | _ => 13 end.
Fixpoint code (e : kex) : Z :=
  let operand o := match o with inl b => base_code b | inr e => 17 + code e end in
  match e with
  | Comm k bs cs =>
      let z := fold_right (fun p a => base_code (fst p) * snd p * snd p + a) 0 bs + fold_right (fun c a => code c * code c + a) 0 cs in
      match k with KSum => 2 * z | KProd => 1001 * z end
  | Change k l r => match k with CP => 10007 | CW => 20011 end + 101 * operand l + 1009 * operand r
  end.
Definition code_score (m : toy_gp) : res Z := Ok (code (gkex m)).
(** The other run numbers its objects from 1000. *)
Definition other_world : nat * heap := (Z.to_nat 1000, (fun _ => @None Z)).
Definition run_a := explore_model_space Z.leb true toy_fit (rules_minimal true [bPER; bLIN] [bPER; bLIN]) code_score [inl "WN"%string; inl "PER"%string] 2 (BInt 2) false toy_world.
Definition run_b := explore_model_space Z.leb true toy_fit (rules_minimal true [bLIN; bPER] [bLIN; bPER]) code_score [inl "PER"%string; inl "WN"%string] 2 (BInt 2) true other_world.
Definition identify_b (l : list kex) : bool := forallb (fun e => forallb (fun e' => Bool.eqb (keq e e') (Z.eqb (code e) (code e'))) l) l.
Lemma identify_sound st st' : identify_b (map gkex (sorted_models st ++ sorted_models st')) = true ->
  scores_identify Z.leb (fun e s => judged code_score st e s \/ judged code_score st' e s).
Proof.
  intros H. assert (A : forall e s, judged code_score st e s \/ judged code_score st' e s -> In e (map gkex (sorted_models st ++ sorted_models st')) /\ s = code e).
  { intros e s [(m & Hm & <- & [= <-])|(m & Hm & <- & [= <-])]; (split; [apply in_map, in_app_iff; auto|reflexivity]). }
  intros e s e' s' J J'. destruct (A _ _ J) as [I ->], (A _ _ J') as [I' ->]. unfold identify_b in H. rewrite forallb_forall in H. specialize (H e I).
  rewrite forallb_forall in H. specialize (H e' I'). apply eqb_prop in H. rewrite H. lia.
Qed.
(** With ties, the order of the start kernels decides. *)
Lemma ties_matter : exists start start' w1 st w1' st', Permutation start start'
  /\ explore_model_space Z.leb true toy_fit toy_rules (fun _ => Ok 0) start 1 (BInt 1) false toy_world = (w1, Ok st)
  /\ explore_model_space Z.leb true toy_fit toy_rules (fun _ => Ok 0) start' 1 (BInt 1) false toy_world = (w1', Ok st')
  /\ ~ same_multiset (tested_k_exprs st) (tested_k_exprs st').
Proof.
  exists [inl "WN"%string; inl "PER"%string], [inl "PER"%string; inl "WN"%string]. do 4 eexists. split; [constructor|].
  split; [vm_compute; reflexivity|]. split; [vm_compute; reflexivity|]. intros H. apply mseq_multiset in H.
  specialize (H (Comm KSum [(bPER, 2)] [])). vm_compute in H. discriminate.
Qed.
