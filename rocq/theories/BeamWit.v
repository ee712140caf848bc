(** A wider beam with a worse result. *)
From Coq Require Import String List Bool Arith ZArith Lia Permutation.
From Verif Require Import Py UtilModel KexModel KexSpec KexProofs OpsModel SearchModel SearchSpec SearchProofs RunSpec BeamSpec.
Import ListNotations.
Local Open Scope list_scope.
Local Open Scope Z_scope.

(** Scores of expressions (lower is better): PER is better than WN, but two expansions of WN are better than PER + PER, whose expansion
    PER + PER + PER is the best of all. *)
Definition table : list (kex * Z) :=
  [(Comm KSum [(bPER, 1)] [], 10); (Comm KSum [(bWN, 1)] [], 11); (Comm KSum [(bPER, 2)] [], 5); (Comm KSum [(bPER, 3)] [], 1);
   (Comm KSum [(bWN, 1); (bLIN, 1)] [], 3); (Comm KProd [(bWN, 1); (bLIN, 1)] [], 4)].
Definition look (l : list (kex * Z)) (e : kex) : Z := match find (fun p => keq (fst p) e) l with Some (_, s) => s | None => 100 end.
Definition table_score (m : toy_gp) : res Z := Ok (look table (gkex m)).
Definition beam_run (rounds : Z) (b : Z) := explore_model_space Z.leb true toy_fit (rules_default true [bWN; bC; bLIN; bPER] [bWN; bLIN; bPER]) table_score
  [inl "PER"%string; inl "WN"%string] rounds (BInt b) false toy_world.
Lemma look_cong l e e' : keq e e' = true -> look l e = look l e'.
Proof.
  intros E. unfold look. assert (F : find (fun p : kex * Z => keq (fst p) e) l = find (fun p => keq (fst p) e') l); [|rewrite F; reflexivity].
  induction l as [|[x z] l IH]; [reflexivity|]. cbn [find fst]. rewrite IH.
  assert (keq x e = keq x e') as ->; [|reflexivity].
  destruct (keq x e) eqn:E1, (keq x e') eqn:E2; try reflexivity.
  - rewrite (keq_trans _ _ _ E1 E) in E2. discriminate.
  - rewrite keq_sym in E. rewrite (keq_trans _ _ _ E2 E) in E1. discriminate.
Qed.
Lemma table_fun st st' : agreeing_scores Z.leb table_score st table_score st'.
Proof.
  intros e s e' s' (m & _ & <- & Es) (m' & _ & <- & Es') E. unfold table_score in Es, Es'.
  assert (s = look table (gkex m)) as -> by congruence. assert (s' = look table (gkex m')) as -> by congruence.
  rewrite (look_cong _ _ _ E). split; apply Z.leb_refl.
Qed.
(** The score of the best model. *)
Definition top (r : res (results unit)) : option Z :=
  match r with Ok st => match sorted_models st with m :: _ => Some (look table (gkex m)) | [] => None end | Raise _ => None end.
Lemma narrow_top : top (snd (beam_run 2 1)) = Some 1.
Proof. vm_compute. reflexivity. Qed.
Lemma wide_top : top (snd (beam_run 2 2)) = Some 3.
Proof. vm_compute. reflexivity. Qed.
Lemma top_ok (r : (nat * @heap Z) * res (results unit)) z : top (snd r) = Some z -> exists w st m l, r = (w, Ok st) /\ sorted_models st = m :: l /\ look table (gkex m) = z.
Proof.
  destruct r as [w [st|e]]; cbn [snd top]; [|discriminate]. destruct (sorted_models st) as [|m l] eqn:E; [discriminate|]. intros H.
  exists w, st, m, l. split; [reflexivity|]. split; [exact E|]. congruence.
Qed.
Lemma wider_worse : exists (next : nat -> nat) (fit : fitter unit nat) (utility : gp unit -> res Z) start rules w w1 st w2 st',
  total_preorder Z.leb /\ fresh_fitter next fit /\ fits_each fit /\ rules = rules_default true [bWN; bC; bLIN; bPER] [bWN; bLIN; bPER]
  /\ explore_model_space Z.leb true fit rules utility start 2 (BInt 1) false w = (w1, Ok st)
  /\ explore_model_space Z.leb true fit rules utility start 2 (BInt 2) false w = (w2, Ok st')
  /\ agreeing_scores Z.leb utility st utility st' /\ ~ no_worse Z.leb utility st utility st'.
Proof.
  destruct (top_ok _ _ narrow_top) as (w1 & st & m & l & E & Em & Es). destruct (top_ok _ _ wide_top) as (w2 & st' & m' & l' & E' & Em' & Es').
  exists (fun w => w), toy_fit, table_score, [inl "PER"%string; inl "WN"%string], (rules_default true [bWN; bC; bLIN; bPER] [bWN; bLIN; bPER]), toy_world, w1, st, w2, st'.
  split; [exact zleb_total|]. split; [apply toy_fit_fresh|]. split; [apply toy_fit_fresh|]. split; [reflexivity|]. split; [exact E|]. split; [exact E'|].
  split; [apply table_fun|]. intros N. destruct (N m l Em) as (b' & o' & s & s' & Eb & Hs & Hs' & Hle).
  rewrite Em' in Eb. unfold table_score in Hs, Hs'. assert (b' = m') as -> by congruence. assert (s = 1) as -> by congruence. assert (s' = 3) as -> by congruence. discriminate.
Qed.
