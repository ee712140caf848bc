(** C33 between different observations. *)
From Coq Require Import Reals Lra List Bool Arith ZArith Lia Permutation.
From Verif Require Import Py KexModel KexSpec KexProofs KexSimp KexMore KernModel KernSpec SemModel SemSpec SemProofs SemSimp SemKernel IvModel IvSpec IvProofs ParModel ParSpec ParMatch ParCov ParInv ParInv2 ParInv3 ParGroup
  ParComp ParSop ParSop2 ParSop3 ParProofs.
Import ListNotations.
Local Open Scope list_scope.

Section Off.
  Context (offset fixed : bool).

  Lemma mono_white m x i j : (0 < occ m bWN)%nat -> i <> j -> mono_cov m x i j = 0%R.
  Proof.
    intros O D. induction m as [|[k p] m IH]; [cbn in O; lia|]. rewrite mono_cov_cons. rewrite occ_cons in O. cbn [fst] in O.
    destruct (pkey_eqb (KBase bWN) k) eqn:E; [|rewrite IH by lia; ring]. apply pkey_eqb_eq in E. subst k. unfold entry_cov, base_cov. cbn [fst snd]. destruct (Nat.eqb_spec i j); [contradiction|]. ring.
  Qed.
  Lemma comp_white m ct x i j : comp offset fixed m ct -> (0 < occ m bWN)%nat -> i <> j -> product_cov (parameters_of ct) x i j = 0%R.
  Proof.
    intros (bts & ps & -> & P & _) O D. cbn [parameters_of]. rewrite product_entries. apply mono_white; [|exact D].
    destruct P as ((_ & ND & _ & K & WN & _) & _ & _ & _ & _ & _ & HWN). specialize (WN (HWN O)). rewrite occ_entries by exact ND.
    destruct (K _ WN) as [E|(b' & E & Hn & _ & _)]; [discriminate E|]. destruct (pars ps (KBase bWN)); [contradiction|cbn; lia].
  Qed.
  Theorem sum_of_products_off e k p s cts : fit_of offset fixed e k p -> (forall m, In m (expansion e) -> In bWN m \/ (times bSE m <= 1)%nat) ->
    sum_of_prods_form offset p = Ok s -> sum_of_products s cts -> forall x i j, i <> j -> terms_cov cts x i j = kernel_cov k x i j.
  Proof.
    intros F H E [-> _] x i j D. destruct (sop_inv offset fixed e k p _ F E) as (_ & cts' & ms & Es & P & C). injection Es as <-. destruct (fit_facts offset fixed e k p F) as (Er & A & V & _ & _). rewrite (monos_kernel offset fixed p k A V).
    transitivity (monos_cov ms x i j); [|unfold monos_cov; apply rsums_perm, Permutation_map, P]. unfold terms_cov, monos_cov. f_equal.
    assert (G : forall m, In m ms -> (0 < occ m bWN)%nat \/ good m).
    { intros m I. pose proof (fit_wf offset fixed e k p F) as W. rewrite <- Er in W. destruct (monos_factors p k A W) as (L & PL & FL). rewrite Er in PL.
      assert (I' : In m (monos p)) by (eapply Permutation_in; eassumption).
      assert (X : exists m', In m' L /\ Permutation (factors m) m'). { clear -FL I'. revert L FL. induction (monos p) as [|n l IH]; intros L FL; [destruct I'|]. inversion FL as [|? n' ? L' Pn FL']; subst. destruct I' as [->|I]; [exists n'; split; [left; reflexivity|exact Pn]|]. destruct (IH I L' FL') as (m' & J & Q). exists m'. split; [right; exact J|exact Q]. }
      destruct X as (m' & Im & Pm). destruct (occ m bWN) eqn:E1; [right|left; lia]. split; [left; exact E1|]. destruct (H m') as [N|N]; [eapply Permutation_in; [exact PL|exact Im]| |].
      - exfalso. apply (Permutation_in _ (Permutation_sym Pm)), occ_in in N. congruence.
      - rewrite <- times_occ. rewrite times_count in N |- *. rewrite (proj1 (Permutation_count_occ base_eq_dec _ _) Pm). exact N. }
    clear -C G D. induction C as [|m ct ms cts Hc C IH]; [reflexivity|]. cbn [map]. f_equal; [|apply IH; intros m' I; apply G; right; exact I].
    destruct (G m (or_introl eq_refl)) as [O|Gd]; [rewrite (comp_white m ct x i j Hc O D), (mono_white m x i j O D); reflexivity|].
    destruct Hc as (bts & ps & -> & (_ & _ & _ & _ & CV & _) & _). apply CV, Gd.
  Qed.
End Off.
