(** What a search continued with another utility ranks by (C49), and what diff does in general (C46). *)
From Coq Require Import String List Bool Arith ZArith Lia Permutation Sorted.
From Verif Require Import Py UtilModel UtilSpec UtilProofs KexModel KexSpec KexProofs OpsModel OpsSpec OpsProofs SearchModel SearchSpec SearchProofs.
Import ListNotations.
Local Open Scope list_scope.
Local Open Scope Z_scope.

Section Mix.
  Context {D Sc W : Type} (sle : Sc -> Sc -> bool) (Hsle : total_preorder sle).
  Context (next : W -> nat) (fit : fitter D W) (Hfit : fresh_fitter next fit).
  Lemma score_ext (u v : gp D -> res Sc) ms : (forall m, In m ms -> u m = v m) -> forall w : W * heap, sorted_by_score sle u ms w = sorted_by_score sle v ms w.
  Proof.
    intros H w. unfold sorted_by_score, bindM. assert (K : keys_utility u ms w = keys_utility v ms w).
    { revert w. induction ms as [|m t IH]; intros w; [reflexivity|]. cbn [keys_utility]. unfold bindM, compute_utility. rewrite (H m (or_introl eq_refl)).
      destruct (v m) as [s|e]; [|reflexivity]. rewrite IH; [reflexivity|]. intros x Hx. apply H. right. exact Hx. }
    rewrite K. reflexivity.
  Qed.
  Lemma round_ext offset rules (u v : gp D -> res Sc) N verbose beam r b st (w : W * heap) : (forall m, (N <= gid m)%nat -> u m = v m) -> (N <= next (fst w))%nat ->
    search_round sle offset fit rules u verbose beam r b st w = search_round sle offset fit rules v verbose beam r b st w.
  Proof.
    intros H L. unfold search_round, bindM, run_fitter. cbv zeta beta. destruct (fit (fst w) (new_exprs offset rules st b)) as [w1 [ms|e]] eqn:Ef; [|reflexivity].
    destruct (Hfit _ _ _ _ Ef) as (F1 & F2 & F3). rewrite (score_ext u v ms); [reflexivity|].
    intros m Hm. apply H. specialize (F2 m Hm). lia.
  Qed.
  Lemma loop_mixed offset rules (u v : gp D -> res Sc) N verbose beam rbs : (forall m, (N <= gid m)%nat -> u m = v m) -> forall st (w : W * heap) w' st',
    inv sle next v w st -> (N <= next (fst w))%nat -> search_loop sle offset fit rules u verbose beam rbs st w = (w', Ok st') ->
    inv sle next v w' st' /\ forall m, In m (concat (tested_models st')) -> In m (concat (tested_models st)) \/ (N <= gid m)%nat.
  Proof.
    intros H. induction rbs as [|[r b] t IH]; intros st w w' st' I L E; cbn [search_loop] in E; [injection E as <- <-; auto|].
    apply bindM_ok in E as (w1 & st1 & E1 & E). rewrite (round_ext offset rules u v N) in E1 by assumption.
    pose proof (round_inv sle Hsle next fit Hfit offset rules v _ _ _ _ _ _ _ _ I E1) as I1.
    destruct (round_parts sle fit offset rules v _ _ _ _ _ _ _ _ E1) as (wa & fitted & wb & rk & srt & Ef & Es & Ec & ->).
    destruct (Hfit _ _ _ _ Ef) as (F1 & F2 & F3). destruct (sorted_by_score_ok sle Hsle _ _ _ _ _ Es) as (S1 & S2 & S3 & S4 & S5 & S6). cbn [fst snd] in *.
    assert (L1 : (N <= next (fst w1))%nat).
    { unfold sorted_by_cache in Ec. destruct (keys_cached _ _); [injection Ec as <- _|destruct (_ <=? _)%nat in Ec; [injection Ec as <- _|discriminate Ec]]; rewrite S4; lia. }
    destruct (IH _ _ _ _ I1 L1 E) as [I2 M]. split; [exact I2|]. intros m Hm. destruct (M m Hm) as [Hm'|Hm']; [|right; exact Hm'].
    cbn [tested_models] in Hm'. rewrite concat_app in Hm'. cbn [concat] in Hm'. rewrite app_nil_r in Hm'. apply in_app_iff in Hm' as [Hm'|Hm']; [left; exact Hm'|right].
    apply (Permutation_in _ S1) in Hm'. specialize (F2 m Hm'). lia.
  Qed.
  Lemma inv_ext (u v : gp D -> res Sc) (w : W * heap) st : (forall m, In m (concat (tested_models st)) -> u m = v m) -> inv sle next u w st -> inv sle next v w st.
  Proof.
    intros H [I1 I2 I3 I4 I5 I6 I7 I8].
    assert (A : forall a b, In a (concat (tested_models st)) -> In b (concat (tested_models st)) -> (at_most sle u a b <-> at_most sle v a b)).
    { intros a b Ha Hb. unfold at_most. rewrite (H a Ha), (H b Hb). reflexivity. }
    constructor; [exact I1|exact I2| |exact I4| | |exact I7|exact I8].
    - intros m Hm. rewrite <- (H m Hm). auto.
    - assert (Hs : forall m, In m (sorted_models st) -> In m (concat (tested_models st))) by (intros m; apply Permutation_in, I4).
      unfold ranked in *. clear I4 I6 I7 I8. revert Hs. induction I5 as [|a l Sl IH F]; intros Hs; constructor.
      + apply IH. intros m Hm. apply Hs. right. exact Hm.
      + rewrite Forall_forall in F |- *. intros x Hx. apply A; [apply Hs; left; reflexivity|apply Hs; right; exact Hx|apply F, Hx].
    - intros a b P X Y. assert (In a (concat (tested_models st)) /\ In b (concat (tested_models st))) as [Ha Hb].
      { destruct P as (l1 & l2 & l3 & E). rewrite E. split; apply in_app_iff; right; [left; reflexivity|right; apply in_app_iff; right; left; reflexivity]. }
      apply I6; [exact P| |]; apply A; assumption.
  Qed.
  Lemma continued_mixed offset rules (u u' : gp D -> res Sc) start rounds beam verbose w w1 st1 :
    explore_model_space sle offset fit rules u start rounds beam verbose w = (w1, Ok st1) ->
    forall offset' rules' rounds' beam' verbose' w2 st2,
    model_search_rounds sle offset' fit rules' u' rounds' beam' verbose' st1 w1 = (w2, Ok st2) ->
    exists score, (forall m, In m (sorted_models st1) -> score m = u m)
      /\ (forall m, In m (sorted_models st2) -> ~ In m (sorted_models st1) -> score m = u' m)
      /\ (forall m, In m (sorted_models st2) -> exists s, score m = Ok s) /\ ranked sle score (sorted_models st2).
  Proof.
    intros E1 offset' rules' rounds' beam' verbose' w2 st2 E2.
    pose proof (explore_inv sle Hsle next fit Hfit offset rules u _ _ _ _ _ _ _ E1) as I.
    set (v := fun m : gp D => if (gid m <? next (fst w1))%nat then u m else u' m).
    assert (I' : inv sle next v w1 st1).
    { eapply inv_ext; [|exact I]. intros m Hm. unfold v. pose proof (i_lt _ _ _ _ _ I m Hm). destruct (Nat.ltb_spec (gid m) (next (fst w1))); [reflexivity|lia]. }
    destruct (loop_mixed offset' rules' u' v (next (fst w1)) _ _ _ (fun m Hm => eq_sym (match Nat.ltb_spec (gid m) (next (fst w1)) in BoolSpec _ _ b return (if b then u m else u' m) = u' m with
        | BoolSpecT _ X => False_ind _ (Nat.lt_irrefl _ (Nat.lt_le_trans _ _ _ X Hm)) | BoolSpecF _ _ => eq_refl end)) _ _ _ _ I' (le_n _) E2) as [I2 M].
    exists v. split; [|split; [|split]].
    - intros m Hm. apply (Permutation_in _ (i_perm _ _ _ _ _ I)) in Hm. unfold v. pose proof (i_lt _ _ _ _ _ I m Hm). destruct (Nat.ltb_spec (gid m) (next (fst w1))); [reflexivity|lia].
    - intros m Hm Hn. apply (Permutation_in _ (i_perm _ _ _ _ _ I2)) in Hm. destruct (M m Hm) as [Hm'|Hm'].
      + exfalso. apply Hn. eapply Permutation_in; [symmetry; exact (i_perm _ _ _ _ _ I)|exact Hm'].
      + unfold v. destruct (Nat.ltb_spec (gid m) (next (fst w1))); [lia|reflexivity].
    - intros m Hm. apply (Permutation_in _ (i_perm _ _ _ _ _ I2)) in Hm. destruct (i_cache _ _ _ _ _ I2 m Hm) as (s & Hs & _). eauto.
    - exact (i_ranked _ _ _ _ _ I2).
  Qed.
End Mix.

(** ** diff *)
Lemma diff_exact {A} (eq_dec : forall x y : A, {x = y} + {x <> y}) (eqb : A -> A -> bool) (eqb_spec : forall x y, eqb x y = true <-> x = y) ys : forall xs,
  exists done rest, ys = done ++ rest /\ (forall v, count_occ eq_dec done v <= count_occ eq_dec xs v)%nat
    /\ (forall v, count_occ eq_dec (diff eqb xs ys) v = count_occ eq_dec xs v - count_occ eq_dec done v)%nat
    /\ match rest with [] => True | y :: _ => count_occ eq_dec xs y = count_occ eq_dec done y end.
Proof.
  induction ys as [|y t IH]; intros xs; [exists [], []; cbn; repeat split; intros; lia|]. cbn [diff].
  destruct (list_remove (fun x => eqb x y) xs) as [r|] eqn:E.
  - destruct (list_remove_perm _ _ _ E) as (y' & Hy & _ & P). apply eqb_spec in Hy; subst y'.
    assert (Hc : forall w, count_occ eq_dec xs w = count_occ eq_dec (y :: r) w) by (intros w; apply Permutation_count_occ; exact P).
    destruct (IH r) as (done & rest & -> & H1 & H2 & H3). exists (y :: done), rest. split; [reflexivity|].
    split; [|split].
    + intros v. rewrite Hc. cbn [count_occ]. specialize (H1 v). destruct (eq_dec y v); lia.
    + intros v. rewrite H2, Hc. cbn [count_occ]. specialize (H1 v). destruct (eq_dec y v); lia.
    + destruct rest as [|z rest]; [exact Logic.I|]. rewrite Hc. cbn [count_occ]. destruct (eq_dec y z); lia.
  - exists [], (y :: t). split; [reflexivity|]. split; [intros; cbn; lia|]. split; [intros; cbn; lia|].
    cbn [count_occ]. apply count_occ_not_In. intros Hin. rewrite list_remove_none in E. specialize (E y Hin). assert (eqb y y = true) by (apply eqb_spec; auto). congruence.
Qed.
Lemma diff_exactly {A} (eq_dec : forall x y : A, {x = y} + {x <> y}) (eqb : A -> A -> bool) : (forall x y, eqb x y = true <-> x = y) -> forall xs ys,
  (forall v, count_occ eq_dec (diff eqb xs ys) v = count_occ eq_dec xs v - count_occ eq_dec ys v)%nat <->
  forall done y rest v, ys = done ++ y :: rest -> (count_occ eq_dec xs y <= count_occ eq_dec done y)%nat -> In v rest -> (count_occ eq_dec xs v <= count_occ eq_dec done v)%nat.
Proof.
  intros Hs xs ys. destruct (diff_exact eq_dec eqb Hs ys xs) as (done & rest & E & H1 & H2 & H3). split.
  - intros H done' y rest' v E' Hy Hv.
    (* everything that is removed is in done, and done is a prefix of done' *)
    assert (P : exists k, done' = done ++ k).
    { destruct rest as [|z rest]; [|].
      - exfalso. rewrite app_nil_r in E. subst ys. specialize (H1 y). subst done. rewrite count_occ_app in H1. cbn [count_occ] in H1. destruct (eq_dec y y); [lia|congruence].
      - rewrite E in E'. apply app_eq_app in E' as (k & [[-> F]|[-> F]]); [|exists k; reflexivity].
        destruct k as [|a k]; [exists []; rewrite !app_nil_r; reflexivity|]. cbn in F. injection F as <- _. exfalso. specialize (H1 y). rewrite count_occ_app in H1. cbn [count_occ] in H1.
        destruct (eq_dec y y); [lia|congruence]. }
    destruct P as (k & ->). specialize (H v). rewrite H2 in H. rewrite E', !count_occ_app in H. cbn [count_occ] in H.
    apply (proj1 (count_occ_In eq_dec _ _)) in Hv. specialize (H1 v). rewrite count_occ_app. destruct (eq_dec y v); lia.
  - intros H v. rewrite H2. destruct rest as [|z rest]; [rewrite E, app_nil_r; reflexivity|]. rewrite E, count_occ_app. cbn [count_occ].
    destruct (eq_dec z v) as [->|Nz]; [lia|]. destruct (in_dec eq_dec v rest) as [Hv|Hv].
    + specialize (H done z rest v E (Nat.eq_le_incl _ _ H3) Hv). lia.
    + apply (count_occ_not_In eq_dec) in Hv. lia.
Qed.
