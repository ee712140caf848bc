(** Exactly which combinations of sigmoids can always be reduced to intervals. *)
From Coq Require Import String Reals List Bool Arith ZArith Lra Lia.
From Verif Require Import Py KexModel KexSpec KexProofs KernModel SemModel IvModel IvSpec IvProofs IvOk IvLines IvWit.
Import ListNotations.
Local Open Scope list_scope.
Local Open Scope R_scope.

(** ** Sufficient *)
Lemma shape_app d1 d2 : shape (d1 ++ d2) = shape d1 ++ shape d2.
Proof. apply flat_map_app. Qed.

Definition start_acc (q : base * val) : Prop :=
  swt (fst q) (snd q) \/ (fst q = bSIr /\ exists v1 v2, snd q = VList [v1; v2] /\ swt bSr v1 /\ swt bS v2).
Lemma start_lacc q : start_acc q -> lacc q.
Proof.
  intros [H | (E & v1 & v2 & E2 & H1 & H2)]; [left; exact H|]. right. split; [exact E|]. exists [v1; v2]. split; [exact E2|].
  constructor; [exists bSr; exact H1 | constructor; [exists bS; exact H2 | constructor]].
Qed.

Lemma type_overlap_start fixed b ps : is_sigmoid b = true -> ps <> [] -> Forall (sigmoid_params fixed b) ps ->
  (b = bSI \/ b = bSIr -> length ps = 1%nat) -> exists v, type_overlap fixed b ps = Ok v /\ start_acc (b, v).
Proof.
  intros Hb Hne Hps H1. destruct (base_eq_dec b bSIr) as [-> | N].
  - destruct ps as [|p [|q t]]; [congruence | | discriminate (H1 (or_intror eq_refl))].
    inversion Hps as [|? ? Hp _]; subst. destruct (type_overlap_SIr fixed p Hp) as (v1 & v2 & E & A & B).
    exists (VList [v1; v2]). split; [exact E|]. right. split; [reflexivity|]. exists v1, v2. auto.
  - destruct (type_overlap_ok fixed b ps Hb N Hne Hps) as (v & E & H); [|exists v; split; [exact E | left; exact H]].
    destruct (base_eq_dec b bSI) as [-> | N2].
    + destruct ps as [|p [|q t]]; [congruence | | discriminate (H1 (or_introl eq_refl))].
      inversion Hps as [|? ? Hp _]; subst. destruct Hp as ((l & Hl) & Hw & _). destruct Hw as (w & W & Hw); [now left|].
      exists (l + w / 2). intros q [<- | []]. exists l. split; [exact Hl|]. exists w. split; [exact Hw | lra].
    + apply (semiline_point fixed); [|exact Hps]. destruct b; try discriminate Hb; try congruence; auto.
Qed.

Lemma sigmoidals_start fixed d : (forall b ps, In (KBase b, ps) d -> is_sigmoid b = true -> ps <> [] /\ Forall (sigmoid_params fixed b) ps) ->
  (forall b n, In (b, n) (shape d) -> b = bSI \/ b = bSIr -> n = 1%nat) ->
  exists s, sigmoidals fixed d = Ok s /\ map fst s = map fst (shape d) /\ Forall start_acc s.
Proof.
  induction d as [|[k ps] t IH]; intros H H1; cbn [sigmoidals]; [exists []; repeat split; constructor|].
  destruct IH as (s & E & Es & Hs).
  { intros b ps' I. apply H. right. exact I. }
  { intros b n I. apply H1. cbn [shape flat_map]. apply in_or_app. right. exact I. }
  destruct k as [b | | |]; try (exists s; repeat split; assumption).
  unfold shape in H1 |- *. cbn [flat_map fst snd] in H1 |- *. fold (shape t) in H1 |- *.
  destruct (is_sigmoid b) eqn:Hb; [|exists s; repeat split; assumption].
  destruct (H b ps (or_introl eq_refl) Hb) as [Hne Hps].
  destruct (type_overlap_start fixed b ps Hb Hne Hps) as (v & -> & Hv).
  { apply H1. left. reflexivity. }
  cbn [bind]. rewrite E. cbn [bind]. exists ((b, v) :: s). split; [reflexivity|]. split; [cbn; f_equal; exact Es | constructor; assumption].
Qed.

Lemma first_pair p q : start_acc p -> start_acc q -> fst p <> fst q ->
  exists r, simplify_sigmoidal_interval_pair p q = Ok r /\ (piece r \/ exists l', r = VList l' /\ Forall piece l').
Proof.
  intros Hp Hq N. unfold simplify_sigmoidal_interval_pair.
  assert (E : base_eqb (fst p) (fst q) = false).
  { apply base_eqb_false, N. }
  assert (NS : forall v1 v2, swt bSr v1 -> swt bS v2 -> Forall (fun v => ~ swt bSI v) [v1; v2]).
  { intros v1 v2 A B. destruct A as (? & ? & ->), B as (? & ? & ->). repeat constructor; cbn; intros (? & ? & ? & ? & D); discriminate D. }
  assert (PC : forall v1 v2, swt bSr v1 -> swt bS v2 -> Forall piece [v1; v2]).
  { intros v1 v2 A B. constructor; [exists bSr; exact A | constructor; [exists bS; exact B | constructor]]. }
  rewrite E. destruct Hp as [Hp | (Ep & v1 & v2 & Vp & H1 & H2)].
  - replace (base_eqb (fst p) bSIr) with false.
    2:{ symmetry. apply base_eqb_false, (swt_SIr _ _ Hp). }
    destruct Hq as [Hq | (Eq & v1 & v2 & Vq & H1 & H2)].
    + replace (base_eqb (fst q) bSIr) with false.
      2:{ symmetry. apply base_eqb_false, (swt_SIr _ _ Hq). }
      destruct (pair_plain_ok p q Hp Hq) as (r & Er & D); [congruence|].
      exists r. split; [exact Er|]. destruct D as [D | ->]; [left; exact D | right; exists []; split; [reflexivity | constructor]].
    + rewrite Eq, Vq. cbn [base_eqb]. apply pair_list_ok; [exact Hp | apply PC; assumption | intros _; apply NS; assumption].
  - rewrite Ep. cbn [base_eqb]. destruct Hq as [Hq | (Eq & _)]; [|congruence].
    rewrite Vp. apply pair_list_ok; [exact Hq | apply PC; assumption | intros _; apply NS; assumption].
Qed.

Lemma lacc_result q : lacc q -> Forall proper_interval (match snd q with VList l => l | v => [v] end).
Proof.
  intros [H | (_ & l & -> & H)].
  - destruct (piece_notNone (snd q)) as (i & E); [exists (fst q); exact H|]. rewrite E. constructor; [|constructor].
    rewrite <- E. apply piece_proper. exists (fst q). exact H.
  - eapply Forall_impl; [|exact H]. intros v. apply piece_proper.
Qed.

Lemma windows_first_ok fixed d : fitted_sigmoids fixed d -> possible_shape (shape d) -> windows_first (shape d) -> reducible fixed d.
Proof.
  intros [_ Hfit] [Nd _] W. destruct (sigmoidals_start fixed d Hfit) as (s & E & Es & Hs).
  { intros b n I B. apply In_nth_error in I. destruct I as [i I]. exact (proj1 (W i b n I B)). }
  unfold reducible, sigmoids_to_intervals. rewrite E. cbn [bind].
  destruct s as [|p s]; [exists None; split; [reflexivity | discriminate]|].
  assert (R : exists q, foldM simplify_sigmoidal_intervals_step s (Some p) = Ok (Some q) /\ lacc q).
  { inversion Hs as [|? ? Hp Hs']; subst. destruct s as [|q t]; [exists p; split; [reflexivity | apply start_lacc, Hp]|].
    inversion Hs' as [|? ? Hq Ht]; subst. cbn [foldM].
    assert (N : fst p <> fst q).
    { rewrite <- Es in Nd. cbn [map] in Nd. inversion Nd as [|? ? N _]; subst. intro X. apply N. left. symmetry. exact X. }
    destruct (first_pair p q Hp Hq N) as (r & Er & Hr).
    unfold simplify_sigmoidal_intervals_step at 1. rewrite Er. cbn [bind]. destruct (lacc_identify r Hr) as (b & Eb & Hb). rewrite Eb. cbn [bind].
    apply fold_semiline_ok; [|exact Hb]. apply Forall_forall. intros u Hu.
    assert (K : fst u <> bSI /\ fst u <> bSIr).
    { apply In_nth_error in Hu. destruct Hu as [i Hi].
      assert (F : nth_error (map fst (shape d)) (2 + i) = Some (fst u)) by (rewrite <- Es; cbn [map nth_error plus]; apply map_nth_error, Hi).
      destruct (nth_error (shape d) (2 + i)) as [[b' n]|] eqn:X.
      - apply (map_nth_error fst) in X. rewrite X in F. injection F as <-.
        destruct (nth_error (shape d) (2 + i)) as [[b2 n2]|] eqn:Y; [|].
        + apply (map_nth_error fst) in Y as Y'. cbn [fst] in *. assert (b2 = b') by congruence. subst b2.
          split; intro; destruct (W _ _ _ Y (ltac:(auto))); lia.
        + exfalso. apply nth_error_None in Y. assert (nth_error (map fst (shape d)) (2 + i) <> None) by congruence.
          apply nth_error_Some in H. rewrite map_length in H. lia.
      - exfalso. apply nth_error_None in X. assert (nth_error (map fst (shape d)) (2 + i) <> None) by congruence.
        apply nth_error_Some in H. rewrite map_length in H. lia. }
    destruct K as [K1 K2]. rewrite Forall_forall in Ht. destruct (Ht u Hu) as [Hu' | (Eu & _)]; [split; assumption | congruence]. }
  destruct R as (q & Eq & Lq). unfold simplify_sigmoidal_intervals. rewrite Eq. cbn [bind].
  eexists. split; [reflexivity|]. intros l [= <-].
  pose proof (lacc_result q Lq) as F. destruct (snd q); exact F.
Qed.

(** ** Necessary: parameters for which the reduction fails *)
Definition full (l w : R) : pdict := [(pLocation, l); (pWidth, w); (pSlope, 1)].
Lemma full_ok fixed b l w : 0 < w -> sigmoid_params fixed b (full l w).
Proof.
  intro W. split; [exists l; reflexivity|]. split; [intros _; exists w; split; [exact W | reflexivity] | intros _; exists 1; reflexivity].
Qed.
Lemma full_slope fixed l w : slope1 fixed (full l w) = full l w.
Proof. destruct fixed; reflexivity. Qed.
Definition val_of (b : base) (l w : R) : val :=
  match b with
  | bS => VIv (Iv (Some l) None (Some 1) None)
  | bSr => VIv (Iv None (Some l) None (Some 1))
  | bSI => VIv (Iv (Some l) (Some (l + w)) (Some 1) (Some 1))
  | _ => VList [VIv (Iv None (Some l) None (Some 1)); VIv (Iv (Some (l + w)) None (Some 1) None)]
  end.
Lemma mapM_repeat {A B} (f : A -> res B) x y n : f x = Ok y -> mapM f (repeat x n) = Ok (repeat y n).
Proof. intro E. induction n as [|n IH]; [reflexivity|]. cbn [repeat mapM]. rewrite E. cbn [bind]. rewrite IH. reflexivity. Qed.
Lemma best_from_repeat better key v k n : key v = Ok k -> best_from better key v k (repeat v n) = Ok v.
Proof. intro E. induction n as [|n IH]; [reflexivity|]. cbn [repeat best_from]. rewrite E. cbn [bind]. rewrite IH. destruct (better k k); reflexivity. Qed.
Lemma best_repeat better key v k n : key v = Ok k -> best better key (repeat v (S n)) = Ok v.
Proof. intro E. cbn [repeat best]. rewrite E. cbn [bind]. apply best_from_repeat, E. Qed.
Lemma overlap_repeat fixed b l w n : is_sigmoid b = true -> 0 < w -> (b = bSIr -> n = 0%nat) ->
  type_overlap fixed b (repeat (full l w) (S n)) = Ok (val_of b l w).
Proof.
  intros Hb W H1. unfold type_overlap. rewrite check_slope_map.
  replace (map (slope1 fixed) (repeat (full l w) (S n))) with (repeat (full l w) (S n)).
  2:{ clear H1. induction (S n) as [|m IH]; [reflexivity|]. cbn [repeat map]. rewrite full_slope, <- IH. reflexivity. }
  destruct b; try discriminate Hb.
  - rewrite (mapM_repeat S_interval (full l w) (val_of bS l w)) by reflexivity. cbn [bind]. apply (best_repeat _ _ _ l). reflexivity.
  - rewrite (mapM_repeat Sr_interval (full l w) (val_of bSr l w)) by reflexivity. cbn [bind]. apply (best_repeat _ _ _ l). reflexivity.
  - rewrite (mapM_repeat SI_interval (full l w) (val_of bSI l w)) by reflexivity. cbn [bind]. unfold SI_overlap, S_overlap, Sr_overlap.
    rewrite (best_repeat _ _ _ l) by reflexivity. cbn [bind]. rewrite (best_repeat _ _ _ (l + w)) by reflexivity. cbn -[Rltb Rplus].
    rewrite (Rltb_t l (l + w)) by lra. reflexivity.
  - rewrite (H1 eq_refl). reflexivity.
Qed.

Section Place.
  Context (fixed : bool) (place : base -> R * R) (Wp : forall b, 0 < snd (place b)).
  Definition at_place (b : base) : pdict := full (fst (place b)) (snd (place b)).
  Definition placed (s : list (base * nat)) : params := map (fun bn => (KBase (fst bn), repeat (at_place (fst bn)) (snd bn))) s.
  Definition items_of (ks : list base) : list (base * val) := map (fun b => (b, val_of b (fst (place b)) (snd (place b)))) ks.

  Lemma placed_keys s : NoDup (map fst s) -> NoDup (map fst (placed s)).
  Proof.
    intro N. unfold placed. rewrite map_map. cbn [fst]. rewrite <- (map_map fst KBase).
    apply FinFun.Injective_map_NoDup; [|exact N]. intros x y [= E]. exact E.
  Qed.
  Lemma placed_fitted s : possible_shape s -> fitted_sigmoids fixed (placed s).
  Proof.
    intros [N P]. split; [apply placed_keys, N|]. intros b ps I _. apply in_map_iff in I. destruct I as [[b' n] [[= <- <-] I]]. cbn [fst snd].
    destruct (P _ _ I) as [_ L]. split; [destruct n; [lia | discriminate]|].
    apply Forall_forall. intros p Hp. apply repeat_spec in Hp. subst p. apply full_ok, Wp.
  Qed.
  Lemma placed_shape s : possible_shape s -> shape (placed s) = s.
  Proof.
    intros [_ P]. induction s as [|[b n] s IH]; [reflexivity|]. unfold shape, placed in *. cbn [map flat_map fst snd].
    destruct (P b n (or_introl eq_refl)) as [Hb _]. rewrite Hb, repeat_length. cbn [app]. f_equal. apply IH.
    intros b' n' I. apply P. right. exact I.
  Qed.
  Lemma placed_sigmoidals s : possible_shape s -> (forall n, In (bSIr, n) s -> n = 1%nat) -> sigmoidals fixed (placed s) = Ok (items_of (map fst s)).
  Proof.
    intros [_ P] H1. induction s as [|[b n] s IH]; [reflexivity|]. unfold placed, items_of in *. cbn [map sigmoidals fst snd].
    destruct (P b n (or_introl eq_refl)) as [Hb L]. rewrite Hb. destruct n as [|n]; [lia|].
    unfold at_place at 1. rewrite overlap_repeat; [|exact Hb | apply Wp | intros ->; specialize (H1 _ (or_introl eq_refl)); lia].
    cbn [bind]. rewrite IH; [reflexivity | intros b' n' I; apply P; right; exact I | intros n' I; apply H1; right; exact I].
  Qed.
End Place.

Definition fails (r : res val) : Prop := match r with Raise _ => True | Ok r => In VNone (match r with VList l => l | v => [v] end) end.
Definition failing (r : res (option (list val))) : Prop := match r with Raise _ => True | Ok None => False | Ok (Some l) => In VNone l end.
Lemma failing_not fixed d : failing (sigmoids_to_intervals fixed d) -> ~ reducible fixed d.
Proof.
  intros F (o & E & H). rewrite E in F. destruct o as [l|]; [|exact F]. specialize (H l eq_refl). rewrite Forall_forall in H.
  destruct (H _ F) as (i & D & _). discriminate D.
Qed.
Lemma fails_failing fixed d s : sigmoidals fixed d = Ok s -> s <> [] -> fails (simplify_sigmoidal_intervals s) -> failing (sigmoids_to_intervals fixed d).
Proof.
  intros E N F. unfold sigmoids_to_intervals. rewrite E. cbn [bind]. destruct s as [|p s]; [congruence|].
  destruct (simplify_sigmoidal_intervals (p :: s)) as [r|e]; [|exact I]. cbn [bind failing]. destruct r; exact F.
Qed.

(** The first and second windows of a type, or the ones in third or fourth position. *)
Definition place_SI (b : base) : R * R := match b with bS => (0, 1) | bSr => (3, 1) | bSIr => (1, 1) | _ => (3, 1) end.
Definition place_SIr (b : base) : R * R := match b with bS => (5, 1) | bSr => (-5, 1) | bSIr => (10, 1) | _ => (0, 1) end.
Definition place_two (b : base) : R * R := match b with bS => (-10, 1) | bSr => (20, 1) | _ => (-20, 1) end.

Lemma kinds_length ks : NoDup ks -> (forall b, In b ks -> is_sigmoid b = true) -> (length ks <= 4)%nat.
Proof.
  intros N H. apply (NoDup_incl_length (l' := [bS; bSr; bSI; bSIr]) N). intros b I. specialize (H b I). destruct b; try discriminate H; cbn; auto.
Qed.

(** All orders of the four types. *)
Fixpoint lists (n : nat) : list (list base) :=
  match n with O => [[]] | S m => [] :: flat_map (fun b => map (cons b) (lists m)) [bS; bSr; bSI; bSIr] end.
Fixpoint distinct (l : list base) : bool := match l with [] => true | b :: t => negb (existsb (base_eqb b) t) && distinct t end.
Definition orders : list (list base) := filter distinct (lists 4).
Lemma in_lists n ks : (length ks <= n)%nat -> (forall b, In b ks -> is_sigmoid b = true) -> In ks (lists n).
Proof.
  revert ks. induction n as [|n IH]; intros [|b ks] L H; cbn [length] in L; try lia; try (left; reflexivity).
  cbn [lists]. right. apply in_flat_map. exists b. split.
  - specialize (H b (or_introl eq_refl)). destruct b; try discriminate H; cbn; auto.
  - apply in_map, IH; [lia|]. intros c I. apply H. right. exact I.
Qed.
Lemma distinct_spec ks : NoDup ks -> distinct ks = true.
Proof.
  induction 1 as [|b t N _ IH]; [reflexivity|]. cbn [distinct]. rewrite IH, andb_true_r. apply negb_true_iff.
  destruct (existsb (base_eqb b) t) eqn:E; [|reflexivity]. apply existsb_exists in E. destruct E as [c [I E]]. apply base_eqb_spec in E. subst c. contradiction.
Qed.
Lemma in_orders ks : NoDup ks -> (forall b, In b ks -> is_sigmoid b = true) -> In ks orders.
Proof. intros N H. apply filter_In. split; [apply in_lists; [apply kinds_length|]; assumption | apply distinct_spec, N]. Qed.

Definition late (b : base) (ks : list base) : bool := existsb (base_eqb b) (skipn 2 ks).
Ltac each := repeat (apply Forall_cons; [unfold fails; rl; cbv; auto 10|]); apply Forall_nil.
Lemma late_SI : Forall (fun ks => fails (simplify_sigmoidal_intervals (items_of place_SI ks))) (filter (late bSI) orders).
Proof. let l := eval vm_compute in (filter (late bSI) orders) in change (filter (late bSI) orders) with l. each. Qed.
Lemma late_SIr : Forall (fun ks => fails (simplify_sigmoidal_intervals (items_of place_SIr ks))) (filter (fun ks => late bSIr ks && negb (late bSI ks)) orders).
Proof. let l := eval vm_compute in (filter (fun ks => late bSIr ks && negb (late bSI ks)) orders) in change (filter (fun ks => late bSIr ks && negb (late bSI ks)) orders) with l. each. Qed.
(** A window of which two copies are apart: nothing is left of it. *)
Definition items_two (ks : list base) : list (base * val) :=
  map (fun b => (b, if base_eqb b bSI then VNone else val_of b (fst (place_two b)) (snd (place_two b)))) ks.
Lemma two_SI : Forall (fun ks => fails (simplify_sigmoidal_intervals (items_two ks))) (filter (existsb (base_eqb bSI)) orders).
Proof. let l := eval vm_compute in (filter (existsb (base_eqb bSI)) orders) in change (filter (existsb (base_eqb bSI)) orders) with l. each. Qed.
