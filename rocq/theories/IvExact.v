(** Exactly which combinations of sigmoids can always be reduced to intervals, and described (continued). *)
From Coq Require Import String Reals List Bool Arith ZArith Lra Lia.
From Verif Require Import Py KexModel KexSpec KexProofs KernModel SemModel IvModel IvSpec IvProofs IvOk IvText IvLines IvWit IvShape TextSpec TextProofs.
Import ListNotations.
Local Open Scope list_scope.
Local Open Scope R_scope.

Lemma sigmoidals_raise fixed d b ps e : In (KBase b, ps) d -> is_sigmoid b = true -> type_overlap fixed b ps = Raise e ->
  exists e', sigmoidals fixed d = Raise e'.
Proof.
  induction d as [|[k q] t IH]; [intros []|]. intros [[= -> ->] | I] Hb E; cbn [sigmoidals].
  - rewrite Hb, E. eexists. reflexivity.
  - destruct (IH I Hb E) as [e' Ee]. destruct k as [c | | |]; try (rewrite Ee; eauto; fail).
    destruct (is_sigmoid c); [|eauto]. destruct (type_overlap fixed c q); cbn [bind]; [rewrite Ee|]; eexists; reflexivity.
Qed.

(** Two or more holes, the first after the others. *)
Definition holes (n : nat) : list pdict := full 5 1 :: repeat (full 0 1) n.
Lemma holes_raise fixed n : type_overlap fixed bSIr (holes (S n)) = Raise EKeyError.
Proof.
  unfold type_overlap, holes. rewrite check_slope_map. cbn [map]. rewrite full_slope.
  replace (map (slope1 fixed) (repeat (full 0 1) (S n))) with (repeat (full 0 1) (S n)).
  2:{ induction (S n) as [|m IH]; [reflexivity|]. cbn [repeat map]. rewrite full_slope, <- IH. reflexivity. }
  set (h := VIv (Iv (Some (0 + 1)) (Some 0) (Some 1) (Some 1))).
  cbn [mapM]. rewrite (mapM_repeat SIr_hole_interval (full 0 1) h) by reflexivity.
  replace (SIr_hole_interval (full 5 1)) with (Ok (VIv (Iv (Some (5 + 1)) (Some 5) (Some 1) (Some 1)))) by reflexivity. cbn [bind rmap].
  cbn [SIr_overlap]. replace (SIr_split_intervals (VIv (Iv (Some (5 + 1)) (Some 5) (Some 1) (Some 1))))
    with (Ok [VIv (Iv None (Some 5) None (Some 1)); VIv (Iv (Some (5 + 1)) None (Some 1) None)]) by reflexivity.
  cbn [bind repeat foldM]. replace (SIr_overlap_step [VIv (Iv None (Some 5) None (Some 1)); VIv (Iv (Some (5 + 1)) None (Some 1) None)] h)
    with (@Raise (list val) EKeyError); [reflexivity|].
  unfold h. symmetry. cbv -[Rltb Rplus IZR]. rewrite (Rltb_t 0 5) by lra. reflexivity.
Qed.
(** Two or more windows, the first before the others. *)
Definition apart (n : nat) : list pdict := full 0 1 :: repeat (full 5 1) n.
Lemma best_rest better key v k y ky n : key v = Ok k -> key y = Ok ky ->
  best better key (v :: repeat y (S n)) = Ok (if better ky k then y else v).
Proof.
  intros E1 E2. cbn [best repeat best_from]. rewrite E1. cbn [bind]. rewrite E2. cbn [bind]. destruct (better ky k) eqn:B.
  - apply best_from_repeat, E2.
  - induction n as [|n IH]; [reflexivity|]. cbn [repeat best_from]. rewrite E2. cbn [bind]. rewrite B. exact IH.
Qed.
Lemma apart_none fixed n : type_overlap fixed bSI (apart (S n)) = Ok VNone.
Proof.
  unfold type_overlap, apart. rewrite check_slope_map. cbn [map]. rewrite full_slope.
  replace (map (slope1 fixed) (repeat (full 5 1) (S n))) with (repeat (full 5 1) (S n)).
  2:{ induction (S n) as [|m IH]; [reflexivity|]. cbn [repeat map]. rewrite full_slope, <- IH. reflexivity. }
  cbn [mapM]. rewrite (mapM_repeat SI_interval (full 5 1) (val_of bSI 5 1)) by reflexivity.
  replace (SI_interval (full 0 1)) with (Ok (val_of bSI 0 1)) by reflexivity. cbn [bind rmap].
  unfold SI_overlap, S_overlap, Sr_overlap.
  rewrite (best_rest _ _ _ 0 _ 5) by reflexivity. cbv beta. rewrite (Rltb_t 0 5) by lra. cbn [bind].
  rewrite (best_rest _ _ _ (0 + 1) _ (5 + 1)) by reflexivity. rewrite (Rltb_f (5 + 1) (0 + 1)) by lra. cbn -[Rltb Rplus IZR].
  rewrite (Rltb_f 5 (0 + 1)) by lra. reflexivity.
Qed.

(** [placed] with the parameters of one type replaced. *)
Definition instead (b : base) (ps : nat -> list pdict) (place : base -> R * R) (s : list (base * nat)) : params :=
  map (fun bn => (KBase (fst bn), if base_eqb (fst bn) b then ps (snd bn) else repeat (at_place place (fst bn)) (snd bn))) s.
Lemma instead_fitted fixed b ps place s : (forall c, 0 < snd (place c)) -> possible_shape s ->
  (forall n, (0 < n)%nat -> ps n <> [] /\ Forall (sigmoid_params fixed b) (ps n)) -> fitted_sigmoids fixed (instead b ps place s).
Proof.
  intros W [N P] Hps. split.
  - unfold instead. rewrite map_map. cbn [fst]. rewrite <- (map_map fst KBase). apply FinFun.Injective_map_NoDup; [|exact N]. intros x y [= E]. exact E.
  - intros c qs I _. apply in_map_iff in I. destruct I as [[c' n] [[= <- <-] I]]. cbn [fst snd]. destruct (P _ _ I) as [_ L].
    destruct (base_eqb c' b) eqn:E; [apply base_eqb_spec in E; subst c'; apply Hps, L|].
    split; [destruct n; [lia | discriminate]|]. apply Forall_forall. intros p Hp. apply repeat_spec in Hp. subst p. apply full_ok, W.
Qed.
Lemma instead_shape b ps place s : possible_shape s -> (forall n, In (b, n) s -> length (ps n) = n) -> shape (instead b ps place s) = s.
Proof.
  intros [_ P] Hps. induction s as [|[c n] s IH]; [reflexivity|]. unfold shape, instead in *. cbn [map flat_map fst snd].
  destruct (P c n (or_introl eq_refl)) as [Hc _]. rewrite Hc. cbn [app]. f_equal.
  - f_equal. destruct (base_eqb c b) eqn:E; [|apply repeat_length]. apply base_eqb_spec in E. subst c. apply Hps. left. reflexivity.
  - apply IH; [intros b' n' I; apply P; right; exact I | intros n' I; apply Hps; right; exact I].
Qed.

Definition several (first rest : pdict) (n : nat) : list pdict := match n with O => [] | S m => first :: repeat rest m end.
Lemma several_ok fixed b l l' n : (0 < n)%nat -> several (full l 1) (full l' 1) n <> [] /\ Forall (sigmoid_params fixed b) (several (full l 1) (full l' 1) n).
Proof.
  intro L. destruct n as [|n]; [lia|]. split; [discriminate|]. constructor; [apply full_ok; lra|]. apply Forall_forall. intros p Hp. apply repeat_spec in Hp.
  subst p. apply full_ok. lra.
Qed.
Lemma several_length p q n : length (several p q n) = n.
Proof. destruct n; [reflexivity|]. cbn. rewrite repeat_length. reflexivity. Qed.

Lemma instead_sigmoidals fixed s : possible_shape s -> (forall n, In (bSIr, n) s -> n = 1%nat) -> (forall n, In (bSI, n) s -> (2 <= n)%nat) ->
  sigmoidals fixed (instead bSI (several (full 0 1) (full 5 1)) place_two s) = Ok (items_two (map fst s)).
Proof.
  intros [_ P] H1 H2. induction s as [|[b n] s IH]; [reflexivity|]. unfold instead, items_two in *. cbn [map sigmoidals fst snd].
  destruct (P b n (or_introl eq_refl)) as [Hb L]. rewrite Hb.
  assert (E : type_overlap fixed b (if base_eqb b bSI then several (full 0 1) (full 5 1) n else repeat (at_place place_two b) n)
    = Ok (if base_eqb b bSI then VNone else val_of b (fst (place_two b)) (snd (place_two b)))).
  { destruct (base_eqb b bSI) eqn:E.
    - apply base_eqb_spec in E. subst b. specialize (H2 n (or_introl eq_refl)). destruct n as [|[|n]]; try lia. apply apart_none.
    - destruct n as [|n]; [lia|]. unfold at_place. apply overlap_repeat; [exact Hb | destruct b; cbn; lra|].
      intros ->. specialize (H1 _ (or_introl eq_refl)). lia. }
  rewrite E. cbn [bind]. rewrite IH; [reflexivity | | |]; intros; [apply P | apply H1 | apply H2]; right; assumption.
Qed.

Lemma pos_SI b : 0 < snd (place_SI b). Proof. destruct b; cbn; lra. Qed.
Lemma pos_SIr b : 0 < snd (place_SIr b). Proof. destruct b; cbn; lra. Qed.
Lemma pos_two b : 0 < snd (place_two b). Proof. destruct b; cbn; lra. Qed.

(** Only entries for sigmoids, with all the names of parameters. *)
Definition plain (d : params) : Prop :=
  forall k ps, In (k, ps) d -> (exists b, k = KBase b /\ is_sigmoid b = true) /\ Forall (fun q => exists l w, 0 < w /\ q = full l w) ps.
Lemma placed_plain place s : (forall c, 0 < snd (place c)) -> possible_shape s -> plain (placed place s).
Proof.
  intros W [_ P] k ps I. apply in_map_iff in I. destruct I as [[b n] [[= <- <-] I]]. cbn [fst snd]. split; [exists b; split; [reflexivity | apply (P b n I)]|].
  apply Forall_forall. intros q Hq. apply repeat_spec in Hq. subst q. exists (fst (place b)), (snd (place b)). split; [apply W | reflexivity].
Qed.
Lemma instead_plain b l l' place s : (forall c, 0 < snd (place c)) -> possible_shape s -> plain (instead b (several (full l 1) (full l' 1)) place s).
Proof.
  intros W [_ P] k ps I. apply in_map_iff in I. destruct I as [[c n] [[= <- <-] I]]. cbn [fst snd]. split; [exists c; split; [reflexivity | apply (P c n I)]|].
  destruct (base_eqb c b).
  - destruct n as [|n]; [constructor|]. constructor; [exists l, 1; split; [lra | reflexivity]|]. apply Forall_forall. intros q Hq. apply repeat_spec in Hq. subst q. exists l', 1. split; [lra | reflexivity].
  - apply Forall_forall. intros q Hq. apply repeat_spec in Hq. subst q. exists (fst (place c)), (snd (place c)). split; [apply W | reflexivity].
Qed.
(** Every other shape has parameters for which the reduction fails. *)
Theorem late_window_plain fixed s : possible_shape s -> windows_first s \/
  exists d, fitted_sigmoids fixed d /\ shape d = s /\ plain d /\ failing (sigmoids_to_intervals fixed d).
Proof.
  intros P.
  assert (K : forall b, In b (map fst s) -> is_sigmoid b = true).
  { intros b I. apply in_map_iff in I. destruct I as [[c n] [<- I]]. exact (proj1 (proj2 P _ _ I)). }
  pose proof (in_orders _ (proj1 P) K) as O.
  destruct (Exists_dec (fun bn => fst bn = bSIr /\ (2 <= snd bn)%nat) s) as [X | X].
  { intros [b n]. cbn. destruct (base_eq_dec b bSIr); [|right; tauto]. destruct (le_dec 2 n); [left | right]; tauto. }
  { apply Exists_exists in X. destruct X as [[b n] [I [Eb L]]]. cbn in Eb, L. subst b.
    right. exists (instead bSIr (several (full 5 1) (full 0 1)) place_two s).
    split; [apply instead_fitted; [apply pos_two | exact P | intros; apply several_ok; assumption]|].
    split; [apply instead_shape; [exact P | intros; apply several_length]|]. split; [apply instead_plain; [apply pos_two | exact P]|].
    destruct n as [|[|n]]; try lia.
    destruct (sigmoidals_raise fixed (instead bSIr (several (full 5 1) (full 0 1)) place_two s) bSIr (holes (S n)) EKeyError) as [e E].
    - unfold instead. apply in_map_iff. exists (bSIr, S (S n)). split; [reflexivity | exact I].
    - reflexivity.
    - apply holes_raise.
    - unfold sigmoids_to_intervals. rewrite E. exact Logic.I. }
  assert (H1 : forall n, In (bSIr, n) s -> n = 1%nat).
  { intros n I. destruct (proj2 P _ _ I) as [_ L]. destruct (le_dec 2 n) as [G|G]; [|lia]. exfalso. apply X, Exists_exists. exists (bSIr, n). auto. }
  clear X. destruct (Exists_dec (fun bn => fst bn = bSI /\ (2 <= snd bn)%nat) s) as [X | X].
  { intros [b n]. cbn. destruct (base_eq_dec b bSI); [|right; tauto]. destruct (le_dec 2 n); [left | right]; tauto. }
  { apply Exists_exists in X. destruct X as [[b n] [I [Eb L]]]. cbn in Eb, L. subst b.
    assert (H2 : forall m, In (bSI, m) s -> (2 <= m)%nat).
    { intros m I'. assert (m = n); [|lia]. destruct P as [N _]. clear - N I I'. induction s as [|[c k] t IH]; [contradiction|].
      cbn [map fst] in N. inversion N as [|? ? N1 N2]; subst.
      destruct I as [E1 | I], I' as [E2 | I'].
      - congruence.
      - exfalso. apply N1. apply (in_map fst) in I'. cbn [fst] in I'. replace c with bSI by congruence. exact I'.
      - exfalso. apply N1. apply (in_map fst) in I. cbn [fst] in I. replace c with bSI by congruence. exact I.
      - apply IH; assumption. }
    right. exists (instead bSI (several (full 0 1) (full 5 1)) place_two s).
    split; [apply instead_fitted; [apply pos_two | exact P | intros; apply several_ok; assumption]|].
    split; [apply instead_shape; [exact P | intros; apply several_length]|]. split; [apply instead_plain; [apply pos_two | exact P]|].
    eapply fails_failing; [apply instead_sigmoidals; assumption | |].
    - destruct s; [contradiction | discriminate].
    - pose proof two_SI as F. rewrite Forall_forall in F. apply F, filter_In. split; [exact O|].
      apply existsb_exists. exists bSI. split; [apply (in_map fst) in I; exact I | reflexivity]. }
  assert (H2 : forall n, In (bSI, n) s -> n = 1%nat).
  { intros n I. destruct (proj2 P _ _ I) as [_ L]. destruct (le_dec 2 n) as [G|G]; [|lia]. exfalso. apply X, Exists_exists. exists (bSI, n). auto. }
  clear X. destruct (late bSI (map fst s)) eqn:L1.
  - right. exists (placed place_SI s). split; [apply placed_fitted; [apply pos_SI | exact P]|]. split; [apply placed_shape, P|]. split; [apply placed_plain; [apply pos_SI | exact P]|].
    eapply fails_failing; [apply placed_sigmoidals; [apply pos_SI | exact P | exact H1] | |].
    + destruct s; [discriminate L1 | discriminate].
    + pose proof late_SI as F. rewrite Forall_forall in F. apply F, filter_In. auto.
  - destruct (late bSIr (map fst s)) eqn:L2.
    + right. exists (placed place_SIr s). split; [apply placed_fitted; [apply pos_SIr | exact P]|]. split; [apply placed_shape, P|]. split; [apply placed_plain; [apply pos_SIr | exact P]|].
      eapply fails_failing; [apply placed_sigmoidals; [apply pos_SIr | exact P | exact H1] | |].
      * destruct s; [discriminate L2 | discriminate].
      * pose proof late_SIr as F. rewrite Forall_forall in F. apply F, filter_In. rewrite L1, L2. auto.
    + left. intros i b n I Hb. assert (In (b, n) s) by (eapply nth_error_In, I).
      split; [destruct Hb as [-> | ->]; [apply H2 | apply H1]; assumption|].
      destruct (le_dec i 1) as [G | G]; [exact G|]. exfalso.
      assert (Z : In b (skipn 2 (map fst s))).
      { apply (map_nth_error fst) in I. cbn [fst] in I. replace i with (2 + (i - 2))%nat in I by lia.
        apply (nth_error_In _ (i - 2)). clear - I. destruct (map fst s) as [|x [|y t]]; cbn in *; try (destruct (i - 2)%nat; discriminate). exact I. }
      assert (Y : late b (map fst s) = true) by (apply existsb_exists; exists b; split; [exact Z | apply base_eqb_refl]).
      destruct Hb; congruence.
Qed.

Theorem late_window_fails fixed s : possible_shape s -> windows_first s \/
  exists d, fitted_sigmoids fixed d /\ shape d = s /\ failing (sigmoids_to_intervals fixed d).
Proof. intro P. destruct (late_window_plain fixed s P) as [W | (d & F & E & _ & X)]; [left; exact W | right; exists d; auto]. Qed.

Theorem shape_exact fixed s : possible_shape s ->
  (forall d, fitted_sigmoids fixed d -> shape d = s -> reducible fixed d) <-> windows_first s.
Proof.
  intro P. split.
  - intro H. destruct (late_window_fails fixed s P) as [D | (d & F & E & G)]; [exact D|]. exfalso. exact (failing_not fixed d G (H d F E)).
  - intros W d F <-. apply windows_first_ok; assumption.
Qed.

(** ** Descriptions *)
Lemma failing_text fixed offset fmt d t : NoDup (map fst d) -> (forall k ps, In (k, ps) d -> ps <> []) -> failing (sigmoids_to_intervals fixed d) ->
  base_factors_interpretation fixed offset fmt d <> Ok t.
Proof.
  intros N E F H. destruct (description_says fixed offset fmt d t N E H) as (b & ps & t1 & t2 & t3 & o & t4 & q & qs & v & _ & _ & _ & _ & _ & Eo & A & _).
  rewrite Eo in F. destruct o as [l|]; [|exact F]. cbn in F, A. destruct A as (ts & A & _). clear - F A. induction A as [|w u l ts H A IH]; [contradiction|].
  destruct F as [-> | F]; [|exact (IH F)]. destruct H as (i & H & _). discriminate H.
Qed.
Lemma shape_app d d' : shape (d ++ d') = shape d ++ shape d'.
Proof. apply flat_map_app. Qed.
Lemma append_failing fixed d d' : sigmoidals fixed d' = Ok [] -> failing (sigmoids_to_intervals fixed d) -> failing (sigmoids_to_intervals fixed (d ++ d')).
Proof.
  intros E F. unfold sigmoids_to_intervals in *. rewrite sigmoidals_app, E. destruct (sigmoidals fixed d) as [s|e]; [|exact I]. cbn [bind] in *. rewrite app_nil_r. exact F.
Qed.
Definition rest_of_term : params := [(KBase bLIN, [[(pOffset, 0)]]); (KProduct, [[(pVariance, 1)]])].
Definition term_of (s : list (base * nat)) : counter := (bLIN, 1%Z) :: map (fun bn => (fst bn, Z.of_nat (snd bn))) s.
Lemma term_of_get s b n : possible_shape s -> In (b, n) s -> cget (term_of s) b = Z.of_nat n.
Proof.
  intros [N P] I. destruct (P b n I) as [Hb _]. unfold cget, term_of. cbn [dict_get]. replace (base_eqb bLIN b) with false by (destruct b; try reflexivity; discriminate Hb).
  clear P Hb. induction s as [|[c m] s IH]; [contradiction|]. cbn [map dict_get fst snd] in *. inversion N as [|? ? N1 N2]; subst.
  destruct (base_eqb c b) eqn:E.
  - apply base_eqb_spec in E. subst c. destruct I as [I|I]; [congruence|]. exfalso. apply N1. apply (in_map fst) in I. exact I.
  - destruct I as [I|I]; [injection I as -> ->; rewrite base_eqb_refl in E; discriminate E|]. apply IH; assumption.
Qed.
Lemma term_of_none s b : possible_shape s -> is_sigmoid b = false -> b <> bLIN -> cget (term_of s) b = 0%Z.
Proof.
  intros [_ P] Hb Nb. unfold cget, term_of. cbn [dict_get]. destruct (base_eqb bLIN b) eqn:E; [apply base_eqb_spec in E; congruence|]. clear E.
  induction s as [|[c m] s IH]; [reflexivity|]. cbn [map dict_get fst snd]. destruct (base_eqb c b) eqn:E.
  - apply base_eqb_spec in E. subst c. destruct (P b m (or_introl eq_refl)) as [H _]. congruence.
  - apply IH. intros c' n' I. apply P. right. exact I.
Qed.
Definition sigmoid_entry (e : pkey * list pdict) : bool := match fst e with KBase b => is_sigmoid b | _ => false end.
Lemma only_sigmoidals fixed d : sigmoidals fixed (filter sigmoid_entry d) = sigmoidals fixed d.
Proof.
  induction d as [|[k ps] d IH]; [reflexivity|]. cbn [filter]. unfold sigmoid_entry at 1. cbn [fst]. destruct k as [b| | |]; cbn [sigmoidals]; try exact IH.
  destruct (is_sigmoid b) eqn:E; cbn [sigmoidals]; rewrite ?E, IH; reflexivity.
Qed.
Lemma only_shape d : shape (filter sigmoid_entry d) = shape d.
Proof.
  unfold shape. induction d as [|[k ps] d IH]; [reflexivity|]. cbn [filter]. unfold sigmoid_entry at 1. cbn [fst]. destruct k as [b| | |]; cbn [flat_map fst]; try exact IH.
  destruct (is_sigmoid b) eqn:E; cbn [flat_map fst]; rewrite ?E, IH; reflexivity.
Qed.
Lemma only_in d k ps : In (k, ps) (filter sigmoid_entry d) -> In (k, ps) d /\ exists b, k = KBase b /\ is_sigmoid b = true.
Proof. intro I. apply filter_In in I. destruct I as [I E]. split; [exact I|]. unfold sigmoid_entry in E. cbn in E. destruct k as [b| | |]; try discriminate E. eauto. Qed.
Lemma only_nodup (d : params) : NoDup (map fst d) -> NoDup (map fst (filter sigmoid_entry d)).
Proof.
  induction d as [|[k ps] d IH]; [intro; constructor|]. cbn [map fst filter]. intro N. inversion N as [|? ? N1 N2]; subst. destruct (sigmoid_entry (k, ps)); [|apply IH, N2].
  cbn [map fst]. constructor; [|apply IH, N2]. intro I. apply N1. apply in_map_iff in I. destruct I as [e [<- I]]. apply filter_In in I. apply in_map, I.
Qed.
Lemma in_shape d b ps : In (KBase b, ps) d -> is_sigmoid b = true -> In (b, length ps) (shape d).
Proof. intros I E. unfold shape. apply in_flat_map. exists (KBase b, ps). split; [exact I|]. cbn [fst snd]. rewrite E. left. reflexivity. Qed.

Lemma late_window_text fixed offset s : possible_shape s -> windows_first s \/
  exists bts d, cardinality offset KProd bts 0 /\ component bts d /\ complete_params offset d /\ fitted_sigmoids fixed d /\ shape d = s /\
    forall fmt t, base_factors_interpretation fixed offset fmt d <> Ok t.
Proof.
  intro P. destruct (late_window_fails fixed s P) as [W | (d & [N F] & Es & Fa)]; [left; exact W|]. right.
  set (o := filter sigmoid_entry d). exists (term_of s), (o ++ rest_of_term).
  assert (K : forall k ps, In (k, ps) (o ++ rest_of_term) ->
    (exists b, k = KBase b /\ is_sigmoid b = true /\ In (k, ps) d) \/ (k = KBase bLIN /\ ps = [[(pOffset, 0)]]) \/ (k = KProduct /\ ps = [[(pVariance, 1)]])).
  { intros k ps I. apply in_app_or in I as [I | [I | [I | []]]]; [left | right; left | right; right].
    - destruct (only_in d k ps I) as [I' (b & -> & E)]. eauto.
    - injection I as <- <-. auto.
    - injection I as <- <-. auto. }
  assert (ND : NoDup (map fst (o ++ rest_of_term))).
  { rewrite map_app. assert (NO : NoDup (map fst o)) by (apply only_nodup, N).
    assert (NI : forall k, In k (map fst o) -> exists b, k = KBase b /\ is_sigmoid b = true).
    { intros k I. apply in_map_iff in I. destruct I as [[k' ps] [E I]]. cbn in E. subst k'. apply (only_in d k ps I). }
    clear - NO NI. induction (map fst o) as [|k l IH]; cbn [app].
    - repeat constructor; cbn; intuition discriminate.
    - inversion NO as [|? ? N1 N2]; subst. constructor.
      + intro I. apply in_app_or in I as [I | I]; [contradiction|]. destruct (NI k (or_introl eq_refl)) as (b & -> & E). destruct I as [I | [I | []]]; [injection I as <-; discriminate E | discriminate I].
      + apply IH; [exact N2|]. intros k' I. apply NI. right. exact I. }
  assert (C : component (term_of s) (o ++ rest_of_term)).
  { split; [exact ND|]. split.
    - intros k ps I. destruct (K k ps I) as [(b & -> & E & Id) | [[-> ->] | [-> ->]]]; [|split; [discriminate | right; exists bLIN; split; [reflexivity | reflexivity]] | split; [discriminate | left; reflexivity]].
      split; [exact (proj1 (F b ps Id E))|]. right. exists b. split; [reflexivity|]. pose proof (in_shape d b ps Id E) as Ish. rewrite Es in Ish.
      rewrite (term_of_get s b _ P Ish). destruct (F b ps Id E) as [Ne _]. destruct ps; [contradiction|]. cbn [length]. lia.
    - exists bLIN, [[(pOffset, 0)]]. split; [apply in_or_app; right; left; reflexivity | reflexivity]. }
  split; [|split; [exact C | split; [|split; [|split]]]].
  - cbn [cardinality]. rewrite !(term_of_none s) by (auto; discriminate). repeat split; try lia; intros; lia.
  - split.
    + intros b ps I. destruct (K _ _ I) as [(c & Ec & E & Id) | [[Ek ->] | [Ek ->]]]; [|injection Ek as -> | discriminate Ek].
      * injection Ec as ->. apply Forall_forall. intros p _. destruct c; try discriminate E; exact Logic.I.
      * constructor; [|constructor]. intros _. exists 0. reflexivity.
    + exists [(pVariance, 1)], [], 1. split; [apply in_or_app; right; right; left; reflexivity | reflexivity].
  - split; [exact ND|]. intros b ps I E. destruct (K _ _ I) as [(c & Ec & _ & Id) | [[Ek ->] | [Ek ->]]]; [|injection Ek as ->; discriminate E | discriminate Ek].
    apply F; assumption.
  - rewrite shape_app. unfold o. rewrite only_shape, Es. cbn. apply app_nil_r.
  - intros fmt t. apply failing_text; [exact ND | intros k ps I; apply (proj1 (proj2 C) k ps I)|]. apply append_failing; [reflexivity|].
    unfold sigmoids_to_intervals, o in *. rewrite only_sigmoidals. exact Fa.
Qed.
Theorem description_exact fixed offset s : possible_shape s ->
  (forall bts d fmt, cardinality offset KProd bts 0 -> component bts d -> complete_params offset d -> fitted_sigmoids fixed d -> shape d = s ->
     exists t, base_factors_interpretation fixed offset fmt d = Ok t) <-> windows_first s.
Proof.
  intro P. split.
  - intro H. destruct (late_window_text fixed offset s P) as [W | (bts & d & C & Co & Cp & F & E & X)]; [exact W|]. exfalso.
    destruct (H bts d (fun _ => EmptyString) C Co Cp F E) as [t Et]. exact (X _ t Et).
  - intros W bts d fmt C Co Cp F <-. destruct (windows_first_ok fixed d F P W) as (o & Eo & Ho). eapply description_ok; eassumption.
Qed.

Lemma shapes_example : possible_shape [(bSIr, 1%nat); (bSI, 1%nat); (bS, 3%nat)] /\ windows_first [(bSIr, 1%nat); (bSI, 1%nat); (bS, 3%nat)]
  /\ possible_shape [(bS, 1%nat); (bSr, 1%nat); (bSI, 1%nat)] /\ ~ windows_first [(bS, 1%nat); (bSr, 1%nat); (bSI, 1%nat)].
Proof.
  assert (P : forall l, NoDup (map fst l) -> Forall (fun bn => is_sigmoid (fst bn) = true /\ (0 < snd bn)%nat) l -> possible_shape l).
  { intros l N F. split; [exact N|]. intros b n I. rewrite Forall_forall in F. exact (F (b, n) I). }
  split; [apply P; [repeat constructor; cbn; intuition discriminate | repeat constructor; cbn; lia]|].
  split; [|split; [apply P; [repeat constructor; cbn; intuition discriminate | repeat constructor; cbn; lia]|]].
  - intros [|[|[|i]]] b n E Hb; cbn in E.
    + injection E as <- <-. lia.
    + injection E as <- <-. lia.
    + injection E as <- <-. destruct Hb; discriminate.
    + destruct i; discriminate E.
  - intro W. destruct (W 2%nat bSI 1%nat eq_refl (or_introl eq_refl)). lia.
Qed.
