(** Proofs about fitting and search. *)
From Coq Require Import String List Bool Arith ZArith Lia Sorted Permutation.
From Verif Require Import Py UtilModel UtilSpec UtilProofs KexModel KexSpec KexProofs OpsModel OpsSpec OpsProofs SearchModel SearchSpec.
Import ListNotations.
Local Open Scope list_scope.
Local Open Scope Z_scope.

(** ** Retries *)
Section FitProofs.
  Context {W A : Type} (attempt : W -> kex -> W * res A).
  Lemma fit_loop_spec left w k w' r : fit_loop attempt left w k = (w', r) ->
    exists n w1, (n <= left)%nat /\ failed_attempts attempt k w n w1 /\ attempt w1 k = (w', r)
                 /\ ((exists m, r = Ok m) \/ n = left).
  Proof.
    revert w. induction left as [|left IH]; intros w; cbn [fit_loop]; destruct (attempt w k) as [w1 [m|e]] eqn:E; intros H.
    - injection H as <- <-. exists 0%nat, w. split; [lia|split; [constructor|split; [exact E|eauto]]].
    - injection H as <- <-. exists 0%nat, w. split; [lia|split; [constructor|split; [exact E|eauto]]].
    - injection H as <- <-. exists 0%nat, w. split; [lia|split; [constructor|split; [exact E|eauto]]].
    - destruct (IH w1 H) as (n & w2 & Hn & Hf & Ha & Hr). exists (S n), w2.
      split; [lia|split; [econstructor; eauto|split; [exact Ha|]]]. destruct Hr as [Hr|Hr]; [left; exact Hr|right; lia].
  Qed.
  Lemma fit_one_spec mr w k w' r : fit_one_model attempt mr w k = (w', r) ->
    exists n w1, (Z.of_nat n <= Z.max 0 mr) /\ failed_attempts attempt k w n w1 /\ attempt w1 k = (w', r)
                 /\ ((exists m, r = Ok m) \/ Z.of_nat n = Z.max 0 mr).
  Proof.
    intros H. destruct (fit_loop_spec _ _ _ _ _ H) as (n & w1 & Hn & Hf & Ha & Hr). exists n, w1.
    split; [lia|split; [exact Hf|split; [exact Ha|]]]. destruct Hr as [Hr|Hr]; [left; exact Hr|right; lia].
  Qed.
End FitProofs.

Section FitFresh.
  Context {D W : Type} (next : W -> nat) (attempt : W -> kex -> W * res (gp D)) (HA : fresh_attempt next attempt) (mr : Z).
  Lemma fit_loop_fresh left w k w' r : fit_loop attempt left w k = (w', r) ->
    (next w <= next w')%nat /\ match r with Ok m => gkex m = k /\ (next w <= gid m < next w')%nat | Raise _ => True end.
  Proof.
    revert w. induction left as [|left IH]; intros w; cbn [fit_loop]; destruct (attempt w k) as [w1 [m|e]] eqn:E; intros H;
      pose proof (HA _ _ _ _ E) as HE.
    - injection H as <- <-. exact HE.
    - injection H as <- <-. exact HE.
    - injection H as <- <-. exact HE.
    - destruct HE as [H1 _]. destruct (IH _ H) as [H2 H3]. split; [lia|]. destruct r; [|exact I]. destruct H3; split; [assumption|lia].
  Qed.
  Lemma fit_seq_fresh ks : forall w w' ms, fit_mods_not_parallel attempt mr w ks = (w', Ok ms) ->
    map gkex ms = ks /\ NoDup (map gid ms) /\ (forall m, In m ms -> (next w <= gid m < next w')%nat) /\ (next w <= next w')%nat.
  Proof.
    induction ks as [|k ks IH]; intros w w' ms; cbn [fit_mods_not_parallel]; intros H.
    - injection H as <- <-. repeat split; [constructor| | |lia]; destruct H.
    - destruct (fit_one_model attempt mr w k) as [w1 [m|e]] eqn:E1; [|discriminate].
      destruct (fit_mods_not_parallel attempt mr w1 ks) as [w2 [l|e]] eqn:E2; [|discriminate]. injection H as <- <-.
      destruct (fit_loop_fresh _ _ _ _ _ E1) as (H1 & H2 & H3). destruct (IH _ _ _ E2) as (H4 & H5 & H6 & H7).
      repeat split; cbn [map].
      + congruence.
      + constructor; [|exact H5]. intros Hin. apply in_map_iff in Hin as (x & Ex & Hx). specialize (H6 x Hx). lia.
      + destruct H as [<-|H]; [lia|]. specialize (H6 _ H). lia.
      + destruct H as [<-|H]; [lia|]. specialize (H6 _ H). lia.
      + lia.
  Qed.
  Lemma fit_seq_is_fresh : fresh_fitter next (fit_mods_not_parallel attempt mr) /\ fits_each (fit_mods_not_parallel attempt mr).
  Proof.
    split; intros w ks w' ms H; destruct (fit_seq_fresh _ _ _ _ H) as (H1 & H2 & H3 & H4); auto.
  Qed.
End FitFresh.

(** ** The process pool *)
Section PoolProofs.
  Context {A : Type} (out : nat -> res A).
  Lemma mapM_ok_all {B C} (f : B -> res C) l m : mapM f l = Ok m -> Forall2 (fun x y => f x = Ok y) l m.
  Proof.
    revert m. induction l as [|x l IH]; intros m; cbn [mapM]; intros H; [injection H as <-; constructor|].
    destruct (f x) eqn:E; [|discriminate]. cbn [bind] in H. destruct (mapM f l); [|discriminate]. injection H as <-. constructor; auto.
  Qed.
  Lemma mapM_all_ok {B C} (f : B -> res C) (g : B -> C) l : (forall x, In x l -> f x = Ok (g x)) -> mapM f l = Ok (map g l).
  Proof.
    induction l as [|x l IH]; intros H; [reflexivity|]. cbn [mapM map]. rewrite (H x (or_introl eq_refl)). cbn [bind].
    rewrite IH by (intros; apply H; right; auto). reflexivity.
  Qed.
  Lemma mapM_raise {B C} (f : B -> res C) l e : mapM f l = Raise e -> exists x, In x l /\ f x = Raise e.
  Proof.
    induction l as [|x l IH]; cbn [mapM]; [discriminate|]. destruct (f x) eqn:E; cbn [bind]; intros H.
    - destruct (mapM f l); [discriminate|]. injection H as ->. destruct (IH eq_refl) as (y & Hy & Ey). exists y. split; [right; auto|auto].
    - injection H as ->. exists x. split; [left; auto|auto].
  Qed.
  Lemma chunk_tasks_eq n size c : chunk_tasks n size c = seq (c * size) (Nat.min size (n - c * size)).
  Proof.
    unfold chunk_tasks.
    assert (S1 : forall m s k, skipn k (seq s m) = seq (s + k) (m - k)).
    { induction m as [|m IH]; intros s k; [rewrite skipn_nil; reflexivity|]. destruct k as [|k]; [cbn; rewrite Nat.add_0_r; reflexivity|].
      cbn [skipn seq Nat.sub]. rewrite IH. f_equal. lia. }
    assert (S2 : forall m s k, firstn k (seq s m) = seq s (Nat.min k m)).
    { induction m as [|m IH]; intros s k; [rewrite firstn_nil, Nat.min_0_r; reflexivity|]. destruct k as [|k]; [reflexivity|].
      cbn [firstn seq Nat.min]. rewrite IH. reflexivity. }
    rewrite S1, S2. f_equal; lia.
  Qed.
  Lemma chunk_tasks_in n size c i : (0 < size)%nat -> In i (chunk_tasks n size c) <-> (i < n)%nat /\ (i / size = c)%nat.
  Proof.
    intros Hs. rewrite chunk_tasks_eq, in_seq. split.
    - intros [H1 H2]. split; [lia|]. symmetry. apply (Nat.div_unique i size c (i - c * size)); lia.
    - intros [H1 <-]. pose proof (Nat.div_mod i size ltac:(lia)). pose proof (Nat.mod_upper_bound i size ltac:(lia)). lia.
  Qed.
  Lemma n_chunks_spec n size c : (0 < size)%nat -> (c < n_chunks n size)%nat <-> (c * size < n)%nat.
  Proof.
    intros Hs. unfold n_chunks. pose proof (Nat.div_mod n size ltac:(lia)) as E. pose proof (Nat.mod_upper_bound n size ltac:(lia)) as B.
    destruct (Nat.eqb_spec (n mod size) 0); split; intros H; nia.
  Qed.

  (** Slots after some successful chunks: those chunks' tasks are filled, the rest is not. *)
  Definition slot (g : nat -> A) (done : nat -> bool) (size i : nat) : option A := if done (i / size)%nat then Some (g i) else None.
  Lemma seq_split3 n size c : (0 < size)%nat -> (c * size < n)%nat ->
    seq 0 n = seq 0 (c * size) ++ seq (c * size) (Nat.min size (n - c * size)) ++ seq (S c * size) (n - S c * size).
  Proof.
    intros Hs H. replace n with (c * size + (Nat.min size (n - c * size) + (n - S c * size)))%nat at 1 by nia.
    rewrite !seq_app. do 2 f_equal. destruct (Nat.le_ge_cases (n - c * size) size).
    - replace (n - S c * size)%nat with 0%nat by nia. reflexivity.
    - rewrite Nat.min_l by lia. f_equal; lia.
  Qed.
  Lemma pool_set_ok g done n size c : (0 < size)%nat -> (c * size < n)%nat ->
    pool_set size (Ok (map (slot g done size) (seq 0 n))) c (Ok (map g (chunk_tasks n size c)))
    = Ok (map (slot g (fun d => (d =? c)%nat || done d) size) (seq 0 n)).
  Proof.
    intros Hs Hc. cbn [pool_set]. f_equal. rewrite chunk_tasks_eq. rewrite (seq_split3 n size c Hs Hc). rewrite !map_app.
    set (f := slot g done size). set (f' := slot g (fun d => (d =? c)%nat || done d) size).
    set (l := Nat.min size (n - c * size)). set (r := (n - S c * size)%nat).
    assert (E1 : firstn (c * size) (map f (seq 0 (c * size)) ++ map f (seq (c * size) l) ++ map f (seq (S c * size) r)) = map f (seq 0 (c * size))).
    { rewrite firstn_app, map_length, seq_length, Nat.sub_diag, firstn_O, app_nil_r. apply firstn_all2. rewrite map_length, seq_length. lia. }
    assert (E2 : skipn (S c * size) (map f (seq 0 (c * size)) ++ map f (seq (c * size) l) ++ map f (seq (S c * size) r)) = map f (seq (S c * size) r)).
    { rewrite skipn_app, map_length, seq_length, skipn_all2 by (rewrite map_length, seq_length; lia). cbn [app].
      replace (S c * size - c * size)%nat with size by lia. rewrite skipn_app, map_length, seq_length.
      rewrite skipn_all2 by (rewrite map_length, seq_length; unfold l; lia). cbn [app].
      destruct (Nat.le_ge_cases size (n - c * size)).
      - replace (size - l)%nat with 0%nat by (unfold l; lia). reflexivity.
      - replace r with 0%nat by (unfold r; lia). apply skipn_nil. }
    rewrite E1, E2, map_map. unfold f, f', slot.
    f_equal; [|f_equal]; apply map_ext_in; intros i Hi; apply in_seq in Hi.
    - assert (i / size < c)%nat by (apply Nat.div_lt_upper_bound; lia). destruct (Nat.eqb_spec (i / size) c); [lia|reflexivity].
    - replace (i / size)%nat with c by (apply (Nat.div_unique i size c (i - c * size)); unfold l in Hi; lia).
      rewrite Nat.eqb_refl. reflexivity.
    - assert (S c <= i / size)%nat by (apply Nat.div_le_lower_bound; lia). destruct (Nat.eqb_spec (i / size) c); [lia|reflexivity].
  Qed.
  Lemma repeat_slots g n size : repeat None n = map (slot g (fun _ => false) size) (seq 0 n).
  Proof. unfold slot. generalize 0%nat. induction n as [|n IH]; intros s; cbn; [reflexivity|]. f_equal. apply IH. Qed.
  Lemma pool_all_ok g n size order : (0 < size)%nat -> (forall i, (i < n)%nat -> out i = Ok (g i)) ->
    Permutation order (seq 0 (n_chunks n size)) -> pool_map out n size order = Ok (map (fun i => Some (g i)) (seq 0 n)).
  Proof.
    intros Hs Hok P. unfold pool_map. rewrite (repeat_slots g n size).
    assert (Hin : forall c, In c order -> (c * size < n)%nat).
    { intros c Hc. apply (n_chunks_spec n size c Hs). eapply Permutation_in in Hc; [|exact P]. apply in_seq in Hc. lia. }
    assert (G : forall l done, (forall c, In c l -> (c * size < n)%nat) ->
      fold_left (fun s c => pool_set size s c (run_chunk out n size c)) l (Ok (map (slot g done size) (seq 0 n)))
      = Ok (map (slot g (fun d => existsb (Nat.eqb d) l || done d) size) (seq 0 n))).
    { induction l as [|c l IH]; intros done Hl; cbn [fold_left existsb].
      - reflexivity.
      - assert (Hc : (c * size < n)%nat) by (apply Hl; left; auto).
        replace (run_chunk out n size c) with (Ok (map g (chunk_tasks n size c))).
        + rewrite pool_set_ok by auto. rewrite IH by (intros; apply Hl; right; auto). f_equal. apply map_ext. intros i. unfold slot.
          f_equal. destruct (existsb _ l), (Nat.eqb _ c), (done _); reflexivity.
        + symmetry. apply mapM_all_ok. intros i Hi. apply (chunk_tasks_in n size c i Hs) in Hi as [Hi _]. apply Hok, Hi. }
    rewrite G by exact Hin. f_equal. apply map_ext_in. intros i Hi. apply in_seq in Hi. unfold slot.
    assert (E : existsb (Nat.eqb (i / size)) order = true).
    { apply existsb_exists. exists (i / size)%nat. split; [|apply Nat.eqb_refl]. eapply Permutation_in; [symmetry; exact P|].
      apply in_seq. split; [lia|]. apply (n_chunks_spec n size _ Hs). pose proof (Nat.mul_div_le i size ltac:(lia)). lia. }
    rewrite E. reflexivity.
  Qed.
  Lemma pool_raise_stays size e l n : fold_left (fun s c => pool_set size s c (run_chunk out n size c)) l (Raise e) = Raise e.
  Proof. induction l as [|c l IH]; [reflexivity|]. exact IH. Qed.
  Lemma pool_some_raise n size order i e : (0 < size)%nat -> (i < n)%nat -> out i = Raise e ->
    Permutation order (seq 0 (n_chunks n size)) -> exists j e', (j < n)%nat /\ out j = Raise e' /\ pool_map out n size order = Raise e'.
  Proof.
    intros Hs Hi Ei P.
    assert (G : forall l s, In (i / size)%nat l ->
      (exists v, s = Ok v) -> exists j e', (j < n)%nat /\ out j = Raise e'
        /\ fold_left (fun s c => pool_set size s c (run_chunk out n size c)) l s = Raise e').
    { induction l as [|c l IH]; intros s Hin (v & ->); [destruct Hin|]. cbn [fold_left].
      destruct (run_chunk out n size c) as [m|e'] eqn:Er.
      - destruct Hin as [->|Hin].
        + exfalso. apply mapM_ok_all in Er. assert (Hin : In i (chunk_tasks n size (i / size))) by (apply chunk_tasks_in; auto).
          clear -Er Hin Ei. induction Er as [|x y l m E F IH]; [destruct Hin|]. destruct Hin as [->|Hin]; [congruence|auto].
        + apply IH; [exact Hin|]. cbn [pool_set]. eauto.
      - cbn [pool_set]. rewrite pool_raise_stays. apply mapM_raise in Er as (j & Hj & Ej).
        apply (chunk_tasks_in n size c j Hs) in Hj as [Hj _]. eauto. }
    apply G; [|eauto]. eapply Permutation_in; [symmetry; exact P|]. apply in_seq. split; [lia|]. apply (n_chunks_spec n size _ Hs).
    pose proof (Nat.mul_div_le i size ltac:(lia)). lia.
  Qed.
End PoolProofs.

(** ** Stability of the sort *)
Lemma precedes_cons {A} (x : A) l a b : precedes (x :: l) a b <-> (x = a /\ In b l) \/ precedes l a b.
Proof.
  split.
  - intros (l1 & l2 & l3 & E). destruct l1 as [|y l1]; injection E as <- ->.
    + left. split; [reflexivity|]. apply in_or_app. right. left. reflexivity.
    + right. exists l1, l2, l3. reflexivity.
  - intros [[<- H]|(l1 & l2 & l3 & ->)].
    + apply in_split in H as (l2 & l3 & ->). exists [], l2, l3. reflexivity.
    + exists (x :: l1), l2, l3. reflexivity.
Qed.
Lemma precedes_in {A} (l : list A) a b : precedes l a b -> In a l /\ In b l.
Proof.
  intros (l1 & l2 & l3 & ->). split; apply in_or_app; right; [left; reflexivity|]. right. apply in_or_app. right. left. reflexivity.
Qed.
Lemma precedes_map {A B} (f : A -> B) l a b : precedes l a b -> precedes (map f l) (f a) (f b).
Proof. intros (l1 & l2 & l3 & ->). exists (map f l1), (map f l2), (map f l3). rewrite !map_app. cbn [map]. rewrite map_app. reflexivity. Qed.
Section Stable.
  Context {A : Type} (le : A -> A -> bool).
  Lemma insert_precedes x l a b : precedes l a b -> precedes (insert_sorted le x l) a b.
  Proof.
    induction l as [|y l IH]; [intros ([|]&?&?&E); discriminate|]. intros H. cbn [insert_sorted]. destruct (le x y).
    - apply precedes_cons. right. exact H.
    - apply precedes_cons in H as [[<- H]|H]; apply precedes_cons.
      + left. split; [reflexivity|]. eapply Permutation_in; [symmetry; apply insert_sorted_perm|]. right. exact H.
      + right. apply IH, H.
  Qed.
  Lemma insert_first x l b : In b l -> le x b = true -> precedes (insert_sorted le x l) x b.
  Proof.
    induction l as [|y l IH]; [intros []|]. intros Hb Hl. cbn [insert_sorted]. destruct (le x y) eqn:E.
    - apply precedes_cons. left. auto.
    - apply precedes_cons. right. destruct Hb as [->|Hb]; [congruence|]. apply IH; auto.
  Qed.
  Lemma py_sorted_stable l a b : precedes l a b -> le a b = true -> precedes (py_sorted le l) a b.
  Proof.
    induction l as [|x l IH]; [intros ([|]&?&?&E); discriminate|]. intros H Hl. cbn [py_sorted].
    apply precedes_cons in H as [[<- H]|H]; [|apply insert_precedes; auto].
    apply insert_first; [|exact Hl]. eapply Permutation_in; [symmetry; apply py_sorted_perm|exact H].
  Qed.
End Stable.

(** ** The search *)
Section SearchProofs.
  Context {D Sc W : Type} (sle : Sc -> Sc -> bool) (Hsle : total_preorder sle).
  Notation gp := (gp D).
  Notation M := (@M Sc W).
  Notation heap := (@heap Sc).
  Notation results := (results D).

  Lemma bindM_ok {A B} (m : M A) (f : A -> M B) w w' b : bindM m f w = (w', Ok b) -> exists w1 a, m w = (w1, Ok a) /\ f a w1 = (w', Ok b).
  Proof. unfold bindM. destruct (m w) as [w1 [a|e]] eqn:E; [eauto|discriminate]. Qed.

  Definition keyed (u : gp -> res Sc) (l : list (Sc * gp)) : Prop := forall s m, In (s, m) l -> u m = Ok s.
  Lemma sort_keyed_perm (l : list (Sc * gp)) : Permutation (sort_keyed sle l) (map snd l).
  Proof. unfold sort_keyed. apply Permutation_map, py_sorted_perm. Qed.
  Lemma sort_keyed_ranked u (l : list (Sc * gp)) : keyed u l -> ranked sle u (sort_keyed sle l).
  Proof.
    intros K. destruct Hsle as [Ht Htr]. unfold ranked, sort_keyed.
    assert (S : StronglySorted (fun a b : Sc * gp => sle (fst a) (fst b) = true) (py_sorted (fun a b => sle (fst a) (fst b)) l)).
    { apply py_sorted_sorted; [intros; apply Ht|intros x y z; apply Htr]. }
    assert (K' : keyed u (py_sorted (fun a b => sle (fst a) (fst b)) l)).
    { intros s m H. apply K. eapply Permutation_in; [apply py_sorted_perm|exact H]. }
    revert S K'. generalize (py_sorted (fun a b => sle (fst a) (fst b)) l). clear.
    intros l. induction 1 as [|[s m] l Hl IH Hf]; intros K; cbn [map]; [constructor|]. constructor.
    - apply IH. intros s' m' H. apply K. right; exact H.
    - apply Forall_map. rewrite Forall_forall in Hf |- *. intros [s' m'] H. exists s, s'. cbn [snd].
      split; [apply K; left; reflexivity|]. split; [apply K; right; exact H|]. apply (Hf _ H).
  Qed.
  Lemma sort_keyed_ties u (l : list (Sc * gp)) : keyed u l -> ties_in_order sle u (map snd l) (sort_keyed sle l).
  Proof.
    intros K a b (l1 & l2 & l3 & E) (x & y & Ha & Hb & Hxy) _.
    assert (Hl : precedes l (x, a) (y, b)).
    { apply map_eq_app in E as (k1 & k2 & -> & E1 & E2). apply map_eq_cons in E2 as ([sa ma] & k3 & -> & E3 & E4).
      apply map_eq_app in E4 as (k4 & k5 & -> & E5 & E6). apply map_eq_cons in E6 as ([sb mb] & k6 & -> & E7 & E8).
      cbn [snd] in *. subst ma mb.
      assert (u a = Ok sa) by (apply K; apply in_or_app; right; left; reflexivity).
      assert (u b = Ok sb) by (apply K; apply in_or_app; right; right; apply in_or_app; right; left; reflexivity).
      exists k1, k4, k6. repeat f_equal; congruence. }
    apply (py_sorted_stable (fun a b => sle (fst a) (fst b))) in Hl; [|exact Hxy].
    apply (precedes_map snd) in Hl. exact Hl.
  Qed.

  Lemma keys_utility_ok u (ms : list gp) : forall (w w' : W * heap) l, keys_utility u ms w = (w', Ok l) ->
    map snd l = ms /\ keyed u l /\ fst w' = fst w
    /\ (forall i, ~ In i (map gid ms) -> snd w' i = snd w i)
    /\ (NoDup (map gid ms) -> forall m, In m ms -> exists s, u m = Ok s /\ snd w' (gid m) = Some s).
  Proof.
    induction ms as [|m ms IH]; intros w w' l; cbn [keys_utility]; intros H.
    - injection H as <- <-. split; [reflexivity|]. split; [intros s x []|]. split; [reflexivity|]. split; [reflexivity|intros _ x []].
    - apply bindM_ok in H as (w1 & s & H1 & H). apply bindM_ok in H as (w2 & l2 & H2 & H). injection H as <- <-.
      unfold compute_utility in H1. destruct (u m) as [s'|] eqn:Eu; [|discriminate]. injection H1 as <- <-.
      destruct (IH _ _ _ H2) as (E1 & K & E2 & E3 & E4). cbn [fst snd] in *.
      split; [cbn [map]; f_equal; exact E1|]. split.
      { intros x y [E|Hin]; [injection E as <- <-; exact Eu|apply K; exact Hin]. }
      split; [exact E2|]. split.
      { intros i Hi. rewrite E3 by (intros C; apply Hi; right; exact C). unfold hset. destruct (Nat.eqb_spec (gid m) i); [|reflexivity].
        exfalso. apply Hi. left. exact e. }
      intros N x [<-|Hx]; inversion N as [|? ? N1 N2]; subst.
      + exists s'. split; [exact Eu|]. rewrite E3 by exact N1. unfold hset. rewrite Nat.eqb_refl. reflexivity.
      + apply E4; assumption.
  Qed.
  Lemma keys_cached_ok u h (ms : list gp) : (forall m, In m ms -> exists s, u m = Ok s /\ h (gid m) = Some s) ->
    exists l, keys_cached h ms = Some l /\ map snd l = ms /\ keyed u l.
  Proof.
    induction ms as [|m ms IH]; intros H; cbn [keys_cached]; [exists []; repeat split; intros s x []|].
    destruct (H m (or_introl eq_refl)) as (s & Hu & Hh). destruct (IH (fun x Hx => H x (or_intror Hx))) as (l & -> & E & K).
    rewrite Hh. exists ((s, m) :: l). split; [reflexivity|]. split; [cbn; f_equal; exact E|].
    intros s' m' [E'|Hin]; [injection E' as <- <-; exact Hu|apply K, Hin].
  Qed.
  Lemma sorted_by_score_ok (u : gp -> res Sc) ms (w w' : W * heap) l : sorted_by_score sle u ms w = (w', Ok l) ->
    Permutation l ms /\ ranked sle u l /\ ties_in_order sle u ms l /\ fst w' = fst w
    /\ (forall i, ~ In i (map gid ms) -> snd w' i = snd w i)
    /\ (NoDup (map gid ms) -> forall m, In m ms -> exists s, u m = Ok s /\ snd w' (gid m) = Some s).
  Proof.
    unfold sorted_by_score. intros H. apply bindM_ok in H as (w1 & k & H1 & H). injection H as <- <-.
    destruct (keys_utility_ok _ _ _ _ _ H1) as (E1 & K & E2 & E3 & E4). rewrite <- E1.
    split; [apply sort_keyed_perm|]. split; [apply sort_keyed_ranked, K|]. split; [apply sort_keyed_ties, K|].
    rewrite E1. auto.
  Qed.
  Lemma sorted_by_cache_ok (u : gp -> res Sc) ms (w : W * heap) : (forall m, In m ms -> exists s, u m = Ok s /\ snd w (gid m) = Some s) ->
    exists l, sorted_by_cache sle ms w = (w, Ok l) /\ Permutation l ms /\ ranked sle u l /\ ties_in_order sle u ms l.
  Proof.
    intros H. unfold sorted_by_cache. destruct (keys_cached_ok u (snd w) ms H) as (l & -> & E & K).
    exists (sort_keyed sle l). split; [reflexivity|]. rewrite <- E.
    split; [apply sort_keyed_perm|]. split; [apply sort_keyed_ranked, K|apply sort_keyed_ties, K].
  Qed.

  Lemma gp_is_eq (l : list gp) a b : NoDup (map gid l) -> In a l -> In b l -> gp_is a b = true -> a = b.
  Proof.
    intros N Ha Hb E. apply Nat.eqb_eq in E. induction l as [|x l IH]; [destruct Ha|]. cbn [map] in N. inversion N as [|? ? N1 N2]; subst.
    destruct Ha as [->|Ha], Hb as [->|Hb]; [reflexivity| | |apply IH; auto];
      exfalso; apply N1; [rewrite E|rewrite <- E]; apply in_map; assumption.
  Qed.
  Lemma diff_gp (xs ys zs : list gp) : NoDup (map gid xs) -> Permutation xs (ys ++ zs) -> Permutation xs (ys ++ diff gp_is xs ys).
  Proof.
    revert xs zs. induction ys as [|y t IH]; intros xs zs N P; cbn [diff app] in *; [auto|].
    assert (Hy : In y xs) by (eapply Permutation_in; [symmetry; exact P|left; auto]).
    destruct (list_remove (fun x => gp_is x y) xs) as [r|] eqn:E.
    - destruct (list_remove_perm _ _ _ E) as (y' & Hy' & _ & P').
      assert (y' = y). { apply (gp_is_eq xs); auto. eapply Permutation_in; [symmetry; exact P'|left; auto]. }
      subst y'. rewrite P'. constructor. apply IH with zs.
      + eapply Permutation_NoDup in N; [|apply Permutation_map, P']. cbn in N. inversion N; assumption.
      + apply Permutation_cons_inv with y. rewrite <- P'. exact P.
    - exfalso. rewrite list_remove_none in E. specialize (E y Hy). cbn in E. unfold gp_is in E. rewrite Nat.eqb_refl in E. discriminate.
  Qed.
  Lemma slice_to_prefix {A} (l : list A) b : exists r, l = slice_to l b ++ r.
  Proof. unfold slice_to. destruct (b <? 0); eexists; symmetry; apply firstn_skipn. Qed.

  Section Inv.
    Context (next : W -> nat) (fit : fitter D W) (Hfit : fresh_fitter next fit) (offset : bool) (rules : list rule) (u : gp -> res Sc).
    Record inv (w : W * heap) (st : results) : Prop := {
      i_ids : NoDup (map gid (concat (tested_models st)));
      i_lt : forall m, In m (concat (tested_models st)) -> (gid m < next (fst w))%nat;
      i_cache : forall m, In m (concat (tested_models st)) -> exists s, u m = Ok s /\ snd w (gid m) = Some s;
      i_perm : Permutation (sorted_models st) (concat (tested_models st));
      i_ranked : ranked sle u (sorted_models st);
      i_ties : ties_in_order sle u (concat (tested_models st)) (sorted_models st);
      i_split : Permutation (expanded st ++ not_expanded st) (sorted_models st);
      i_ne : subseq (not_expanded st) (sorted_models st) }.

    Lemma print_list_ok {A} (l : list A) (w w' : W * heap) x : print_list l w = (w', Ok x) -> w' = w.
    Proof. destruct l; cbn; [discriminate|]. intros [= <-]. reflexivity. Qed.

    Lemma round_parts verbose beam r b st w w' st' : search_round sle offset fit rules u verbose beam r b st w = (w', Ok st') ->
      exists w1 fitted w2 ranked srt,
        fit (fst w) (new_exprs offset rules st b) = (w1, Ok fitted)
        /\ sorted_by_score sle u fitted (w1, snd w) = (w2, Ok ranked)
        /\ sorted_by_cache sle (concat (tested_models st ++ [ranked])) w2 = (w', Ok srt)
        /\ st' = {| sorted_models := srt; tested_models := tested_models st ++ [ranked];
                    tested_k_exprs := tested_k_exprs st ++ new_exprs offset rules st b;
                    expanded := expanded st ++ slice_to (not_expanded st) b;
                    not_expanded := diff gp_is srt (expanded st ++ slice_to (not_expanded st) b) |}.
    Proof.
      unfold search_round. intros H. apply bindM_ok in H as (wa & fitted & H1 & H). apply bindM_ok in H as (wb & rk & H2 & H).
      apply bindM_ok in H as (wc & srt & H3 & H). unfold run_fitter in H1. destruct (fit (fst w) _) as [w1 rr] eqn:Ef.
      injection H1 as <- ->. exists w1, fitted, wb, rk, srt. split; [reflexivity|]. split; [exact H2|].
      assert (G : w' = wc /\ st' = {| sorted_models := srt; tested_models := tested_models st ++ [rk];
                    tested_k_exprs := tested_k_exprs st ++ new_exprs offset rules st b;
                    expanded := expanded st ++ slice_to (not_expanded st) b;
                    not_expanded := diff gp_is srt (expanded st ++ slice_to (not_expanded st) b) |}).
      { destruct verbose; [|injection H as <- <-; auto].
        destruct (nth_error _ r) as [tr|]; [|discriminate]. destruct beam as [|b0 beam']; [discriminate|].
        apply bindM_ok in H as (wd & x1 & P1 & H). apply bindM_ok in H as (we & x2 & P2 & H). apply bindM_ok in H as (wf & x3 & P3 & H).
        apply print_list_ok in P1, P2, P3. injection H as <- <-. subst. auto. }
      destruct G as [-> ->]. auto.
    Qed.

    Lemma round_inv verbose beam r b st w w' st' : inv w st ->
      search_round sle offset fit rules u verbose beam r b st w = (w', Ok st') -> inv w' st'.
    Proof.
      intros I H. destruct (round_parts _ _ _ _ _ _ _ _ H) as (w1 & fitted & w2 & rk & srt & Ef & Es & Ec & ->). clear H.
      destruct (Hfit _ _ _ _ Ef) as (F1 & F2 & F3).
      destruct (sorted_by_score_ok _ _ _ _ _ Es) as (S1 & S2 & S3 & S4 & S5 & S6). cbn [fst snd] in *.
      destruct I as [I1 I2 I3 I4 I5 I6 I7 I8].
      assert (Pc : Permutation (concat (tested_models st ++ [rk])) (concat (tested_models st) ++ fitted)).
      { rewrite concat_app. cbn [concat]. rewrite app_nil_r. apply Permutation_app_head, S1. }
      assert (Hnew : forall m, In m (concat (tested_models st ++ [rk])) -> In m (concat (tested_models st)) \/ In m fitted).
      { intros m Hm. apply in_app_iff. eapply Permutation_in; [exact Pc|exact Hm]. }
      assert (N : NoDup (map gid (concat (tested_models st ++ [rk])))).
      { eapply Permutation_NoDup; [symmetry; apply Permutation_map, Pc|]. rewrite map_app. apply NoDup_app'; [exact I1|exact F1|].
        intros i H1 H2. apply in_map_iff in H1 as (m1 & <- & H1). apply in_map_iff in H2 as (m2 & E & H2).
        specialize (I2 _ H1). specialize (F2 _ H2). lia. }
      assert (C : forall m, In m (concat (tested_models st ++ [rk])) -> exists s, u m = Ok s /\ snd w2 (gid m) = Some s).
      { intros m Hm. destruct (Hnew m Hm) as [Hm'|Hm']; [|apply S6; auto].
        destruct (I3 m Hm') as (s & Hu & Hs). exists s. split; [exact Hu|]. rewrite S5; [exact Hs|].
        intros Hin. apply in_map_iff in Hin as (m2 & E & H2). specialize (I2 _ Hm'). specialize (F2 _ H2). lia. }
      destruct (sorted_by_cache_ok u _ _ C) as (srt' & Ec' & T1 & T2 & T3). rewrite Ec' in Ec. injection Ec as <- <-.
      destruct (slice_to_prefix (not_expanded st) b) as (rest & Hrest).
      assert (Pe : Permutation srt' ((expanded st ++ slice_to (not_expanded st) b) ++ diff gp_is srt' (expanded st ++ slice_to (not_expanded st) b))).
      { apply diff_gp with (zs := rest ++ fitted).
        - eapply Permutation_NoDup; [|exact N]. apply Permutation_map. symmetry. exact T1.
        - rewrite T1, Pc, <- I4, <- I7. rewrite Hrest at 1. rewrite <- !app_assoc. reflexivity. }
      constructor; cbn [sorted_models tested_models tested_k_exprs expanded not_expanded].
      - exact N.
      - intros m Hm. rewrite S4. destruct (Hnew m Hm) as [H|H]; [specialize (I2 _ H); lia|specialize (F2 _ H); lia].
      - exact C.
      - exact T1.
      - exact T2.
      - exact T3.
      - symmetry. exact Pe.
      - apply diff_subseq.
    Qed.
    Lemma loop_inv verbose beam rbs : forall st w w' st', inv w st ->
      search_loop sle offset fit rules u verbose beam rbs st w = (w', Ok st') -> inv w' st'.
    Proof.
      induction rbs as [|[r b] t IH]; intros st w w' st' I H; cbn [search_loop] in H; [injection H as <- <-; exact I|].
      apply bindM_ok in H as (w1 & st1 & H1 & H). eapply IH; [|exact H]. eapply round_inv; [exact I|exact H1].
    Qed.

    (** The parts of explore_model_space. *)
    Lemma explore_parts start rounds beam verbose w w' st' :
      explore_model_space sle offset fit rules u start rounds beam verbose w = (w', Ok st') ->
      exists ks w1 fitted w2 rk w3 srt bs,
        make_simple_kexs offset start = Ok ks /\ fit (fst w) ks = (w1, Ok fitted)
        /\ sorted_by_score sle u fitted (w1, snd w) = (w2, Ok rk) /\ sorted_by_score sle u rk w2 = (w3, Ok srt)
        /\ norm_beam rounds beam = Ok bs
        /\ model_search_rounds sle offset fit rules u rounds bs verbose
             {| sorted_models := srt; tested_models := [rk]; tested_k_exprs := ks; expanded := []; not_expanded := srt |} w3 = (w', Ok st').
    Proof.
      unfold explore_model_space. intros H. apply bindM_ok in H as (wa & ks & H1 & H). apply bindM_ok in H as (wb & x & H2 & H).
      apply bindM_ok in H as (wc & fitted & H3 & H). apply bindM_ok in H as (wd & rk & H4 & H). apply bindM_ok in H as (we & srt & H5 & H).
      apply bindM_ok in H as (wf & bs & H6 & H). apply bindM_ok in H as (wg & y & H7 & H). apply bindM_ok in H as (wh & st & H8 & H).
      apply bindM_ok in H as (wi & z & H9 & H). injection H as <- <-.
      unfold lift in H1, H6. injection H1 as <- E1. injection H6 as <- E6.
      assert (wb = w) by (destruct verbose; [apply print_list_ok in H2; exact H2|injection H2 as <- _; reflexivity]). subst wb.
      assert (wg = we) by (destruct verbose; [destruct bs; [discriminate|apply print_list_ok in H7; exact H7]|injection H7 as <- _; reflexivity]). subst wg.
      assert (wi = wh) by (destruct verbose; [destruct bs; [discriminate|apply print_list_ok in H9; exact H9]|injection H9 as <- _; reflexivity]). subst wi.
      unfold run_fitter in H3. destruct (fit (fst w) ks) as [w1 rr] eqn:Ef. injection H3 as <- ->.
      cbn [concat] in H5. rewrite app_nil_r in H5. exists ks, w1, fitted, wd, rk, we, srt, bs. auto 7.
    Qed.
    Lemma start_inv ks w w1 fitted w2 rk w3 srt :
      fit (fst w) ks = (w1, Ok fitted) -> sorted_by_score sle u fitted (w1, snd w) = (w2, Ok rk) -> sorted_by_score sle u rk w2 = (w3, Ok srt) ->
      inv w3 {| sorted_models := srt; tested_models := [rk]; tested_k_exprs := ks; expanded := []; not_expanded := srt |}.
    Proof.
      intros Ef E1 E2. destruct (Hfit _ _ _ _ Ef) as (F1 & F2 & F3).
      destruct (sorted_by_score_ok _ _ _ _ _ E1) as (S1 & S2 & S3 & S4 & S5 & S6).
      destruct (sorted_by_score_ok _ _ _ _ _ E2) as (T1 & T2 & T3 & T4 & T5 & T6). cbn [fst snd] in *.
      assert (N : NoDup (map gid rk)) by (eapply Permutation_NoDup; [symmetry; apply Permutation_map, S1|exact F1]).
      constructor; cbn [sorted_models tested_models tested_k_exprs expanded not_expanded concat app]; rewrite ?app_nil_r.
      - exact N.
      - intros m Hm. rewrite T4, S4. apply F2. eapply Permutation_in; [exact S1|exact Hm].
      - apply T6, N.
      - exact T1.
      - exact T2.
      - exact T3.
      - reflexivity.
      - apply subseq_refl.
    Qed.
    Lemma explore_inv start rounds beam verbose w w' st' :
      explore_model_space sle offset fit rules u start rounds beam verbose w = (w', Ok st') -> inv w' st'.
    Proof.
      intros H. destruct (explore_parts _ _ _ _ _ _ _ H) as (ks & w1 & fitted & w2 & rk & w3 & srt & bs & _ & Ef & E1 & E2 & _ & E3).
      eapply loop_inv; [|exact E3]. eapply start_inv; eauto.
    Qed.
    Lemma explore_ranked start rounds beam verbose w w' st' :
      explore_model_space sle offset fit rules u start rounds beam verbose w = (w', Ok st') ->
      Permutation (sorted_models st') (concat (tested_models st')) /\ ranked sle u (sorted_models st')
      /\ ties_in_order sle u (concat (tested_models st')) (sorted_models st').
    Proof. intros H. destruct (explore_inv _ _ _ _ _ _ _ H). auto. Qed.
    Lemma explore_partition start rounds beam verbose w w' st' :
      explore_model_space sle offset fit rules u start rounds beam verbose w = (w', Ok st') ->
      Permutation (expanded st' ++ not_expanded st') (sorted_models st') /\ ranked sle u (not_expanded st').
    Proof.
      intros H. destruct (explore_inv _ _ _ _ _ _ _ H). split; [assumption|]. eapply subseq_sorted; eassumption.
    Qed.

    (** *** No expression twice *)
    Lemma ordpairs_pairwise l : ForallOrdPairs (fun a b => keq a b = false) l -> pairwise_different l.
    Proof.
      intros F.
      assert (G : forall i j x y, (i < j)%nat -> nth_error l i = Some x -> nth_error l j = Some y -> keq x y = false).
      { induction F as [|a l Ha F IH]; intros i j x y Hij Hi Hj; [destruct i; discriminate|].
        destruct j as [|j]; [lia|]. destruct i as [|i].
        - injection Hi as ->. rewrite Forall_forall in Ha. apply Ha. eapply nth_error_In, Hj.
        - eapply (IH i j); eauto. lia. }
      intros i j x y Hne Hi Hj. destruct (Nat.lt_total i j) as [H|[H|H]]; [eapply G; eauto|contradiction|].
      rewrite keq_sym. eapply G; eauto.
    Qed.
    Lemma ordpairs_filter {A} (R : A -> A -> Prop) p l : ForallOrdPairs R l -> ForallOrdPairs R (filter p l).
    Proof.
      induction 1 as [|a l Ha F IH]; cbn [filter]; [constructor|]. destruct (p a); [|exact IH]. constructor; [|exact IH].
      rewrite Forall_forall in *. intros x Hx. apply filter_In in Hx as [Hx _]. auto.
    Qed.
    Lemma pairwise_app l m : pairwise_different l -> pairwise_different m ->
      (forall x y, In x l -> In y m -> keq x y = false) -> pairwise_different (l ++ m).
    Proof.
      intros Hl Hm Hlm i j x y Hne Hi Hj.
      destruct (Nat.lt_ge_cases i (length l)) as [Li|Li], (Nat.lt_ge_cases j (length l)) as [Lj|Lj].
      - rewrite nth_error_app1 in Hi, Hj by assumption. eapply (Hl i j); eauto.
      - rewrite nth_error_app1 in Hi by assumption. rewrite nth_error_app2 in Hj by assumption.
        apply Hlm; eapply nth_error_In; eauto.
      - rewrite nth_error_app1 in Hj by assumption. rewrite nth_error_app2 in Hi by assumption.
        rewrite keq_sym. apply Hlm; eapply nth_error_In; eauto.
      - rewrite nth_error_app2 in Hi, Hj by assumption. eapply (Hm (i - length l)%nat (j - length l)%nat); eauto. lia.
    Qed.
    Lemma new_exprs_different (st : results) b : pairwise_different (tested_k_exprs st) -> pairwise_different (tested_k_exprs st ++ new_exprs offset rules st b).
    Proof.
      intros H. apply pairwise_app; [exact H| |].
      - apply ordpairs_pairwise, ordpairs_filter, unique_distinct.
      - intros x y Hx Hy. unfold new_exprs in Hy. apply filter_In in Hy as [_ Hy]. apply negb_true_iff in Hy.
        destruct (keq x y) eqn:E; [|reflexivity]. assert (existsb (fun t => keq t y) (tested_k_exprs st) = true) by (apply existsb_exists; eauto).
        congruence.
    Qed.
    Lemma loop_exprs (Hall : fits_each fit) verbose beam rbs : forall st w w' st',
      Permutation (map gkex (concat (tested_models st))) (tested_k_exprs st) -> pairwise_different (tested_k_exprs st) ->
      search_loop sle offset fit rules u verbose beam rbs st w = (w', Ok st') ->
      Permutation (map gkex (concat (tested_models st'))) (tested_k_exprs st') /\ pairwise_different (tested_k_exprs st').
    Proof.
      induction rbs as [|[r b] t IH]; intros st w w' st' P Df H; cbn [search_loop] in H; [injection H as <- <-; auto|].
      apply bindM_ok in H as (w1 & st1 & H1 & H). eapply IH; [| |exact H].
      - destruct (round_parts _ _ _ _ _ _ _ _ H1) as (wa & fitted & wb & rk & srt & Ef & Es & Ec & ->).
        cbn [tested_models tested_k_exprs]. rewrite concat_app, map_app. apply Permutation_app; [exact P|].
        cbn [concat]. rewrite app_nil_r. apply sorted_by_score_ok in Es as (S1 & _). rewrite S1. rewrite (Hall _ _ _ _ Ef). reflexivity.
      - destruct (round_parts _ _ _ _ _ _ _ _ H1) as (wa & fitted & wb & rk & srt & Ef & Es & Ec & ->).
        cbn [tested_models tested_k_exprs]. apply new_exprs_different, Df.
    Qed.
    Lemma explore_exprs (Hall : fits_each fit) start ks rounds beam verbose w w' st' :
      make_simple_kexs offset start = Ok ks -> pairwise_different ks ->
      explore_model_space sle offset fit rules u start rounds beam verbose w = (w', Ok st') ->
      pairwise_different (tested_k_exprs st') /\ Permutation (map gkex (concat (tested_models st'))) (tested_k_exprs st').
    Proof.
      intros Ek Df H. destruct (explore_parts _ _ _ _ _ _ _ H) as (ks' & w1 & fitted & w2 & rk & w3 & srt & bs & Ek' & Ef & E1 & E2 & _ & E3).
      rewrite Ek in Ek'. injection Ek' as <-. apply and_comm. eapply (loop_exprs Hall); [| |exact E3]; cbn [tested_models tested_k_exprs]; [|exact Df].
      cbn [concat]. rewrite app_nil_r. apply sorted_by_score_ok in E1 as (S1 & _). rewrite S1. rewrite (Hall _ _ _ _ Ef). reflexivity.
    Qed.

    (** *** Continuing *)
    Lemma loop_app verbose beam a b st w : search_loop sle offset fit rules u verbose beam (a ++ b) st w
      = match search_loop sle offset fit rules u verbose beam a st w with
        | (w1, Ok st1) => search_loop sle offset fit rules u verbose beam b st1 w1
        | (w1, Raise e) => (w1, Raise e)
        end.
    Proof.
      revert st w. induction a as [|[r z] a IH]; intros st w; cbn [app search_loop]; [reflexivity|]. unfold bindM.
      destruct (search_round _ _ _ _ _ _ _ _ _ _ w) as [w1 [st1|e]]; [apply IH|reflexivity].
    Qed.
    Lemma loop_quiet beam beam' : forall a b st w, map snd a = map snd b ->
      search_loop sle offset fit rules u false beam a st w = search_loop sle offset fit rules u false beam' b st w.
    Proof.
      induction a as [|[r z] a IH]; intros [|[r' z'] b] st w E; try discriminate; [reflexivity|]. cbn in E. injection E as <- E.
      cbn [search_loop]. unfold bindM.
      change (search_round sle offset fit rules u false beam' r' z st w) with (search_round sle offset fit rules u false beam r z st w).
      destruct (search_round sle offset fit rules u false beam r z st w) as [w1 [st1|e]]; [apply IH, E|reflexivity].
    Qed.
    Lemma combine_snd {A B} (a : list A) (b : list B) : map snd (combine a b) = firstn (length a) b.
    Proof.
      revert b. induction a as [|x a IH]; intros b; [reflexivity|]. destruct b as [|y b]; [reflexivity|]. cbn. f_equal. apply IH.
    Qed.
    Lemma rounds_app n m b1 b2 st w : 0 <= n -> 0 <= m -> length b1 = Z.to_nat n ->
      model_search_rounds sle offset fit rules u (n + m) (b1 ++ b2) false st w
      = match model_search_rounds sle offset fit rules u n b1 false st w with
        | (w1, Ok st1) => model_search_rounds sle offset fit rules u m b2 false st1 w1
        | (w1, Raise e) => (w1, Raise e)
        end.
    Proof.
      intros Hn Hm L. unfold model_search_rounds.
      rewrite (loop_quiet (b1 ++ b2) b1 _ (combine (seq 1 (Z.to_nat n)) b1 ++ combine (seq 1 (Z.to_nat m)) b2)).
      - rewrite loop_app. destruct (search_loop _ _ _ _ _ _ _ _ _ _) as [w1 [st1|e]]; [|reflexivity]. apply loop_quiet. reflexivity.
      - rewrite map_app, !combine_snd, !seq_length. rewrite Z2Nat.inj_add by assumption. rewrite <- L at 1. rewrite firstn_app.
        rewrite firstn_all2 by lia. f_equal; [rewrite firstn_all2 by lia; reflexivity|]. f_equal. lia.
    Qed.
    (** explore_model_space without printing is a start followed by the rounds. *)
    Definition start_phase start : M results :=
      bindM (lift (make_simple_kexs offset start)) (fun ks =>
      bindM (run_fitter fit ks) (fun fitted =>
      bindM (sorted_by_score sle u fitted) (fun rk =>
      bindM (sorted_by_score sle u rk) (fun srt =>
      ret {| sorted_models := srt; tested_models := [rk]; tested_k_exprs := ks; expanded := []; not_expanded := srt |})))).
    Lemma explore_quiet start rounds beam w : explore_model_space sle offset fit rules u start rounds beam false w
      = bindM (start_phase start) (fun st => bindM (lift (norm_beam rounds beam)) (fun bs => model_search_rounds sle offset fit rules u rounds bs false st)) w.
    Proof.
      unfold explore_model_space, start_phase, bindM, lift, ret.
      destruct (make_simple_kexs offset start) as [ks|e]; [|reflexivity].
      destruct (run_fitter fit ks w) as [w1 [fitted|e]]; [|reflexivity].
      destruct (sorted_by_score sle u fitted w1) as [w2 [rk|e]]; [|reflexivity].
      cbn [concat]. rewrite app_nil_r.
      destruct (sorted_by_score sle u rk w2) as [w3 [srt|e]]; [|reflexivity].
      destruct (norm_beam rounds beam) as [bs|e]; [|reflexivity].
      destruct (model_search_rounds _ _ _ _ _ _ _ _ _ w3) as [w4 [st|e]]; reflexivity.
    Qed.
    Lemma explore_continue start n m beam bs b2 w : 0 <= n -> 0 <= m -> norm_beam (n + m) beam = Ok bs ->
      norm_beam n beam = Ok (firstn (Z.to_nat n) bs) -> (Z.to_nat n <= length bs)%nat -> b2 = skipn (Z.to_nat n) bs ->
      explore_model_space sle offset fit rules u start (n + m) beam false w
      = match explore_model_space sle offset fit rules u start n beam false w with
        | (w1, Ok st1) => model_search_rounds sle offset fit rules u m b2 false st1 w1
        | (w1, Raise e) => (w1, Raise e)
        end.
    Proof.
      intros Hn Hm E1 E2 L ->. rewrite !explore_quiet. unfold bindM, lift. rewrite E1, E2.
      destruct (start_phase start w) as [w1 [st|e]]; [|reflexivity].
      rewrite <- (firstn_skipn (Z.to_nat n) bs) at 1. apply rounds_app; try assumption. rewrite firstn_length. lia.
    Qed.
  End Inv.

  (** ** The beam argument *)
  Lemma ints_spec l : match ints l with
    | Some bs => l = map Some bs
    | None => exists x, In x l /\ x = None
    end.
  Proof.
    induction l as [|[z|] l IH]; cbn [ints]; [reflexivity| |exists None; split; [left; auto|auto]].
    destruct (ints l) as [bs|]; cbn [option_map]; [cbn; f_equal; exact IH|]. destruct IH as (x & Hx & ->). exists None. split; [right; auto|auto].
  Qed.
  Lemma last_snoc_nth (bs : list Z) d : bs <> [] -> exists l', bs = l' ++ [last bs d].
  Proof. intros H. exists (removelast bs). apply app_removelast_last, H. Qed.
  Lemma norm_beam_spec rounds beam : 0 <= rounds -> valid_beam rounds beam ->
    exists bs, norm_beam rounds beam = Ok bs /\ length bs = Z.to_nat rounds
               /\ forall i z, (i < Z.to_nat rounds)%nat -> (nth_error bs i = Some z <-> beam_value beam i z).
  Proof.
    intros Hr V. destruct beam as [l|b|]; [|exists (repeat b (Z.to_nat rounds)); split; [reflexivity|]; split; [apply repeat_length|]|destruct V].
    - destruct V as [V1 V2]. cbn [norm_beam]. pose proof (ints_spec l) as Hi. destruct (ints l) as [bs|]; [|destruct Hi as (x & Hx & ->); exfalso; eapply V1; eauto].
      subst l. destruct (Z.ltb_spec 0 (rounds - Z.of_nat (length bs))) as [Hl|Hl].
      + destruct bs as [|b0 bs']; [exfalso; destruct V2 as [V2|V2]; [apply V2; reflexivity|cbn in Hl; lia]|]. set (bs := b0 :: bs') in *.
        eexists. split; [reflexivity|]. split; [rewrite app_length, repeat_length; lia|]. intros i z Hi.
        cbn [beam_value]. rewrite map_length, nth_error_map.
        assert (Hne : bs <> []) by discriminate.
        destruct (Nat.lt_ge_cases i (length bs)) as [Li|Li].
        * rewrite nth_error_app1 by assumption. split.
          -- intros ->. left. reflexivity.
          -- intros [H|[H _]]; [|lia]. destruct (nth_error bs i); [injection H as ->; reflexivity|discriminate].
        * rewrite nth_error_app2 by assumption. rewrite nth_error_repeat by lia. split.
          -- intros [= <-]. right. split; [exact Li|]. destruct (last_snoc_nth bs b0 Hne) as (l' & E). exists (map Some l').
             rewrite E at 1. rewrite map_app. reflexivity.
          -- intros [H|[_ (l' & E)]]; [apply nth_error_None in Li; rewrite Li in H; discriminate|].
             destruct (last_snoc_nth bs b0 Hne) as (l2 & E2). rewrite E2 in E. rewrite map_app in E. cbn [map] in E.
             apply app_inj_tail in E as [_ E]. congruence.
      + unfold slice_to. destruct (Z.ltb_spec rounds 0) as [C|_]; [lia|]. eexists. split; [reflexivity|].
        split; [rewrite firstn_length; lia|]. intros i z Hi. cbn [beam_value]. rewrite map_length, nth_error_map.
        assert (E : nth_error (firstn (Z.to_nat rounds) bs) i = nth_error bs i).
        { rewrite <- (firstn_skipn (Z.to_nat rounds) bs) at 2. rewrite nth_error_app1; [reflexivity|rewrite firstn_length; lia]. }
        rewrite E. split; [intros ->; left; reflexivity|]. intros [H|[H _]]; [|lia].
        destruct (nth_error bs i); [injection H as ->; reflexivity|discriminate].
    - intros i z Hi. rewrite nth_error_repeat by assumption. cbn. split; congruence.
  Qed.
  Lemma beam_value_fun beam i z z' : beam_value beam i z -> beam_value beam i z' -> z = z'.
  Proof.
    destruct beam as [l|b|]; cbn; [|congruence|tauto]. intros [H|[H (l1 & E)]] [H'|[H' (l2 & E')]].
    - congruence.
    - apply nth_error_None in H'. congruence.
    - apply nth_error_None in H. congruence.
    - rewrite E in E'. apply app_inj_tail in E' as [_ E']. congruence.
  Qed.
  Lemma nth_error_ext {A} (l m : list A) : (forall i, nth_error l i = nth_error m i) -> l = m.
  Proof.
    revert m. induction l as [|x l IH]; intros [|y m] H; [reflexivity|specialize (H 0%nat); discriminate|specialize (H 0%nat); discriminate|].
    pose proof (H 0%nat) as H0. injection H0 as ->. f_equal. apply IH. intros i. exact (H (S i)).
  Qed.
  Lemma norm_beam_prefix n m beam bs : 0 <= n -> 0 <= m -> valid_beam (n + m) beam -> norm_beam (n + m) beam = Ok bs ->
    norm_beam n beam = Ok (firstn (Z.to_nat n) bs) /\ length bs = Z.to_nat (n + m).
  Proof.
    intros Hn Hm V E. destruct (norm_beam_spec (n + m) beam ltac:(lia) V) as (bs' & E' & L & H). rewrite E in E'. injection E' as <-.
    split; [|exact L].
    assert (V' : valid_beam n beam).
    { destruct beam as [l|b|]; [|exact I|destruct V]. destruct V as [V1 V2]. split; [exact V1|]. destruct V2 as [V2|V2]; [left; exact V2|right; lia]. }
    destruct (norm_beam_spec n beam Hn V') as (b1 & E1 & L1 & H1). rewrite E1. f_equal. apply nth_error_ext.
    intros i. destruct (Nat.lt_ge_cases i (Z.to_nat n)) as [Li|Li].
    - assert (E2 : nth_error (firstn (Z.to_nat n) bs) i = nth_error bs i).
      { rewrite <- (firstn_skipn (Z.to_nat n) bs) at 2. rewrite nth_error_app1; [reflexivity|rewrite firstn_length; lia]. }
      rewrite E2. destruct (nth_error b1 i) as [z|] eqn:Ez; [|apply nth_error_None in Ez; lia].
      symmetry. apply H; [lia|]. apply H1; assumption.
    - transitivity (@None Z); [apply nth_error_None; lia|]. symmetry. apply nth_error_None. rewrite firstn_length. lia.
  Qed.

  Lemma explore_continues (fit : fitter D W) offset rules (u : gp -> res Sc) start n m beam b2 w :
    0 <= n -> 0 <= m -> valid_beam (n + m) beam ->
    length b2 = Z.to_nat m -> (forall i z, nth_error b2 i = Some z -> beam_value beam (Z.to_nat n + i) z) ->
    explore_model_space sle offset fit rules u start (n + m) beam false w
    = match explore_model_space sle offset fit rules u start n beam false w with
      | (w1, Ok st1) => model_search_rounds sle offset fit rules u m b2 false st1 w1
      | (w1, Raise e) => (w1, Raise e)
      end.
  Proof.
    intros Hn Hm V L2 H2. destruct (norm_beam_spec (n + m) beam ltac:(lia) V) as (bs & E & L & H).
    destruct (norm_beam_prefix n m beam bs Hn Hm V E) as [E' _].
    eapply explore_continue; [exact Hn|exact Hm|exact E|exact E'|lia|]. apply nth_error_ext. intros i.
    assert (E3 : nth_error (skipn (Z.to_nat n) bs) i = nth_error bs (Z.to_nat n + i)).
    { rewrite <- (firstn_skipn (Z.to_nat n) bs) at 2. rewrite nth_error_app2 by (rewrite firstn_length; lia).
      rewrite firstn_length. f_equal. lia. }
    rewrite E3. destruct (Nat.lt_ge_cases i (Z.to_nat m)) as [Li|Li].
    - destruct (nth_error b2 i) as [z|] eqn:Ez; [|apply nth_error_None in Ez; lia]. symmetry. apply H; [lia|]. apply H2, Ez.
    - transitivity (@None Z); [apply nth_error_None; lia|]. symmetry. apply nth_error_None. lia.
  Qed.

  (** ** The best model *)
  Section Best.
    Context (next : W -> nat) (fit : fitter D W) (Hfit : fresh_fitter next fit) (offset : bool) (rules : list rule) (u : gp -> res Sc).
    Lemma loop_keeps verbose beam rbs : forall st w w' st', search_loop sle offset fit rules u verbose beam rbs st w = (w', Ok st') ->
      exists more, tested_models st' = tested_models st ++ more /\ length more = length rbs.
    Proof.
      induction rbs as [|[r b] t IH]; intros st w w' st' H; cbn [search_loop] in H; [injection H as <- <-; exists []; rewrite app_nil_r; auto|].
      apply bindM_ok in H as (w1 & st1 & H1 & H). destruct (IH _ _ _ _ H) as (more & -> & L).
      destruct (round_parts _ _ _ _ _ _ _ _ _ _ _ _ H1) as (wa & fitted & wb & rk & srt & Ef & Es & Ec & ->).
      cbn [tested_models]. exists (rk :: more). rewrite <- app_assoc. cbn. auto.
    Qed.
    Lemma loop_better verbose beam rbs st w w' st' m l : inv next u w st ->
      search_loop sle offset fit rules u verbose beam rbs st w = (w', Ok st') -> sorted_models st = m :: l ->
      exists m' l', sorted_models st' = m' :: l' /\ at_most sle u m' m.
    Proof.
      intros I H E. pose proof (loop_inv next fit Hfit offset rules u _ _ _ _ _ _ _ I H) as I'.
      destruct (loop_keeps _ _ _ _ _ _ _ H) as (more & Em & _).
      assert (Hm : In m (concat (tested_models st))) by (eapply Permutation_in; [apply (i_perm _ _ _ _ I)|rewrite E; left; auto]).
      assert (Hm' : In m (sorted_models st')).
      { eapply Permutation_in; [symmetry; apply (i_perm _ _ _ _ I')|]. rewrite Em, concat_app. apply in_or_app. left. exact Hm. }
      destruct (i_cache _ _ _ _ I m Hm) as (s & Hu & _).
      pose proof (i_ranked _ _ _ _ I') as Hr. destruct (sorted_models st') as [|m' l']; [destruct Hm'|].
      exists m', l'. split; [reflexivity|]. inversion Hr as [|? ? _ Hf]; subst. destruct Hm' as [->|Hm'].
      - exists s, s. repeat split; auto. destruct Hsle as [Ht _]. destruct (Ht s s); assumption.
      - rewrite Forall_forall in Hf. apply Hf, Hm'.
    Qed.
    Lemma explore_better start n k beam w w1 st1 w2 st2 m l : 0 <= n -> 0 <= k -> valid_beam (n + k) beam ->
      explore_model_space sle offset fit rules u start n beam false w = (w1, Ok st1) ->
      explore_model_space sle offset fit rules u start (n + k) beam false w = (w2, Ok st2) ->
      sorted_models st1 = m :: l -> exists m' l', sorted_models st2 = m' :: l' /\ at_most sle u m' m.
    Proof.
      intros Hn Hk V H1 H2 E. destruct (norm_beam_spec (n + k) beam ltac:(lia) V) as (bs & Eb & L & H).
      destruct (norm_beam_prefix n k beam bs Hn Hk V Eb) as [E' _].
      rewrite (explore_continue fit offset rules u start n k beam bs _ w Hn Hk Eb E' ltac:(lia) eq_refl), H1 in H2.
      eapply loop_better; [|exact H2|exact E]. eapply explore_inv; eauto.
    Qed.
    Lemma continued_inv start rounds beam verbose w w1 st1 :
      explore_model_space sle offset fit rules u start rounds beam verbose w = (w1, Ok st1) ->
      forall fit' offset' rules' rounds' beam' verbose' w2 st2, fresh_fitter next fit' ->
      model_search_rounds sle offset' fit' rules' u rounds' beam' verbose' st1 w1 = (w2, Ok st2) -> inv next u w2 st2.
    Proof.
      intros H fit' offset' rules' rounds' beam' verbose' w2 st2 Hf' H2. eapply (loop_inv next fit' Hf'); [|exact H2].
      eapply explore_inv; [exact Hfit|exact H].
    Qed.
    Lemma continued_ranked start rounds beam verbose w w1 st1 :
      explore_model_space sle offset fit rules u start rounds beam verbose w = (w1, Ok st1) ->
      forall fit' offset' rules' rounds' beam' verbose' w2 st2, fresh_fitter next fit' ->
      model_search_rounds sle offset' fit' rules' u rounds' beam' verbose' st1 w1 = (w2, Ok st2) ->
      Permutation (sorted_models st2) (concat (tested_models st2)) /\ ranked sle u (sorted_models st2)
      /\ ties_in_order sle u (concat (tested_models st2)) (sorted_models st2)
      /\ Permutation (expanded st2 ++ not_expanded st2) (sorted_models st2) /\ ranked sle u (not_expanded st2).
    Proof.
      intros H fit' offset' rules' rounds' beam' verbose' w2 st2 Hf' H2.
      destruct (continued_inv _ _ _ _ _ _ _ H _ _ _ _ _ _ _ _ Hf' H2). repeat (split; [assumption|]). eapply subseq_sorted; eassumption.
    Qed.
    Lemma explore_rounds start rounds beam verbose w w' st' : 0 <= rounds -> valid_beam rounds beam ->
      explore_model_space sle offset fit rules u start rounds beam verbose w = (w', Ok st') ->
      length (tested_models st') = S (Z.to_nat rounds).
    Proof.
      intros Hr V H. destruct (explore_parts _ _ _ _ _ _ _ _ _ _ _ H) as (ks & w1 & fitted & w2 & rk & w3 & srt & bs & _ & Ef & E1 & E2 & Eb & E3).
      destruct (norm_beam_spec rounds beam Hr V) as (bs' & Eb' & L & _). rewrite Eb in Eb'. injection Eb' as <-.
      destruct (loop_keeps _ _ _ _ _ _ _ E3) as (more & -> & Lm). cbn [tested_models app length]. f_equal. rewrite Lm.
      rewrite combine_length, seq_length. lia.
    Qed.
  End Best.

  (** ** Printing *)
  Definition agrees {A} (r r' : (W * heap) * res A) : Prop := r = r' \/ exists w, r = (w, Raise EIndexError).
  Lemma agrees_bind {A B} (m m' : M A) (f f' : A -> M B) w : agrees (m w) (m' w) -> (forall a w1, agrees (f a w1) (f' a w1)) ->
    agrees (bindM m f w) (bindM m' f' w).
  Proof.
    intros [E|(w1 & E)] Hf; unfold bindM; rewrite E.
    - destruct (m' w) as [w1 [a|e]]; [apply Hf|left; reflexivity].
    - right. exists w1. reflexivity.
  Qed.
  Lemma agrees_print {A B} (l : list A) (f f' : M B) w : (forall w, agrees (f w) (f' w)) -> agrees (bindM (print_list l) (fun _ => f) w) (f' w).
  Proof. intros H. destruct l; [right; eexists; reflexivity|apply H]. Qed.
  Lemma round_quiet fit offset rules (u : gp -> res Sc) beam r b (st : results) w :
    agrees (search_round sle offset fit rules u true beam r b st w) (search_round sle offset fit rules u false beam r b st w).
  Proof.
    unfold search_round. apply agrees_bind; [left; reflexivity|]. intros fitted w1. apply agrees_bind; [left; reflexivity|]. intros rk w2.
    apply agrees_bind; [left; reflexivity|]. intros srt w3. destruct (nth_error _ r); [|right; eexists; reflexivity].
    destruct beam as [|b0 beam]; [right; eexists; reflexivity|]. do 3 (apply agrees_print; intro). left; reflexivity.
  Qed.
  Lemma loop_quiet_agrees fit offset rules (u : gp -> res Sc) beam rbs : forall (st : results) w,
    agrees (search_loop sle offset fit rules u true beam rbs st w) (search_loop sle offset fit rules u false beam rbs st w).
  Proof.
    induction rbs as [|[r b] t IH]; intros st w; cbn [search_loop]; [left; reflexivity|]. apply agrees_bind; [apply round_quiet|]. intros; apply IH.
  Qed.
  Lemma explore_verbose fit offset rules (u : gp -> res Sc) start rounds beam w :
    agrees (explore_model_space sle offset fit rules u start rounds beam true w) (explore_model_space sle offset fit rules u start rounds beam false w).
  Proof.
    unfold explore_model_space. apply agrees_bind; [left; reflexivity|]. intros ks w1.
    apply agrees_bind; [destruct ks; [right; eexists; reflexivity|left; reflexivity]|]. intros _ w2.
    apply agrees_bind; [left; reflexivity|]. intros fitted w3. apply agrees_bind; [left; reflexivity|]. intros rk w4.
    apply agrees_bind; [left; reflexivity|]. intros srt w5. apply agrees_bind; [left; reflexivity|]. intros bs w6.
    apply agrees_bind; [destruct bs as [|b0 bs]; [right; eexists; reflexivity|destruct (slice_to srt b0); [right; eexists; reflexivity|left; reflexivity]]|].
    intros _ w7. apply agrees_bind; [apply loop_quiet_agrees|]. intros st w8.
    apply agrees_bind; [destruct bs as [|b0 bs]; [right; eexists; reflexivity|destruct (slice_to (sorted_models st) b0); [right; eexists; reflexivity|left; reflexivity]]|].
    intros _ w9. left; reflexivity.
  Qed.
  (** ** Bad beams *)
  Lemma explore_bad_beam fit offset rules (u : gp -> res Sc) start rounds beam e (w w1 : W * heap) st : norm_beam rounds beam = Raise e ->
    explore_model_space sle offset fit rules u start 0 (BInt 1) false w = (w1, Ok st) ->
    explore_model_space sle offset fit rules u start rounds beam false w = (w1, Raise e).
  Proof.
    intros E. rewrite !explore_quiet. unfold bindM, lift. rewrite E. destruct (start_phase fit offset u start w) as [w2 [st2|e2]]; [|discriminate].
    cbn. intros [= <- <-]. reflexivity.
  Qed.
  Lemma norm_beam_type_error rounds beam : (forall z, beam <> BInt z) -> ~ integer_list beam -> norm_beam rounds beam = Raise ETypeError.
  Proof.
    intros H1 H2. destruct beam as [l|z|]; [|exfalso; eapply H1; reflexivity|reflexivity]. cbn. pose proof (ints_spec l) as Hi.
    destruct (ints l) as [bs|]; [|reflexivity]. exfalso. apply H2. exists l. split; [reflexivity|]. intros x Hx. subst l.
    apply in_map_iff in Hx as (z & <- & _). discriminate.
  Qed.
  Lemma norm_beam_empty rounds : 0 < rounds -> norm_beam rounds (BList []) = Raise EIndexError.
  Proof. intros H. cbn. destruct (Z.ltb_spec 0 (rounds - 0)); [reflexivity|lia]. Qed.
End SearchProofs.

Lemma all_chunks_perm n size order : (0 < size)%nat -> all_chunks n size order -> Permutation order (seq 0 (n_chunks n size)).
Proof.
  intros Hs [N H]. apply NoDup_Permutation; [exact N|apply seq_NoDup|]. intros c. rewrite H, in_seq, <- (n_chunks_spec n size c Hs). lia.
Qed.
Lemma parallel_sequential {A} (out : nat -> res A) n cpus order : all_chunks n (S (n / cpus)) order ->
  match mapM out (seq 0 n) with
  | Ok ms => fit_mods_parallel out n cpus order = Ok (map Some ms)
  | Raise _ => exists i e, (i < n)%nat /\ out i = Raise e /\ fit_mods_parallel out n cpus order = Raise e
  end.
Proof.
  intros H. unfold fit_mods_parallel, chunksize. assert (Hs : (0 < S (n / cpus))%nat) by lia. apply all_chunks_perm in H; [|exact Hs].
  destruct (mapM out (seq 0 n)) as [ms|e] eqn:E.
  - apply mapM_ok_all in E.
    destruct ms as [|a0 ms0].
    + destruct n as [|n']; [|inversion E]. destruct order as [|c order]; [reflexivity|].
      exfalso. assert (E0 : forall x, n_chunks 0 (S x) = 0%nat) by (intros; unfold n_chunks; rewrite Nat.div_0_l, Nat.mod_0_l by lia; reflexivity).
      rewrite E0 in H. apply Permutation_sym in H. exact (Permutation_nil_cons H).
    + set (ms := a0 :: ms0) in *. set (g := fun i => nth i ms a0).
      assert (Hl : length ms = n) by (rewrite <- (seq_length n 0); clear -E; induction E; cbn; congruence).
      assert (Hg : forall i, (i < n)%nat -> out i = Ok (g i)).
      { intros i Hi. unfold g. clear -E Hi. assert (G : forall s k (l : list A), Forall2 (fun x y => out x = Ok y) (seq s k) l ->
          forall i, (i < k)%nat -> out (s + i)%nat = Ok (nth i l a0)).
        { intros s k; revert s; induction k as [|k IH]; intros s l F j Hj; [lia|]. cbn in F. inversion F as [|? y ? l' F1 F2]; subst.
          destruct j as [|j]; [rewrite Nat.add_0_r; exact F1|]. rewrite <- Nat.add_succ_comm. apply (IH (S s) l' F2 j). lia. }
        apply (G 0%nat n ms E i Hi). }
      rewrite (pool_all_ok out g n _ order Hs Hg H). f_equal. rewrite <- (map_map g Some). f_equal. apply nth_error_ext. intros i.
      rewrite nth_error_map. destruct (Nat.lt_ge_cases i n) as [Li|Li].
      * rewrite (nth_error_nth' (seq 0 n) 0%nat) by (rewrite seq_length; exact Li). rewrite seq_nth by exact Li. cbn.
        rewrite (nth_error_nth' ms a0) by lia. reflexivity.
      * rewrite (proj2 (nth_error_None (seq 0 n) i)) by (rewrite seq_length; exact Li). symmetry. apply nth_error_None. lia.
  - apply mapM_raise in E as (i & Hi & Ei). apply in_seq in Hi. apply (pool_some_raise out n _ order i e Hs ltac:(lia) Ei H).
Qed.

(** ** A toy fitter, for examples and counterexamples: the world counts the objects made, every fit succeeds. *)
Definition toy_gp : Type := gp unit.
Definition toy_attempt (w : nat) (k : kex) : nat * res toy_gp := (S w, Ok {| gid := w; gkex := k; gdata := tt |}).
Definition toy_fit : fitter unit nat := fit_mods_not_parallel toy_attempt 1.
(** Smaller expressions score lower. *)
Definition toy_score (m : toy_gp) : res Z := Ok (Z.of_nat (size (gkex m)) * 10 + match gkex m with Comm _ [(bPER, _)] _ => 0 | _ => 1 end).
(** Later models score lower. *)
Definition toy_score' (m : toy_gp) : res Z := Ok (- Z.of_nat (gid m)).
Definition toy_world : nat * heap := (0%nat, (fun _ => @None Z)).
Lemma toy_attempt_fresh : fresh_attempt (fun w => w) toy_attempt.
Proof. intros w k w' r [= <- <-]. cbn. repeat split; lia. Qed.
Lemma toy_fit_fresh : fresh_fitter (fun w => w) toy_fit /\ fits_each toy_fit.
Proof. apply fit_seq_is_fresh, toy_attempt_fresh. Qed.
Lemma zleb_total : total_preorder Z.leb.
Proof. split; intros; lia. Qed.
Definition toy_rules := rules_minimal true [bPER; bLIN] [bPER].
Definition toy_start : list (string + kex) := [inl "WN"%string; inl "PER"%string].
Definition toy_explore (rounds : Z) (beam : beam_arg) (verbose : bool) :=
  explore_model_space Z.leb true toy_fit toy_rules toy_score toy_start rounds beam verbose toy_world.
(** Identities in a result. *)
Definition ids_of (r : (nat * @heap Z) * res (results unit)) :=
  match snd r with
  | Ok st => Ok (map gid (sorted_models st), map (map gid) (tested_models st), map gid (expanded st), map gid (not_expanded st))
  | Raise e => Raise e
  end.
Lemma other_utility_not_ranked : exists next fit u u' w w1 st1 w2 st2,
  total_preorder Z.leb /\ @fresh_fitter unit nat next fit
  /\ explore_model_space Z.leb true fit toy_rules u toy_start 0 (BInt 1) false w = (w1, Ok st1)
  /\ model_search_rounds Z.leb true fit toy_rules u' 1 [1] false st1 w1 = (w2, Ok st2)
  /\ (forall m, In m (sorted_models st2) -> exists s, u' m = Ok s) /\ ~ ranked Z.leb u' (sorted_models st2).
Proof.
  exists (fun w => w), toy_fit, toy_score', (fun m => Ok (Z.of_nat (gid m))), toy_world. do 4 eexists. split; [exact zleb_total|].
  split; [apply toy_fit_fresh|]. split; [vm_compute; reflexivity|]. split; [vm_compute; reflexivity|]. split.
  - intros m _. eexists. reflexivity.
  - intros H. inversion H as [|? ? _ F]; subst. inversion F as [|? ? F1 _]; subst. destruct F1 as (x & y & [= <-] & [= <-] & E). discriminate.
Qed.
Lemma continue_twice_fails : exists next fit u w w0 st0 w1 st1 w2 st2,
  @fresh_fitter unit nat next fit
  /\ explore_model_space Z.leb true fit toy_rules u toy_start 1 (BInt 1) false w = (w0, Ok st0)
  /\ model_search_rounds Z.leb true fit toy_rules u 1 [2] false st0 w0 = (w1, Ok st1)
  /\ model_search_rounds Z.leb true fit toy_rules u 1 [2] false (caller_lists_after st0 st1) w1 = (w2, Ok st2)
  /\ ~ Permutation (expanded st2 ++ not_expanded st2) (sorted_models st2).
Proof.
  exists (fun w => w), toy_fit, toy_score, toy_world. do 6 eexists.
  split; [apply toy_fit_fresh|]. split; [vm_compute; reflexivity|]. split; [vm_compute; reflexivity|]. split; [vm_compute; reflexivity|].
  intros H. apply Permutation_length in H. vm_compute in H. discriminate.
Qed.
