(** The number of parameters (C65). *)
From Coq Require Import Reals Lra List Bool Arith ZArith Lia Permutation.
From Verif Require Import Py UtilModel UtilSpec UtilProofs KexModel KexSpec KexProofs KexSimp KexMore OpsModel KexCong KernModel KernSpec
  SemModel SemSpec SemProofs SemSimp SemMore SemOps SemKernel ObjModel DataModel CountModel CountSpec.
Import ListNotations.
Local Open Scope Z_scope.

Lemma total_of_app {A} (f : A -> nat) l m : total_of f (l ++ m) = (total_of f l + total_of f m)%nat.
Proof. induction l as [|x l IH]; simpl; [reflexivity|]. unfold total_of in *. lia. Qed.
Lemma total_of_perm {A} (f : A -> nat) l m : Permutation l m -> total_of f l = total_of f m.
Proof. unfold total_of. induction 1; simpl; lia. Qed.
Lemma total_of_map {A B} (f : B -> nat) (g : A -> B) l : total_of f (map g l) = total_of (fun x => f (g x)) l.
Proof. induction l as [|x l IH]; simpl; [reflexivity|]. f_equal. exact IH. Qed.
Lemma total_of_ext {A} (f g : A -> nat) l : (forall x, In x l -> f x = g x) -> total_of f l = total_of g l.
Proof. induction l as [|x l IH]; intros H; simpl; [reflexivity|]. rewrite (H x (or_introl eq_refl)). f_equal. apply IH. intros; apply H; right; auto. Qed.
Lemma total_of_le {A} (f g : A -> nat) l : (forall x, In x l -> (f x <= g x)%nat) -> (total_of f l <= total_of g l)%nat.
Proof. induction l as [|x l IH]; intros H; simpl; [lia|]. pose proof (H x (or_introl eq_refl)). assert (total_of f l <= total_of g l)%nat by (apply IH; intros; apply H; right; auto). unfold total_of in *. lia. Qed.
Lemma total_of_plus {A} (f g : A -> nat) l : total_of (fun x => (f x + g x)%nat) l = (total_of f l + total_of g l)%nat.
Proof. induction l as [|x l IH]; simpl; [reflexivity|]. unfold total_of in *. lia. Qed.
Lemma total_of_one {A} (l : list A) : total_of (fun _ => 1%nat) l = length l.
Proof. induction l as [|x l IH]; [reflexivity|]. change (S (total_of (fun _ : A => 1%nat) l) = S (length l)). rewrite IH. reflexivity. Qed.

Section Count.
  Variables (offset fixed : bool).
  Notation own := (shape_parameters offset).
  Notation fp := (free_parameters offset fixed).

  (** ** The kernel object *)
  (** The number of parameters of a kernel object. *)
  Fixpoint gcount (g : gkern) : nat :=
    match g with
    | GBase b f => ((if f then 1 else 0) + own b)%nat
    | GAdd a b | GMul a b => (gcount a + gcount b)%nat
    | GChange c a b => (gcount a + gcount b + change_parameters fixed c)%nat
    end.
  Fixpoint gactual (g : gkern) : Prop :=
    match g with GBase b _ => is_sigmoid b = false | GAdd a b | GMul a b | GChange _ a b => gactual a /\ gactual b end.
  Lemma listed_count g : gactual g -> exists o, new_object g = Ok o /\ length (listed offset fixed o) = gcount g.
  Proof.
    induction g as [b f|a IHa b IHb|a IHa b IHb|c a IHa b IHb]; cbn [gactual].
    - intros H. destruct b; try discriminate; eexists; (split; [reflexivity|]); cbn; destruct f, offset; reflexivity.
    - intros [Ha Hb]. destruct (IHa Ha) as (x & Ex & Lx), (IHb Hb) as (y & Ey & Ly). cbn [new_object]. rewrite Ex, Ey. cbn [bind].
      eexists; split; [reflexivity|]. cbn [listed gcount]. rewrite app_length. congruence.
    - intros [Ha Hb]. destruct (IHa Ha) as (x & Ex & Lx), (IHb Hb) as (y & Ey & Ly). cbn [new_object]. rewrite Ex, Ey. cbn [bind].
      eexists; split; [reflexivity|]. cbn [listed gcount]. rewrite app_length. congruence.
    - intros [Ha Hb]. destruct (IHa Ha) as (x & Ex & Lx), (IHb Hb) as (y & Ey & Ly). cbn [new_object]. rewrite Ex, Ey. cbn [bind].
      eexists; split; [reflexivity|]. unfold new_change. destruct c; cbn [listed gcount]; rewrite !app_length, Lx, Ly; unfold slope_of, change_parameters; destruct fixed; reflexivity.
  Qed.
  Lemma gcount_fold k t x : gcount (fold_left (gop k) t x) = total_of gcount (x :: t).
  Proof.
    revert x. induction t as [|y t IH]; intros x; cbn [fold_left]; [simpl; lia|]. rewrite IH. cbn [total_of fold_right]. destruct k; cbn [gop gcount]; lia.
  Qed.
  Lemma gactual_fold k t x : (forall g, In g (x :: t) -> gactual g) -> gactual (fold_left (gop k) t x).
  Proof.
    revert x. induction t as [|y t IH]; intros x H; cbn [fold_left]; [apply H; left; auto|]. apply IH. intros g [<-|Hg]; [|apply H; right; right; auto].
    destruct k; cbn [gop gactual]; split; apply H; simpl; auto.
  Qed.
  Lemma mapM_base_actual l gs : mapM base_str_to_ker l = Ok gs -> forall b, In b l -> is_sigmoid b = false.
  Proof.
    revert gs. induction l as [|b t IH]; intros gs; simpl; [intros _ ? []|]. unfold base_str_to_ker at 1. destruct (is_sigmoid b) eqn:E; [discriminate|]. cbn [bind].
    destruct (mapM base_str_to_ker t) as [ys|]; [|discriminate]. intros _ b' [<-|Hb]; [exact E|]. eapply IH; eauto.
  Qed.
  Definition first_variance (k : kind) (bs : list gkern) : list gkern := match k with KSum => bs | KProd => keep_first_variance bs end.
  Lemma first_count k l : total_of gcount (first_variance k (map (fun b => GBase b true) l)) = (variances k l + total_of own l)%nat.
  Proof.
    destruct k; cbn [first_variance].
    - rewrite total_of_map. cbn [gcount variances]. rewrite total_of_plus, total_of_one. reflexivity.
    - destruct l as [|b t]; [reflexivity|]. cbn [map keep_first_variance variances]. rewrite map_map. cbn [total_of fold_right unlink_variance gcount].
      change (fold_right (fun x s => (gcount x + s)%nat) 0%nat (map (fun _ => ?f) ?l)) with (total_of gcount (map (fun _ => f) l)).
      fold (total_of gcount (map (fun x => GBase x false) t)). rewrite total_of_map. cbn [gcount]. unfold total_of. simpl. lia.
  Qed.
  Lemma variances_perm k l m : Permutation l m -> variances k l = variances k m.
  Proof. intros P. destruct k; cbn [variances]; [apply Permutation_length, P|]. destruct l, m; try reflexivity; [apply Permutation_nil_cons in P as []|symmetry in P; apply Permutation_nil_cons in P as []]. Qed.
  Lemma bind_ok {A B} (m : res A) (f : A -> res B) y : (do x <- m; f x) = Ok y -> exists x, m = Ok x /\ f x = Ok y.
  Proof. destruct m; [eauto|discriminate]. Qed.

  Lemma to_kernel_count e : wf e -> forall g, to_kernel e = Ok g -> gactual g /\ gcount g = fp e.
  Proof.
    induction e as [k bts cts IH|c l r IHl IHr] using kex_ind'; intros W g Eg.
    - apply wf_comm in W as [Wb Wc]. rewrite to_kernel_comm in Eg. apply bind_ok in Eg as (bs & Eb & Eg). apply bind_ok in Eg as (gs & Es & Eg).
      pose proof (mapM_base_actual _ _ Eb) as Ab. apply mapM_base_inv in Eb. apply seqM_inv in Es. set (L := order_base_kerns (celements bts)) in *.
      assert (PL : Permutation L (bases_in bts)) by (unfold L; rewrite order_perm; symmetry; apply bases_in_elements, wf_nodup, Wb).
      assert (HC : (forall g, In g gs -> gactual g) /\ total_of gcount gs = total_of fp cts).
      { clear - Es IH Wc. induction Es as [|c x cts gs E Es IHs]; [split; [intros ? []|reflexivity]|].
        destruct IHs as [A T]; [intros c' Hc'; apply IH; right; exact Hc'|intros; apply Wc; right; auto|].
        destruct (IH c (or_introl eq_refl) (Wc c (or_introl eq_refl)) x E) as [Ax Tx]. split; [intros y [<-|Hy]; auto|]. cbn [total_of fold_right]. unfold total_of in T. congruence. }
      destruct HC as [HA HT].
      assert (HB : forall g, In g (first_variance k bs) -> gactual g).
      { intros y Hy. subst bs. destruct k; cbn [first_variance] in Hy.
        - apply in_map_iff in Hy as (b & <- & Hb). apply Ab, Hb.
        - destruct L as [|b0 t]; [destruct Hy|]. cbn [map keep_first_variance] in Hy. destruct Hy as [<-|Hy]; [apply Ab; left; auto|]. rewrite map_map in Hy.
          apply in_map_iff in Hy as (b & <- & Hb). cbn. apply Ab. right; exact Hb. }
      change (match k with KSum => bs | KProd => keep_first_variance bs end) with (first_variance k bs) in Eg.
      destruct (first_variance k bs ++ gs) as [|x t] eqn:El; [discriminate|]. cbn [reduce1] in Eg. injection Eg as <-. split.
      + apply gactual_fold. intros y Hy. rewrite <- El in Hy. apply in_app_iff in Hy as [Hy|Hy]; auto.
      + rewrite gcount_fold, <- El, total_of_app, HT. subst bs. rewrite first_count. cbn [free_parameters].
        rewrite (variances_perm k _ _ PL), (total_of_perm own _ _ PL). reflexivity.
    - rewrite wf_change in W. cbn [to_kernel] in Eg. apply bind_ok in Eg as (gl & El & Eg). apply bind_ok in Eg as (gr & Er & Eg). injection Eg as <-.
      assert (HB : forall (br : branch) x, (forall y, br = inr y -> forall g, to_kernel y = Ok g -> gactual g /\ gcount g = fp y) ->
        match br with inl b => base_str_to_ker b | inr y => to_kernel y end = Ok x ->
        gactual x /\ gcount x = match br with inl b => (1 + own b)%nat | inr y => fp y end).
      { intros [b|y] x Hy Hx; [|apply Hy; auto]. unfold base_str_to_ker in Hx. destruct (is_sigmoid b) eqn:E; [discriminate|]. injection Hx as <-. split; [exact E|reflexivity]. }
      destruct (HB l gl) as [A1 C1]; [intros y Ey; apply IHl; auto|exact El|]. destruct (HB r gr) as [A2 C2]; [intros y Ey; apply IHr; auto|exact Er|].
      cbn [gactual gcount free_parameters]. rewrite C1, C2. auto.
  Qed.
  Lemma number_spec e n : wf e -> number_of_parameters offset fixed e = Ok n -> n = S (fp e).
  Proof.
    intros W H. unfold number_of_parameters in H. apply bind_ok in H as (g & Eg & H). destruct (to_kernel_count e W g Eg) as [A C].
    destruct (listed_count g A) as (o & Eo & Lo). rewrite Eo in H. cbn [bind] in H. injection H as <-. congruence.
  Qed.
  Lemma number_ok e g : wf e -> to_kernel e = Ok g -> number_of_parameters offset fixed e = Ok (S (fp e)).
  Proof.
    intros W Eg. destruct (to_kernel_count e W g Eg) as [A C]. destruct (listed_count g A) as (o & Eo & Lo). unfold number_of_parameters. rewrite Eg. cbn [bind].
    rewrite Eo. cbn [bind]. congruence.
  Qed.
  Lemma number_total e : wf e -> non_empty e -> sigmoid_free e -> number_of_parameters offset fixed e = Ok (S (fp e)).
  Proof. intros W N S. destruct (to_kernel_family offset e W N S) as (g & Eg & _). eapply number_ok; eassumption. Qed.

  (** ** In terms of the counts of base terms *)
  Definition zb (k : kind) (c : counter) : Z :=
    bsum (fun x => cget c x * Z.of_nat (own x)) + match k with KSum => bsum (cget c) | KProd => Z.min 1 (bsum (cget c)) end.
  Lemma total_repeat (f : base -> nat) b n : total_of f (repeat b n) = (n * f b)%nat.
  Proof. induction n as [|n IH]; [reflexivity|]. change (f b + total_of f (repeat b n) = f b + n * f b)%nat. rewrite IH. reflexivity. Qed.
  Lemma total_bases f c : nonneg c -> Z.of_nat (total_of f (bases_in c)) = bsum (fun x => cget c x * Z.of_nat (f x)).
  Proof.
    intros N. unfold bases_in. assert (H : forall l, Z.of_nat (total_of f (concat (map (fun b => repeat b (Z.to_nat (cget c b))) l))) = fold_right (fun x s => cget c x * Z.of_nat (f x) + s) 0 l).
    { induction l as [|b l IH]; [reflexivity|]. cbn [map concat fold_right]. rewrite total_of_app, total_repeat, Nat2Z.inj_add, IH, Nat2Z.inj_mul, Z2Nat.id by apply N. reflexivity. }
    apply H.
  Qed.
  Lemma zb_spec k c : nonneg c -> Z.of_nat (variances k (bases_in c) + total_of own (bases_in c)) = zb k c.
  Proof.
    intros N. rewrite Nat2Z.inj_add, total_bases by exact N. unfold zb.
    assert (HL : Z.of_nat (length (bases_in c)) = bsum (cget c)).
    { rewrite <- (total_of_one (bases_in c)), total_bases by exact N. rewrite !bsum_expand. lia. }
    destruct k; cbn [variances]; [lia|]. rewrite <- HL. destruct (bases_in c); cbn [length]; lia.
  Qed.
  Definition zp (e : kex) : Z := Z.of_nat (fp e).
  Definition zps (l : list kex) : Z := Z.of_nat (total_of fp l).
  Lemma zps_cons x l : zps (x :: l) = zp x + zps l.
  Proof. unfold zps, zp. cbn [total_of fold_right]. fold (total_of fp l). lia. Qed.
  Lemma zps_app l m : zps (l ++ m) = zps l + zps m.
  Proof. unfold zps. rewrite total_of_app. lia. Qed.
  Lemma zp_comm k bts cts : nonneg bts -> zp (Comm k bts cts) = zb k bts + zps cts.
  Proof. intros N. unfold zp, zps. cbn [free_parameters]. rewrite <- zb_spec by exact N. lia. Qed.
  Lemma zp_nonneg e : 0 <= zp e.
  Proof. unfold zp. lia. Qed.
  Lemma zb_nonneg k c : nonneg c -> 0 <= zb k c.
  Proof. intros N. rewrite <- zb_spec by exact N. lia. Qed.
  Lemma zb_ceq k a b : ceq a b -> zb k a = zb k b.
  Proof. intros H. unfold zb. rewrite !bsum_expand, !H. reflexivity. Qed.

  Lemma zb_simp k c n : nodup c -> nonneg c -> zb k (simp_base offset k c n) <= zb k c.
  Proof.
    intros N NN. unfold zb. rewrite !bsum_expand.
    pose proof (NN bWN); pose proof (NN bC); pose proof (NN bLIN); pose proof (NN bSE); pose proof (NN bPER); pose proof (NN bS); pose proof (NN bSr); pose proof (NN bSI); pose proof (NN bSIr).
    destruct k; [rewrite !cget_simp_sum by assumption|rewrite !cget_simp_prod by assumption].
    - destruct (offset && (0 <? cget c bLIN)); cbn [shape_parameters]; destruct offset; lia.
    - destruct (Z.ltb_spec 0 (cget c bWN)); [cbn [shape_parameters]; destruct offset; lia|].
      destruct (Z.ltb_spec 0 (cget c bC)); [destruct (lone_c c n)|]; cbn [shape_parameters]; destruct offset; lia.
  Qed.
  Lemma zb_add k a b c : nonneg a -> nonneg b -> (forall x, cget c x = cget a x + cget b x) -> zb k c <= zb k a + zb k b.
  Proof.
    intros Na Nb H. unfold zb. rewrite !bsum_expand, !H.
    pose proof (Na bWN); pose proof (Na bC); pose proof (Na bLIN); pose proof (Na bSE); pose proof (Na bPER); pose proof (Na bS); pose proof (Na bSr); pose proof (Na bSI); pose proof (Na bSIr).
    pose proof (Nb bWN); pose proof (Nb bC); pose proof (Nb bLIN); pose proof (Nb bSE); pose proof (Nb bPER); pose proof (Nb bS); pose proof (Nb bSr); pose proof (Nb bSI); pose proof (Nb bSIr).
    cbn [shape_parameters]. destruct k, offset; lia.
  Qed.
  Lemma zb_nil k : zb k [] = 0.
  Proof. destruct k; reflexivity. Qed.
  Lemma zb_single k b : zb k [(b, 1)] = 1 + Z.of_nat (own b).
  Proof. unfold zb. rewrite !bsum_expand, !cget_cons. destruct k, b; cbn; destruct offset; reflexivity. Qed.
  Lemma zb_list k c l : nonneg c -> zb k (cupdate_list c l) <= zb k c + Z.of_nat (total_of (fun b => 1 + own b)%nat l).
  Proof.
    revert c. induction l as [|b l IH]; intros c N; [change (cupdate_list c []) with c; cbn; lia|].
    change (cupdate_list c (b :: l)) with (cupdate_list (cset c b (cget c b + 1)) l).
    assert (G : forall x, cget (cset c b (cget c b + 1)) x = cget c x + cget [(b, 1)] x).
    { intros x. rewrite cget_cset, cget_cons. destruct (base_eqb b x) eqn:E; [|change (cget [] x) with 0; lia]. apply base_eqb_spec in E; subst. lia. }
    assert (N1 : nonneg [(b, 1)]) by (apply wf_nn, wf_single).
    assert (N' : nonneg (cset c b (cget c b + 1))) by (intros x; rewrite G; specialize (N x); specialize (N1 x); lia).
    specialize (IH _ N'). pose proof (zb_add k c [(b, 1)] _ N N1 G). rewrite zb_single in H. cbn [total_of fold_right]. fold (total_of (fun b => 1 + own b)%nat l). lia.
  Qed.

  (** ** Simplification *)
  Lemma zb_absorb k hs : forall b ns, nodup b -> nonneg b -> (forall h, In h hs -> wf_counter (bts_of h)) ->
    zb k (absorb_bts offset k b hs ns) <= zb k b + fold_right (fun h s => zb k (bts_of h) + s) 0 hs.
  Proof.
    induction hs as [|h hs IH]; intros b ns N NN W; [cbn; lia|]. cbn [fold_right].
    assert (Wh : wf_counter (bts_of h)) by (apply W; left; auto).
    assert (HR : 0 <= fold_right (fun h s => zb k (bts_of h) + s) 0 hs).
    { clear - W. assert (W' : forall h, In h hs -> wf_counter (bts_of h)) by (intros; apply W; right; auto). clear W. induction hs as [|x hs IHs]; cbn [fold_right]; [lia|].
      assert (0 <= zb k (bts_of x)) by (apply zb_nonneg, wf_nn, W'; left; auto). assert (0 <= fold_right (fun h s => zb k (bts_of h) + s) 0 hs) by (apply IHs; intros; apply W'; right; auto). lia. }
    destruct ns as [|n ns].
    - pose proof (zb_nonneg k (bts_of h) (wf_nn _ Wh)). cbn. lia.
    - change (absorb_bts offset k b (h :: hs) (n :: ns)) with (absorb_bts offset k (simp_base offset k (cupdate b (bts_of h)) n) hs ns).
      assert (N1 : nodup (cupdate b (bts_of h))) by (apply cupdate_nodup, N).
      assert (NN1 : nonneg (cupdate b (bts_of h))) by (apply nonneg_cupdate; [apply wf_nodup, Wh|exact NN|apply wf_nn, Wh]).
      specialize (IH (simp_base offset k (cupdate b (bts_of h)) n) ns (simp_base_nodup offset k _ n N1) (simp_base_nonneg offset k _ n N1) (fun x Hx => W x (or_intror Hx))).
      pose proof (zb_simp k _ n N1 NN1). pose proof (zb_add k b (bts_of h) (cupdate b (bts_of h)) NN (wf_nn _ Wh) (fun x => cget_cupdate _ _ x (wf_nodup _ Wh))). lia.
  Qed.
  Lemma zps_raised k cts : (forall c, In c cts -> wf c) ->
    zps (raised k cts) + fold_right (fun h s => zb k (bts_of h) + s) 0 (filter (is_kind k) cts) = zps cts.
  Proof.
    unfold raised. rewrite zps_app. induction cts as [|c t IH]; intros W; [reflexivity|]. cbn [filter].
    assert (IH' := IH (fun x Hx => W x (or_intror Hx))). rewrite zps_cons. destruct (is_kind k c) eqn:E; cbn [negb map concat fold_right].
    - rewrite zps_app. destruct c as [k' b' c'|]; [|discriminate]. assert (k' = k) as -> by (destruct k, k'; (reflexivity || discriminate)).
      cbn [kids bts_of]. rewrite zp_comm by (apply wf_nn; eapply (W _ (or_introl eq_refl)); constructor). lia.
    - rewrite zps_cons. lia.
  Qed.
  Definition zbr (b : branch) : Z := match b with inl b => 1 + Z.of_nat (own b) | inr x => zp x end.
  Lemma zp_extract e : wf e -> zbr (extract e) = zp e.
  Proof.
    intros W. destruct e as [k bts cts|]; [|reflexivity]. apply wf_comm in W as [Wb Wc].
    destruct (extract_spec k bts cts Wb) as [(b & -> & -> & ->)|[(c & -> & -> & ->)|(_ & ->)]]; [| |reflexivity]; cbn [zbr].
    - rewrite zp_comm by (apply wf_nn, Wb). rewrite zb_single. unfold zps. cbn. lia.
    - rewrite zp_comm by (apply wf_nn, Wb). rewrite zps_cons. unfold zb, zps. destruct k; rewrite !bsum_expand; cbn; lia.
  Qed.
  Lemma zp_extracts l : (forall c, In c l -> wf c) ->
    zps (kexs_of (map extract l)) + Z.of_nat (total_of (fun b => 1 + own b)%nat (bases_of (map extract l))) = zps l.
  Proof.
    unfold kexs_of, bases_of. induction l as [|e l IH]; intros W; [reflexivity|]. specialize (IH (fun x Hx => W x (or_intror Hx))).
    pose proof (zp_extract e (W e (or_introl eq_refl))) as H. cbn [map concat]. rewrite zps_app, total_of_app, zps_cons. destruct (extract e) as [b|x]; cbn [zbr] in H.
    - unfold zps at 1. cbn. cbn in IH. lia.
    - rewrite zps_cons. unfold zps at 1. cbn. cbn in IH. lia.
  Qed.
  Lemma zp_node k bts cts : wf (Comm k bts cts) -> zp (simp_node offset k bts cts) <= zp (Comm k bts cts).
  Proof.
    intros W. pose proof W as W0. apply wf_comm in W as [Wb Wc]. destruct (simp_node_spec offset k bts cts) as (ns & L & P & E). cbv zeta in E. rewrite E. clear E.
    set (hs := filter (is_kind k) cts) in *. set (ex := map extract (raised k cts)). set (hb := absorb_bts offset k bts hs ns).
    assert (Wh : forall h, In h hs -> wf_counter (bts_of h)).
    { intros h Hh. apply filter_In in Hh as [Hh _]. specialize (Wc h Hh). destruct h as [k' b' c'|]; [apply wf_comm in Wc as [Wc _]; exact Wc|split; [constructor|intros ? ? []]]. }
    assert (Whb : wf_counter hb) by (apply absorb_bts_wf, Wb).
    assert (Wr : forall c, In c (raised k cts) -> wf c).
    { intros x Hx. apply raised_in in Hx as (c & Hc & [->|Hx]); [auto|]. specialize (Wc c Hc). destruct c as [k' b' c'|]; [apply wf_comm in Wc as [_ Wc]; auto|destruct Hx]. }
    assert (N1 : nodup (cupdate_list hb (bases_of ex))) by (apply cupdate_list_nodup, wf_nodup, Whb).
    assert (NN1 : nonneg (cupdate_list hb (bases_of ex))) by (apply nonneg_cupdate_list, wf_nn, Whb).
    rewrite zp_comm by (apply simp_base_nonneg, simp_base_nodup, N1). rewrite zp_comm by (apply wf_nn, Wb).
    pose proof (zb_simp k _ (length (kexs_of ex)) (simp_base_nodup offset k _ (length (kexs_of ex)) N1) (simp_base_nonneg offset k _ (length (kexs_of ex)) N1)).
    pose proof (zb_simp k _ (length (kexs_of ex)) N1 NN1). pose proof (zb_list k hb (bases_of ex) (wf_nn _ Whb)).
    pose proof (zb_absorb k hs bts ns (wf_nodup _ Wb) (wf_nn _ Wb) Wh). fold hb in H2.
    pose proof (zps_raised k cts Wc). fold hs in H3. pose proof (zp_extracts _ Wr). fold ex in H4. lia.
  Qed.
  Lemma zp_change o l r : zp (Change o l r) = zbr l + zbr r + Z.of_nat (change_parameters fixed o).
  Proof. unfold zp. cbn [free_parameters]. destruct l, r; cbn [zbr]; unfold zp; lia. Qed.
  Lemma zp_simplify e : wf e -> zp (simplify offset e) <= zp e.
  Proof.
    induction e as [k bts cts IH|o l r IHl IHr] using kex_ind'; intros W.
    - cbn [simplify]. apply wf_comm in W as [Wb Wc].
      assert (W' : wf (Comm k bts (map (simplify offset) cts))).
      { apply wf_comm. split; [exact Wb|]. intros c Hc. apply in_map_iff in Hc as (x & <- & Hx). apply simplify_wf, Wc, Hx. }
      pose proof (zp_node k bts _ W') as H. rewrite (zp_comm k bts (map _ _)), (zp_comm k bts cts) in * by (apply wf_nn, Wb).
      assert (zps (map (simplify offset) cts) <= zps cts); [|lia]. clear - IH Wc. induction cts as [|c t IHt]; [cbn; lia|]. cbn [map]. rewrite !zps_cons.
      pose proof (IH c (or_introl eq_refl) (Wc c (or_introl eq_refl))). specialize (IHt (fun x Hx => IH x (or_intror Hx)) (fun x Hx => Wc x (or_intror Hx))). lia.
    - cbn [simplify]. rewrite !zp_change. rewrite wf_change in W.
      assert (HB : forall br : branch, (forall x, br = inr x -> wf x /\ zp (simplify offset x) <= zp x) ->
        zbr (match br with inl b => inl b | inr x => extract (simplify offset x) end) <= zbr br).
      { intros [b|x] Hx; [reflexivity|]. destruct (Hx x eq_refl) as [Wx Hle]. rewrite zp_extract by (apply simplify_wf, Wx). exact Hle. }
      apply Z.add_le_mono_r, Z.add_le_mono.
      + exact (HB l (fun x Ex => conj (W x (or_introl Ex)) (IHl x Ex (W x (or_introl Ex))))).
      + exact (HB r (fun x Ex => conj (W x (or_intror Ex)) (IHr x Ex (W x (or_intror Ex))))).
  Qed.
  Lemma simplify_parameters e m n : wf e -> number_of_parameters offset fixed e = Ok n -> number_of_parameters offset fixed (simplify offset e) = Ok m -> (m <= n)%nat.
  Proof.
    intros W Hn Hm. apply number_spec in Hn; [|exact W]. apply number_spec in Hm; [|apply simplify_wf, W]. pose proof (zp_simplify e W). unfold zp in H. lia.
  Qed.

  (** ** Sums and products of expressions *)
  Lemma zps_perm l m : Permutation l m -> zps l = zps m.
  Proof. intros P. unfold zps. f_equal. apply total_of_perm, P. Qed.
  Lemma part_count k b : wf_branch b -> zb k (part_bases k b) + zps (part_kexs k b) = zbr b.
  Proof.
    intros W. destruct b as [x|[k' bts cts|o l r]]; cbn [part_bases part_kexs zbr].
    - rewrite zb_single. unfold zps. cbn. lia.
    - assert (Wb : wf_counter bts) by (eapply (W _ eq_refl); constructor). destruct (kind_eqb k k') eqn:E.
      + assert (k' = k) as -> by (destruct k, k'; (reflexivity || discriminate)). rewrite zp_comm by (apply wf_nn, Wb). reflexivity.
      + rewrite zps_cons, zb_nil. change (zps []) with 0. lia.
    - rewrite zps_cons, zb_nil. change (zps []) with 0. lia.
  Qed.
  Lemma part_kexs_wf k d c : wf_branch d -> In c (part_kexs k d) -> wf c.
  Proof.
    intros W Hc. destruct d as [x|[k' bts cts|oo l r]]; simpl in Hc; [destruct Hc| |destruct Hc as [<-|[]]; apply W; reflexivity].
    specialize (W _ eq_refl). destruct (kind_eqb k k'); [eapply wf_child; eauto|destruct Hc as [<-|[]]; exact W].
  Qed.
  Lemma operate_wf k a b : wf_branch a -> wf_branch b -> wf (operate offset k a b) /\ zp (operate offset k a b) <= zbr a + zbr b.
  Proof.
    intros Wa Wb. destruct (operate_shape k a b Wa Wb) as (B & C & E & WB & G & P). rewrite E. unfold mk.
    assert (W : wf (Comm k B C)).
    { apply wf_comm. split; [exact WB|]. intros c Hc. apply (Permutation_in c P), in_app_iff in Hc as [Hc|Hc]; [exact (part_kexs_wf k a c Wa Hc)|exact (part_kexs_wf k b c Wb Hc)]. }
    split; [apply simplify_wf, W|]. pose proof (zp_simplify _ W). rewrite zp_comm in H by (apply wf_nn, WB). rewrite (zps_perm _ _ P), zps_app in H.
    pose proof (zb_add k _ _ B (wf_nn _ (part_wf k a Wa)) (wf_nn _ (part_wf k b Wb)) G).
    pose proof (part_count k a Wa). pose proof (part_count k b Wb). lia.
  Qed.

  (** ** Equality *)
  Lemma fp_reord a : forall b, reord a b -> fp a = fp b.
  Proof.
    induction a as [k bts cts IH|o l r IHl IHr] using kex_ind'; intros b R.
    - destruct b as [k' b2 c2|]; [|inversion R]. assert (k' = k) as -> by (inversion R; auto). apply reord_comm_iff in R as [Hc (m & P & F)].
      cbn [free_parameters]. rewrite (bases_in_ceq _ _ Hc), (total_of_perm fp _ _ P). f_equal. clear - F IH. induction F as [|x y l m R F IHF]; [reflexivity|].
      cbn [total_of fold_right]. rewrite (IH x (or_introl eq_refl) y R). f_equal. apply IHF. intros c' Hc'; apply IH; right; exact Hc'.
    - destruct b as [|o2 l2 r2]; [inversion R|]. inversion R as [|? ? ? ? ? Rl Rr]; subst. cbn [free_parameters].
      assert (HB : forall (b1 b2 : branch), (forall x, b1 = inr x -> forall y, reord x y -> fp x = fp y) -> reord_branch b1 b2 ->
        match b1 with inl b => (1 + own b)%nat | inr y => fp y end = match b2 with inl b => (1 + own b)%nat | inr y => fp y end).
      { intros b1 b2 Hx Rb. apply reord_branch_cases in Rb as [(b & -> & ->)|(x & y & -> & -> & Rxy)]; [reflexivity|]. apply Hx; auto. }
      rewrite (HB l l2 (fun x Ex => IHl x Ex) Rl), (HB r r2 (fun x Ex => IHr x Ex) Rr). reflexivity.
  Qed.
  Lemma seqM_ok (cts : list kex) : (forall c, In c cts -> exists g, to_kernel c = Ok g) -> exists gs, seqM (map to_kernel cts) = Ok gs /\ length gs = length cts.
  Proof.
    induction cts as [|c t IH]; intros H; [exists []; auto|]. destruct (H c (or_introl eq_refl)) as (g & Eg). destruct IH as (gs & Egs & L); [intros; apply H; right; auto|].
    exists (g :: gs). unfold seqM in *. simpl. rewrite Eg. cbn [bind]. rewrite Egs. cbn [bind length]. split; [reflexivity|congruence].
  Qed.
  Lemma to_kernel_ok_comm k bts cts : wf_counter bts -> ((exists g, to_kernel (Comm k bts cts) = Ok g) <->
    (forall b, In b (bases_in bts) -> is_sigmoid b = false) /\ (forall c, In c cts -> exists g, to_kernel c = Ok g) /\ (bases_in bts <> [] \/ cts <> [])).
  Proof.
    intros Wb. set (L := order_base_kerns (celements bts)).
    assert (PL : Permutation L (bases_in bts)) by (unfold L; rewrite order_perm; symmetry; apply bases_in_elements, wf_nodup, Wb).
    rewrite to_kernel_comm. fold L. split.
    - intros (g & Eg). apply bind_ok in Eg as (bs & Eb & Eg). apply bind_ok in Eg as (gs & Es & Eg).
      pose proof (mapM_base_actual _ _ Eb) as Ab. apply mapM_base_inv in Eb. apply seqM_inv in Es. split; [|split].
      + intros b Hb. apply Ab. eapply Permutation_in; [symmetry; exact PL|exact Hb].
      + intros c Hc. clear - Es Hc. induction Es; [destruct Hc|]. destruct Hc as [<-|Hc]; eauto.
      + destruct cts as [|c t]; [left|right; discriminate]. intros E. rewrite E in PL. apply Permutation_sym, Permutation_nil in PL. subst bs. rewrite PL in Eg. inversion Es; subst. destruct k; discriminate.
    - intros (A & C & D). rewrite (mapM_base L) by (intros b Hb; apply A; eapply Permutation_in; eauto). cbn [bind]. destruct (seqM_ok cts C) as (gs & -> & Lg). cbn [bind].
      destruct (match k with KSum => _ | KProd => _ end ++ gs) as [|x t] eqn:E; [|cbn [reduce1]; eauto]. exfalso. apply app_eq_nil in E as [E1 ->].
      destruct cts; [|discriminate]. destruct D as [D|D]; [|congruence]. apply D. destruct L as [|b0 L0]; [apply Permutation_nil, PL|]. destruct k; discriminate.
  Qed.
  Lemma to_kernel_reord a : forall b, wf a -> wf b -> reord a b -> (exists g, to_kernel a = Ok g) -> exists g, to_kernel b = Ok g.
  Proof.
    induction a as [k bts cts IH|o l r IHl IHr] using kex_ind'; intros b Wa Wb R.
    - destruct b as [k' b2 c2|]; [|inversion R]. assert (k' = k) as -> by (inversion R; auto). apply reord_comm_iff in R as [Hc (m & P & F)].
      apply wf_comm in Wa as [W1 W1c]. apply wf_comm in Wb as [W2 W2c]. rewrite !to_kernel_ok_comm by assumption. rewrite <- (bases_in_ceq _ _ Hc). intros (A & C & D). split; [exact A|]. split.
      + intros c Hc2. assert (Hm := Permutation_in c P Hc2). assert (Wm : forall y, In y m -> wf y) by (intros y Hy; apply W2c; eapply Permutation_in; [symmetry; exact P|exact Hy]).
        clear - F IH C Hm W1c Wm. induction F as [|x y l m R F IHF]; [destruct Hm|]. destruct Hm as [<-|Hm].
        * exact (IH x (or_introl eq_refl) y (W1c x (or_introl eq_refl)) (Wm y (or_introl eq_refl)) R (C x (or_introl eq_refl))).
        * exact (IHF (fun z Hz => IH z (or_intror Hz)) (fun z Hz => W1c z (or_intror Hz)) (fun z Hz => C z (or_intror Hz)) Hm (fun z Hz => Wm z (or_intror Hz))).
      + destruct D as [D|D]; [left; exact D|right]. intros ->. apply Permutation_nil in P. subst m. inversion F; subst. congruence.
    - destruct b as [|o2 l2 r2]; [inversion R|]. inversion R as [|? ? ? ? ? Rl Rr]; subst. rewrite wf_change in Wa, Wb. cbn [to_kernel]. intros (g & Eg).
      apply bind_ok in Eg as (gl & El & Eg). apply bind_ok in Eg as (gr & Er & Eg).
      assert (HB : forall (b1 b2 : branch), (forall x, b1 = inr x -> forall y, wf x -> wf y -> reord x y -> (exists g, to_kernel x = Ok g) -> exists g, to_kernel y = Ok g) ->
        (forall x, b1 = inr x -> wf x) -> (forall x, b2 = inr x -> wf x) -> reord_branch b1 b2 ->
        forall g, match b1 with inl b => base_str_to_ker b | inr y => to_kernel y end = Ok g -> exists h, match b2 with inl b => base_str_to_ker b | inr y => to_kernel y end = Ok h).
      { intros b1 b2 Hx Hw1 Hw2 Rb h Eh. apply reord_branch_cases in Rb as [(b & -> & ->)|(x & y & -> & -> & Rxy)]; [eauto|]. eapply Hx; eauto. }
      destruct (HB l l2 (fun x Ex => IHl x Ex) (fun x Ex => Wa x (or_introl Ex)) (fun x Ex => Wb x (or_introl Ex)) Rl gl El) as (hl & ->).
      destruct (HB r r2 (fun x Ex => IHr x Ex) (fun x Ex => Wa x (or_intror Ex)) (fun x Ex => Wb x (or_intror Ex)) Rr gr Er) as (hr & ->). cbn [bind]. eauto.
  Qed.
  Lemma equal_parameters a b n : wf a -> wf b -> keq a b = true -> number_of_parameters offset fixed a = Ok n -> number_of_parameters offset fixed b = Ok n.
  Proof.
    intros Wa Wb E H. apply keq_spec in E. pose proof (number_spec a n Wa H) as ->. rewrite (fp_reord a b E).
    unfold number_of_parameters in H. apply bind_ok in H as (g & Eg & _). destruct (to_kernel_reord a b Wa Wb E (ex_intro _ g Eg)) as (h & Eh). eapply number_ok; eassumption.
  Qed.
End Count.

Lemma scored_equal offset fixed score a b ll n s : wf a -> wf b -> keq a b = true -> scored offset fixed score a ll n = Ok s -> scored offset fixed score b ll n = Ok s.
Proof.
  intros Wa Wb E H. unfold scored in *. apply bind_ok in H as (k & Ek & H). rewrite (equal_parameters offset fixed a b k Wa Wb E Ek). exact H.
Qed.
Lemma count_equal offset fixed a b n : wf a -> wf b -> keq a b = true -> number_of_parameters offset fixed a = Ok n ->
  number_of_parameters offset fixed b = Ok n /\
  (forall score ll d s, scored offset fixed score a ll d = Ok s -> scored offset fixed score b ll d = Ok s).
Proof. intros Wa Wb E H. split; [exact (equal_parameters offset fixed a b n Wa Wb E H)|]. intros score ll d s. exact (scored_equal offset fixed score a b ll d s Wa Wb E). Qed.

Lemma simplify_scores offset fixed e ll n s s' : wf e -> (0 < n)%nat ->
  (scored offset fixed BIC_score e ll n = Ok s -> scored offset fixed BIC_score (simplify offset e) ll n = Ok s' -> (s' <= s)%R) /\
  (scored offset fixed AIC_score e ll n = Ok s -> scored offset fixed AIC_score (simplify offset e) ll n = Ok s' -> (s' <= s)%R).
Proof.
  intros W Hn. split; intros H H'; unfold scored in *; apply bind_ok in H as (k & Ek & H); apply bind_ok in H' as (k' & Ek' & H');
    injection H as <-; injection H' as <-; pose proof (simplify_parameters offset fixed e k' k W Ek Ek') as L; apply le_INR in L.
  - assert (0 <= ln (INR n))%R. { rewrite <- ln_1. apply le_INR in Hn. simpl in Hn. destruct Hn as [Hn|Hn]; [left; apply ln_increasing; lra|rewrite Hn; right; reflexivity]. }
    unfold BIC. pose proof (Rmult_le_compat_r _ _ _ H L). lra.
  - unfold AIC. lra.
Qed.

Lemma operate_parameters offset fixed k a b p q n : wf a -> wf b ->
  number_of_parameters offset fixed a = Ok p -> number_of_parameters offset fixed b = Ok q ->
  number_of_parameters offset fixed (operate offset k (inr a) (inr b)) = Ok n -> (n + 1 <= p + q)%nat.
Proof.
  intros Wa Wb Hp Hq Hn. assert (Ba : wf_branch (inr a)) by (intros x [= <-]; exact Wa). assert (Bb : wf_branch (inr b)) by (intros x [= <-]; exact Wb).
  destruct (operate_wf offset fixed k (inr a) (inr b) Ba Bb) as [W H]. apply number_spec in Hp; [|exact Wa]. apply number_spec in Hq; [|exact Wb]. apply number_spec in Hn; [|exact W].
  cbn [zbr] in H. unfold zp in H. lia.
Qed.
Lemma sum_and_product_parameters offset fixed a b p q n : wf a -> wf b ->
  number_of_parameters offset fixed a = Ok p -> number_of_parameters offset fixed b = Ok q ->
  number_of_parameters offset fixed (add offset (inr a) (inr b)) = Ok n \/ number_of_parameters offset fixed (multiply offset (inr a) (inr b)) = Ok n -> (n + 1 <= p + q)%nat.
Proof.
  intros Wa Wb Hp Hq [H|H]; [exact (operate_parameters offset fixed KSum a b p q n Wa Wb Hp Hq H)|exact (operate_parameters offset fixed KProd a b p q n Wa Wb Hp Hq H)].
Qed.

(** ** Witnesses *)
Definition ex_count : kex :=
  Comm KSum [(bLIN, 1); (bC, 1); (bWN, 2)]
    [Comm KProd [(bPER, 2); (bLIN, 1)] [Comm KSum [(bC, 1); (bSE, 1)] []]; Change CW (inl bPER) (inr (Comm KSum [(bC, 1)] []))].
Definition ex_count' : kex :=
  Comm KSum [(bWN, 2); (bLIN, 1); (bC, 1)]
    [Change CW (inl bPER) (inr (Comm KSum [(bC, 1)] [])); Comm KProd [(bLIN, 1); (bPER, 2)] [Comm KSum [(bSE, 1); (bC, 1)] []]].
