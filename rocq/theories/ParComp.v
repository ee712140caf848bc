(** Components of a sum of products and the monomials they stand for (C32-C34). *)
From Coq Require Import Reals Lra List Bool Arith ZArith Lia Permutation.
From Verif Require Import Py KexModel KexSpec KexProofs KexSimp KexMore KernModel KernSpec SemModel SemSpec SemProofs SemSimp SemKernel IvModel IvSpec IvProofs ParModel ParSpec ParMatch ParCov ParInv ParInv2 ParInv3 ParGroup.
Import ListNotations.
Local Open Scope list_scope.

Section Comp.
  Context (offset fixed : bool).
  Notation inv := (inv offset fixed).
  Notation entry_ok := (entry_ok offset fixed).

  Definition zocc (m : mono) (b : base) : Z := Z.of_nat (occ m b).
  Definition nowl (m : mono) : Prop := occ m bWN = 0%nat \/ occ m bLIN = 0%nat.
  Definition good (m : mono) : Prop := nowl m /\ (occ m bSE <= 1)%nat.
  Definition has_factor (bts : counter) : Prop := exists b, is_sigmoid b = false /\ (0 < cget bts b)%Z.
  (** The product with base terms [bts] and parameters [ps] stands for the monomial [m]. *)
  Definition precomp (m : mono) (bts : counter) (ps : params) : Prop :=
    inv bts ps /\ (forall b, cget bts b <= zocc m b)%Z /\ (forall b, length (pars ps (KBase b)) <= occ m b)%nat
    /\ (nowl m -> forall b, cget bts b = simp_count (zocc m) b) /\ (good m -> forall x i j, product_cov ps x i j = mono_cov m x i j)
    /\ sg ps = group m /\ ((0 < occ m bWN)%nat -> (0 < cget bts bWN)%Z).
  Definition comp (m : mono) (ct : pkex) : Prop :=
    exists bts ps, ct = PComm KProd bts ps [] /\ precomp m bts ps /\ cardinality offset KProd bts 0 /\ has_factor bts.

  Lemma simp_count_same n n' : (forall b, n b = n' b) -> forall b, simp_count n b = simp_count n' b.
  Proof. intros E b. unfold simp_count. rewrite !E. reflexivity. Qed.
  Lemma simp_count_WN n : (forall b, 0 <= n b)%Z -> (0 < n bWN)%Z -> (0 < simp_count n bWN)%Z.
  Proof. intros _ P. unfold simp_count. apply Z.ltb_lt in P. rewrite P. reflexivity. Qed.
  Lemma zocc_nonneg m b : (0 <= zocc m b)%Z.
  Proof. unfold zocc. lia. Qed.
  Lemma zocc_app m n b : zocc (m ++ n) b = (zocc m b + zocc n b)%Z.
  Proof. unfold zocc. rewrite occ_app. lia. Qed.
  Lemma nowl_app m n : nowl (m ++ n) -> nowl m /\ nowl n.
  Proof. unfold nowl. rewrite !occ_app. intros [H|H]; split; (left; lia) || (right; lia). Qed.
  Lemma good_app m n : good (m ++ n) -> good m /\ good n.
  Proof. intros [A B]. apply nowl_app in A as [A1 A2]. rewrite occ_app in B. split; split; auto; lia. Qed.

  (** ** new_bases_with_parameters *)
  Lemma new_bases_pre m0 bts0 ps0 es : precomp m0 bts0 ps0 -> Forall entry_ok es -> (has_factor bts0 \/ exists b, is_sigmoid b = false /\ (0 < occ es b)%nat) ->
    exists bts ps, new_bases_with_parameters (PComm KProd bts0 ps0 []) es = Ok (PComm KProd bts ps []) /\ precomp (m0 ++ es) bts ps /\ cardinality offset KProd bts 0 /\ has_factor bts
      /\ forall b, is_sigmoid b = true -> cget bts b = (cget bts0 b + zocc es b)%Z.
  Proof.
    intros (V & B1 & B2 & CT & CV & SG & HWN) F H. cbn [new_bases_with_parameters].
    assert (EK : dict_has pkey_eqb ps0 KProduct = true) by (apply has_key, pars_key; destruct V as (_ & _ & (v & ->) & _); discriminate).
    rewrite EK. destruct (steps_ok offset fixed es bts0 ps0 V F) as (b1 & p1 & E1 & V1 & C1 & L1 & P1). rewrite E1. cbn [bind fst snd length].
    destruct (simp_ok offset fixed b1 p1 V1) as (p2 & E2 & V2 & L2 & P2). rewrite E2. cbn [bind].
    pose proof V as (W0 & _). pose proof V1 as (W1 & _).
    assert (N0 : forall b, (0 <= cget bts0 b)%Z) by (intros b; apply wf_nonneg, W0). assert (N1 : forall b, (0 <= cget b1 b)%Z) by (intros b; apply wf_nonneg, W1).
    assert (G : forall b, cget (simp_base_prod b1 0) b = simp_count (cget b1) b) by (intros b; apply simp_prod_count, W1).
    assert (NL : nowl (m0 ++ es) -> (cget b1 bWN <= 0 \/ cget b1 bLIN <= 0)%Z).
    { intros [N|N]; rewrite occ_app in N; [left|right]; rewrite C1; specialize (B1 bWN) as B1w; specialize (B1 bLIN) as B1l; unfold zocc in *; lia. }
    exists (simp_base_prod b1 0), p2. split; [reflexivity|]. split; [|split; [|split]].
    - split; [exact V2|]. split; [|split; [|split; [|split; [|split]]]].
      + intros b. rewrite G, zocc_app. pose proof (simp_count_nonneg (cget b1) N1 b) as [_ S]. rewrite C1 in S. specialize (B1 b). unfold zocc in *. lia.
      + intros b. specialize (L2 b). rewrite L1 in L2. specialize (B2 b). rewrite occ_app. lia.
      + intros N b. rewrite G. apply nowl_app in N as [N _]. specialize (CT N).
        rewrite (simp_count_same (cget b1) (fun b => simp_count (zocc m0) b + zocc es b)%Z) by (intros x; rewrite C1, CT; reflexivity).
        rewrite simp_count_add by (intros; apply zocc_nonneg). apply simp_count_same. intros x. symmetry. apply zocc_app.
      + intros GD x i j. pose proof GD as [N S]. apply good_app in GD as [GD _]. rewrite P2; [|apply NL, N|].
        * rewrite P1, CV by exact GD. symmetry. apply mono_cov_app.
        * rewrite L1. rewrite occ_app in S. specialize (B2 bSE). lia.
      + rewrite (simp_sg _ _ _ E2), (steps_sg offset fixed _ _ _ _ _ F E1), SG. unfold group. rewrite fold_left_app. reflexivity.
      + intros O. rewrite G. apply simp_count_WN; [exact N1|]. rewrite C1. rewrite occ_app in O. specialize (N0 bWN). pose proof (zocc_nonneg es bWN). unfold zocc in *.
        destruct (Nat.eq_dec (occ m0 bWN) 0) as [Z|Z]; [lia|specialize (HWN ltac:(lia)); lia].
    - apply (simp_base_card offset KProd b1 0); [apply wf_nodup, W1|exact N1].
    - destruct (simp_count_factor (cget b1) N1) as (b & Sb & Pb).
      + destruct H as [(b & Sb & Pb)|(b & Sb & Pb)]; exists b; (split; [exact Sb|]); rewrite C1; [|specialize (N0 b)]; lia.
      + exists b. split; [exact Sb|]. rewrite G. exact Pb.
    - intros b S. rewrite G, simp_count_pos; [apply C1|exact N1|exact S].
  Qed.
  Lemma pre_empty : precomp [] [] [(KProduct, [[(pVariance, 1%R)]])].
  Proof.
    split; [|split; [|split; [|split; [|split; [|split]]]]].
    - split; [split; [constructor|intros b n []]|]. split; [repeat constructor; intros []|]. split; [exists 1%R; reflexivity|]. split; [intros k [<-|[]]; left; reflexivity|]. split; [intros H; cbn in H; lia|].
      intros _ b _. reflexivity.
    - intros b. cbn. lia.
    - intros b. cbn. lia.
    - intros _ b. destruct b; reflexivity.
    - intros _ x i j. unfold product_cov, mono_cov. cbn. unfold value. cbn. ring.
    - reflexivity.
    - cbn. lia.
  Qed.
  Lemma new_bases_empty es : Forall entry_ok es -> (exists b, is_sigmoid b = false /\ (0 < occ es b)%nat) ->
    exists ct, new_bases_with_parameters (empty_product offset) es = Ok ct /\ comp es ct /\ forall b, is_sigmoid b = true -> exists bts ps, ct = PComm KProd bts ps [] /\ cget bts b = zocc es b.
  Proof.
    intros F H. destruct (new_bases_pre [] [] [(KProduct, [[(pVariance, 1%R)]])] es pre_empty F (or_intror H)) as (bts & ps & E & P & C & HF & S).
    exists (PComm KProd bts ps []). split; [|split; [exists bts, ps; split; [reflexivity|]; split; [exact P|]; split; assumption|]].
    - rewrite <- E. reflexivity.
    - intros b Sb. exists bts, ps. split; [reflexivity|]. rewrite S by exact Sb. cbn. lia.
  Qed.
  Lemma new_bases_comp m ct es : comp m ct -> Forall entry_ok es ->
    exists ct', new_bases_with_parameters ct es = Ok ct' /\ comp (m ++ es) ct' /\ forall b, is_sigmoid b = true -> exists bts ps, ct' = PComm KProd bts ps [] /\ (zocc es b <= cget bts b)%Z.
  Proof.
    intros (bts0 & ps0 & -> & P0 & C0 & H0) F. destruct (new_bases_pre m bts0 ps0 es P0 F (or_introl H0)) as (bts & ps & E & P & C & HF & S).
    exists (PComm KProd bts ps []). split; [exact E|]. split; [exists bts, ps; split; [reflexivity|]; split; [exact P|]; split; assumption|].
    intros b Sb. exists bts, ps. split; [reflexivity|]. rewrite S by exact Sb. destruct P0 as ((W0 & _) & _). pose proof (wf_nonneg _ b W0). lia.
  Qed.

  (** ** Multiplication of products *)
  Lemma comp_transfer es m ct : comp es ct -> (forall b, occ es b <= occ m b)%nat -> (nowl m -> forall b, simp_count (zocc es) b = simp_count (zocc m) b) ->
    (good m -> forall x i j, mono_cov es x i j = mono_cov m x i j) -> group es = group m -> ((0 < occ m bWN)%nat -> (0 < occ es bWN)%nat) -> comp m ct.
  Proof.
    intros (bts & ps & -> & (V & B1 & B2 & CT & CV & SG & HWN) & C & H) O S M G HO. exists bts, ps. split; [reflexivity|]. split; [|split; assumption].
    assert (NL : nowl m -> nowl es) by (unfold nowl; intros [N|N]; [left; specialize (O bWN)|right; specialize (O bLIN)]; lia).
    split; [exact V|]. split; [|split; [|split; [|split; [|split]]]].
    - intros b. specialize (B1 b). specialize (O b). unfold zocc in *. lia.
    - intros b. specialize (B2 b). specialize (O b). lia.
    - intros N b. rewrite (CT (NL N)). apply S, N.
    - intros GD x i j. rewrite CV; [apply M, GD|]. destruct GD as [N L]. split; [apply NL, N|]. specialize (O bSE). lia.
    - rewrite SG. exact G.
    - intros I. apply HWN, HO, I.
  Qed.
  Lemma entries_cons k l ps : entries ((k, l) :: ps) = map (fun p => (k, p)) l ++ entries ps.
  Proof. reflexivity. Qed.
  Lemma occ_key k (l : list pdict) b : occ (map (fun p => (k, p)) l) b = if pkey_eqb (KBase b) k then length l else 0%nat.
  Proof. induction l as [|p l IH]; [destruct (pkey_eqb (KBase b) k); reflexivity|]. cbn [map]. rewrite occ_cons, IH. cbn [fst]. destruct (pkey_eqb (KBase b) k); reflexivity. Qed.
  Lemma occ_entries ps b : NoDup (map fst ps) -> occ (entries ps) b = length (pars ps (KBase b)).
  Proof.
    induction ps as [|[k l] ps IH]; intros ND; [reflexivity|]. inversion ND as [|? ? NI ND']; subst. rewrite entries_cons, occ_app, occ_key, IH by exact ND'. unfold pars. cbn [dict_get].
    destruct (pkey_eqb (KBase b) k) eqn:K.
    - apply pkey_eqb_eq in K. subst. rewrite pkey_eqb_same. fold (pars ps (KBase b)). rewrite pars_absent by exact NI. cbn. lia.
    - destruct (pkey_eqb k (KBase b)) eqn:K'; [apply pkey_eqb_eq in K'; subst; rewrite pkey_eqb_same in K; discriminate K|]. reflexivity.
  Qed.
  Lemma entries_ok bts ps : inv bts ps -> Forall entry_ok (entries ps).
  Proof.
    intros (_ & ND & (v & EP) & K & _). apply Forall_forall. intros [k p] I. unfold entries in I. apply in_concat in I as (l & I & Ip). apply in_map_iff in I as ([k' l'] & <- & I).
    cbn [fst snd] in Ip. apply in_map_iff in Ip as (p' & [= -> ->] & Ip). assert (IK : In k (map fst ps)) by (apply in_map_iff; now exists (k, l')).
    pose proof (pars_in _ _ _ ND I) as EL. destruct (K k IK) as [->|(b & -> & _ & F & _)].
    - rewrite EP in EL. subst l'. destruct Ip as [<-|[]]. exists v. reflexivity.
    - rewrite EL in F. rewrite Forall_forall in F. specialize (F p Ip). unfold ParInv2.entry_ok. cbn [fst snd]. unfold stored in F. destruct (is_sigmoid b); [exact F|]. exists false. exact F.
  Qed.
  Lemma entries_bound m bts ps b : precomp m bts ps -> (occ (entries ps) b <= occ m b)%nat.
  Proof. intros ((_ & ND & _) & _ & B & _). rewrite occ_entries by exact ND. apply B. Qed.
  Lemma entries_count m bts ps n : precomp m bts ps -> nowl m -> (forall b, 0 <= n b)%Z -> forall b, simp_count (fun b => zocc (entries ps) b + n b)%Z b = simp_count (fun b => zocc m b + n b)%Z b.
  Proof.
    intros ((W & ND & _ & K & WN & AC) & B1 & B2 & CT & _) N P b.
    assert (NB : (cget bts bWN <= 0 \/ cget bts bLIN <= 0)%Z) by (destruct N as [N|N]; [left; specialize (B1 bWN)|right; specialize (B1 bLIN)]; unfold zocc in *; lia).
    specialize (AC NB). specialize (CT N). rewrite <- (simp_count_add (zocc m) n); [|apply zocc_nonneg|exact P]. apply simp_count_ext.
    - intros b' D. unfold zocc at 1. rewrite occ_entries by exact ND. rewrite AC, CT by exact D. reflexivity.
    - unfold zocc at 1. rewrite occ_entries by exact ND. rewrite <- CT. specialize (P bWN). pose proof (wf_nonneg _ bWN W).
      assert (E : (0 < Z.of_nat (length (pars ps (KBase bWN))))%Z <-> (0 < cget bts bWN)%Z).
      { split; [intros H1; assert (IK : In (KBase bWN) (map fst ps)) by (apply pars_key; destruct (pars ps (KBase bWN)); [cbn in H1; lia|discriminate])|intros H1; specialize (WN H1)].
        - destruct (K _ IK) as [D|(b' & D & _ & _ & Hp)]; [discriminate D|]. injection D as <-. exact Hp.
        - destruct (K _ WN) as [D|(b' & D & Hn & _ & _)]; [discriminate D|]. destruct (pars ps (KBase bWN)); [contradiction|cbn; lia]. }
      lia.
    - intros b'. specialize (P b'). pose proof (zocc_nonneg (entries ps) b'). lia.
    - intros b'. specialize (P b'). pose proof (simp_count_nonneg (zocc m) (zocc_nonneg m) b'). lia.
  Qed.
  Lemma entries_cov m bts ps x i j : precomp m bts ps -> good m -> mono_cov (entries ps) x i j = mono_cov m x i j.
  Proof. intros (_ & _ & _ & _ & CV & _) G. rewrite <- product_entries. apply CV, G. Qed.

  (** [ks] are components for the monomials [ms]. *)
  Lemma factors_bound ms ks : Forall2 comp ms ks -> forall b, (occ (concat (map entries (map parameters_of ks))) b <= occ (concat ms) b)%nat.
  Proof.
    induction 1 as [|m k ms ks (bts & ps & -> & P & _) F IH]; intros b; [reflexivity|]. cbn [map concat parameters_of]. rewrite !occ_app. specialize (IH b). pose proof (entries_bound m bts ps b P). lia.
  Qed.
  Lemma factors_count ms ks : Forall2 comp ms ks -> nowl (concat ms) -> forall n, (forall b, 0 <= n b)%Z -> forall b,
    simp_count (fun b => zocc (concat (map entries (map parameters_of ks))) b + n b)%Z b = simp_count (fun b => zocc (concat ms) b + n b)%Z b.
  Proof.
    induction 1 as [|m k ms ks (bts & ps & -> & P & _) F IH]; intros N n Hn b; [reflexivity|]. cbn [map concat parameters_of] in *. apply nowl_app in N as [N1 N2].
    rewrite (simp_count_same _ (fun b => zocc (entries ps) b + (zocc (concat (map entries (map parameters_of ks))) b + n b))%Z) by (intros x; rewrite zocc_app; lia).
    rewrite (entries_count m bts ps _ P N1); [|intros x; specialize (Hn x); pose proof (zocc_nonneg (concat (map entries (map parameters_of ks))) x); lia].
    rewrite (simp_count_same _ (fun b => zocc (concat (map entries (map parameters_of ks))) b + (zocc m b + n b))%Z) by (intros x; lia).
    rewrite (IH N2); [|intros x; specialize (Hn x); pose proof (zocc_nonneg m x); lia]. apply simp_count_same. intros x. rewrite zocc_app. lia.
  Qed.
  Lemma factors_cov ms ks x i j : Forall2 comp ms ks -> good (concat ms) -> mono_cov (concat (map entries (map parameters_of ks))) x i j = mono_cov (concat ms) x i j.
  Proof.
    induction 1 as [|m k ms ks (bts & ps & -> & P & _) F IH]; intros G; [reflexivity|]. cbn [map concat parameters_of] in *. apply good_app in G as [G1 G2].
    rewrite !mono_cov_app, IH by exact G2. f_equal. eapply entries_cov; eassumption.
  Qed.
  Lemma factors_ok ms ks : Forall2 comp ms ks -> Forall entry_ok (concat (map entries (map parameters_of ks))).
  Proof.
    induction 1 as [|m k ms ks (bts & ps & -> & P & _) F IH]; [constructor|]. cbn [map concat parameters_of]. apply Forall_app. split; [|exact IH]. destruct P as (V & _). eapply entries_ok, V.
  Qed.
  Lemma factors_group ms ks : Forall2 comp ms ks -> forall acc, fold_left gstep (concat (map entries (map parameters_of ks))) acc = fold_left gstep (concat ms) acc.
  Proof.
    induction 1 as [|m k ms ks (bts & ps & -> & P & _) F IH]; intros acc; [reflexivity|]. cbn [map concat parameters_of]. rewrite !fold_left_app, IH. f_equal.
    destruct P as (_ & _ & _ & _ & _ & SG & _). rewrite <- fold_sg, SG. apply fold_group.
  Qed.
  Lemma factors_wn ms ks : Forall2 comp ms ks -> (0 < occ (concat ms) bWN)%nat -> (0 < occ (concat (map entries (map parameters_of ks))) bWN)%nat.
  Proof.
    induction 1 as [|m k ms ks (bts & ps & -> & P & _) F IH]; [cbn; lia|]. cbn [map concat parameters_of]. rewrite !occ_app. intros O.
    destruct (Nat.eq_dec (occ m bWN) 0) as [Z|Z]; [specialize (IH ltac:(lia)); lia|].
    destruct P as ((_ & ND & _ & K & WN & _) & _ & _ & _ & _ & _ & HWN). specialize (WN (HWN ltac:(lia))). rewrite occ_entries by exact ND.
    destruct (K _ WN) as [D|(b' & D & Hn & _ & _)]; [discriminate D|]. destruct (pars ps (KBase bWN)); [contradiction|cbn; lia].
  Qed.
  Lemma multiply_comp bts ps ms ks : inv bts ps -> has_factor bts -> (forall b, is_sigmoid b = false -> (0 < cget bts b)%Z -> In (KBase b) (map fst ps)) -> Forall2 comp ms ks ->
    exists ct, multiply_pure_prods_with_params offset ps ks = Ok ct /\ comp (entries ps ++ concat ms) ct.
  Proof.
    intros V (b0 & S0 & P0) HK F. unfold multiply_pure_prods_with_params.
    assert (FA : forallb (fun k => Nat.eqb (length (composites_of k)) 0) ks = true).
    { clear -F. induction F as [|m k ms ks (bts & ps & -> & _) F IH]; [reflexivity|]. cbn. exact IH. }
    rewrite FA. cbn [map concat].
    destruct (new_bases_empty (entries ps ++ concat (map entries (map parameters_of ks)))) as (ct & E & C & _).
    - apply Forall_app. split; [eapply entries_ok, V|eapply factors_ok, F].
    - exists b0. split; [exact S0|]. rewrite occ_app. pose proof V as (_ & ND & _ & K & _). rewrite occ_entries by exact ND. specialize (HK b0 S0 P0). destruct (K _ HK) as [D|(b & D & N & _)]; [discriminate D|].
      destruct (pars ps (KBase b0)); [contradiction|cbn; lia].
    - exists ct. split; [exact E|]. apply (comp_transfer _ _ _ C).
      + intros b. rewrite !occ_app. pose proof (factors_bound ms ks F b). lia.
      + intros N b. apply nowl_app in N as [_ N].
        rewrite (simp_count_same _ (fun b => zocc (concat (map entries (map parameters_of ks))) b + zocc (entries ps) b)%Z) by (intros x; rewrite zocc_app; lia).
        rewrite (factors_count ms ks F N) by apply zocc_nonneg. apply simp_count_same. intros x. rewrite zocc_app. lia.
      + intros G x i j. apply good_app in G as [_ G]. rewrite !mono_cov_app. f_equal. apply factors_cov; assumption.
      + unfold group. rewrite !fold_left_app. eapply factors_group, F.
      + rewrite !occ_app. pose proof (factors_wn ms ks F). lia.
  Qed.
End Comp.
