(** Best linear prediction and leave-one-out prediction. *)
From Coq Require Import Reals List Bool Arith Lra Lia Psatz.
From Coquelicot Require Import Coquelicot.
From Verif Require Import Py KernModel KernSpec KernSig KernGrad KernGrad2 KernGrad3 KernBessel KernGrad4 KernPsd KernProper PredModel PredSpec PredProofs.
Import ListNotations.
Local Open Scope R_scope.

Definition bil (n : nat) (A : nat -> nat -> R) (a b : nat -> R) : R := sum_to n (fun i => sum_to n (fun j => a i * b j * A i j)).
Definition app (n : nat) (A : nat -> nat -> R) (a : nat -> R) : nat -> R := fun i => sum_to n (fun j => A i j * a j).
Definition dot (n : nat) (a b : nat -> R) : R := sum_to n (fun i => a i * b i).
Lemma sum_to_minus n f g : sum_to n (fun i => f i - g i) = sum_to n f - sum_to n g.
Proof. induction n as [|n IH]; simpl; [lra|rewrite IH; lra]. Qed.
Lemma sum_to_app n m f : sum_to (n + m) f = sum_to n f + sum_to m (fun i => f (n + i)%nat).
Proof. induction m as [|m IH]; [rewrite Nat.add_0_r; simpl; lra|]. rewrite Nat.add_succ_r. simpl. rewrite IH. lra. Qed.
Lemma bil_app n A a b : bil n A a b = dot n a (app n A b).
Proof. unfold bil, dot, app. apply sum_to_ext. intros i _. rewrite <- sum_to_scal. apply sum_to_ext. intros j _. ring. Qed.
Lemma bil_sym n A a b : symmetric n A -> bil n A a b = bil n A b a.
Proof. intros H. unfold bil. rewrite sum_to_swap. apply sum2_ext. intros i j Hi Hj. rewrite (H j i) by assumption. ring. Qed.
Lemma bil_minus n A a b : symmetric n A -> bil n A (fun i => a i - b i) (fun i => a i - b i) = bil n A a a - 2 * bil n A a b + bil n A b b.
Proof.
  intros H. replace (2 * bil n A a b) with (bil n A a b + bil n A b a) by (rewrite (bil_sym n A b a H); ring). unfold bil.
  rewrite <- sum_to_plus, <- sum_to_minus, <- sum_to_plus. apply sum_to_ext. intros i _.
  rewrite <- sum_to_plus, <- sum_to_minus, <- sum_to_plus. apply sum_to_ext. intros j _. ring.
Qed.
Lemma dot_sym n a b : dot n a b = dot n b a.
Proof. apply sum_to_ext. intros; ring. Qed.
Lemma dot_ext n a b c : (forall i, (i < n)%nat -> b i = c i) -> dot n a b = dot n a c.
Proof. intros H. apply sum_to_ext. intros i Hi. rewrite H by exact Hi. reflexivity. Qed.
Lemma delta_sum n i f : (i < n)%nat -> sum_to n (fun j => delta i j * f j) = f i.
Proof. intros Hi. rewrite (sum_to_single n i); [unfold delta; rewrite Nat.eqb_refl; ring|exact Hi|]. intros j _ Hj. unfold delta. destruct (Nat.eqb_spec i j); [congruence|ring]. Qed.
Lemma delta_sum' n i f : (i < n)%nat -> sum_to n (fun j => f j * delta j i) = f i.
Proof. intros Hi. rewrite (sum_to_single n i); [unfold delta; rewrite Nat.eqb_refl; ring|exact Hi|]. intros j _ Hj. unfold delta. destruct (Nat.eqb_spec j i); [congruence|ring]. Qed.

Section Inverse.
  Context (n : nat) (A C : nat -> nat -> R) (SA : symmetric n A) (I : inverse n A C).
  Lemma app_inverse a i : (i < n)%nat -> app n A (app n C a) i = a i.
  Proof.
    intros Hi. unfold app. transitivity (sum_to n (fun j => delta i j * a j)); [|apply delta_sum, Hi].
    transitivity (sum_to n (fun k => sum_to n (fun j => A i k * C k j * a j))).
    - apply sum_to_ext. intros k _. rewrite <- sum_to_scal. apply sum_to_ext. intros j _. ring.
    - rewrite sum_to_swap. apply sum_to_ext. intros j Hj. rewrite <- (proj1 (I i j Hi Hj)), Rmult_comm, <- sum_to_scal. apply sum_to_ext. intros k _. ring.
  Qed.
  Lemma inverse_sym : symmetric n C.
  Proof.
    intros i j Hi Hj. transitivity (sum_to n (fun k => C i k * sum_to n (fun l => A k l * C j l))).
    - rewrite <- (delta_sum' n j (fun k => C i k) Hj). apply sum_to_ext. intros k Hk. f_equal. rewrite <- (proj2 (I j k Hj Hk)) || idtac.
      assert (E : delta k j = delta j k) by (unfold delta; rewrite Nat.eqb_sym; reflexivity). rewrite E, <- (proj2 (I j k Hj Hk)). apply sum_to_ext. intros l Hl. rewrite (SA k l) by assumption. ring.
    - transitivity (sum_to n (fun l => sum_to n (fun k => C i k * A k l) * C j l)).
      + transitivity (sum_to n (fun k => sum_to n (fun l => C i k * A k l * C j l))); [apply sum_to_ext; intros k _; rewrite <- sum_to_scal; apply sum_to_ext; intros; ring|].
        rewrite sum_to_swap. apply sum_to_ext. intros l _. rewrite (Rmult_comm (sum_to n _)), <- sum_to_scal. apply sum_to_ext. intros; ring.
      + transitivity (sum_to n (fun l => delta i l * C j l)); [apply sum_to_ext; intros l Hl; rewrite (proj2 (I i l Hi Hl)); reflexivity|]. apply (delta_sum n i (fun l => C j l) Hi).
  Qed.
End Inverse.

Section Best.
  Context (n : nat) (J : nat -> nat -> R) (s : R) (t m : nat).
  Context (Sy : symmetric (n + m) J) (Ps : psd (n + m) J) (Hs : 0 <= s) (Ht : (t < m)%nat).
  Context (C : nat -> nat -> R) (I : inverse n (fun i j => J i j + s * delta i j) C).
  Let A := fun i j => J i j + s * delta i j.
  Let k := fun i => J i (n + t)%nat.
  Let w := app n C k.
  Let g := J (n + t)%nat (n + t)%nat.
  Lemma A_sym : symmetric n A.
  Proof. clear Ht. intros i j Hi Hj. unfold A. rewrite (Sy i j) by lia. unfold delta. rewrite Nat.eqb_sym. reflexivity. Qed.
  Lemma psd_le p q B : (p <= q)%nat -> psd q B -> psd p B.
  Proof. clear Ht.
    intros Hpq H c. specialize (H (fun i => if (i <? p)%nat then c i else 0)). replace q with (p + (q - p))%nat in H by lia. rewrite sum_to_app in H.
    rewrite (sum_to_ext (q - p) _ (fun _ => 0)), sum_to_zero, Rplus_0_r in H.
    - erewrite sum_to_ext; [exact H|]. intros i Hi. cbv beta. rewrite sum_to_app, (sum_to_ext (q - p) _ (fun _ => 0)), sum_to_zero, Rplus_0_r.
      + apply sum_to_ext. intros j Hj. destruct (Nat.ltb_spec i p), (Nat.ltb_spec j p); try lia. reflexivity.
      + intros j _. destruct (Nat.ltb_spec (p + j) p); [lia|ring].
    - intros i _. rewrite (sum_to_ext _ _ (fun _ => 0)); [apply sum_to_zero|]. intros j _. destruct (Nat.ltb_spec (p + i) p); [lia|ring].
  Qed.
  Lemma bil_A a b : bil n A a b = bil n J a b + s * dot n a b.
  Proof.
    unfold bil, dot, A. rewrite <- sum_to_scal, <- sum_to_plus. apply sum_to_ext. intros i Hi.
    transitivity (sum_to n (fun j => a i * b j * J i j) + sum_to n (fun j => delta i j * (s * (a i * b j)))).
    - rewrite <- sum_to_plus. apply sum_to_ext. intros j _. ring.
    - rewrite (delta_sum n i (fun j => s * (a i * b j)) Hi). ring.
  Qed.
  Lemma dot_self a : 0 <= dot n a a.
  Proof. apply sum_to_nonneg. intros i _. apply Rle_0_sqr. Qed.
  Lemma A_psd : psd n A.
  Proof.
    intros a. change (0 <= bil n A a a). rewrite bil_A. assert (0 <= bil n J a a) by (apply (psd_le n (n + m) J (Nat.le_add_r n m) Ps)). pose proof (Rmult_le_pos _ _ Hs (dot_self a)). lra.
  Qed.
  Lemma mse_bil a : mse n J s t a = g - 2 * dot n a k + bil n A a a.
  Proof. reflexivity. Qed.
  Lemma solves i : (i < n)%nat -> app n A w i = k i.
  Proof. apply app_inverse, I. Qed.
  Lemma mse_min a : g - dot n w k <= mse n J s t a.
  Proof.
    rewrite mse_bil. assert (E : dot n a k = bil n A a w) by (rewrite bil_app; symmetry; apply dot_ext; intros; apply solves; assumption).
    assert (E' : dot n w k = bil n A w w) by (rewrite bil_app; symmetry; apply dot_ext; intros; apply solves; assumption).
    rewrite E, E'. pose proof (A_psd (fun i => a i - w i)) as H. change (0 <= bil n A (fun i => a i - w i) (fun i => a i - w i)) in H. rewrite (bil_minus n A a w A_sym) in H. lra.
  Qed.
  Lemma mse_best : mse n J s t w = g - dot n w k.
  Proof.
    rewrite mse_bil. assert (E' : dot n w k = bil n A w w) by (rewrite bil_app; symmetry; apply dot_ext; intros; apply solves; assumption). rewrite <- E'. lra.
  Qed.
  Lemma var_le : g - dot n w k <= g.
  Proof.
    assert (E' : dot n w k = bil n A w w) by (rewrite bil_app; symmetry; apply dot_ext; intros; apply solves; assumption). pose proof (A_psd w) as H. change (0 <= bil n A w w) in H. lra.
  Qed.
  Lemma quadratic (u : nat -> R) : 0 <= g - 2 * dot n u k + bil n J u u.
  Proof.
    pose proof (Ps (fun i => if (i <? n)%nat then - u i else delta i (n + t))) as H. rewrite sum_to_app in H.
    assert (E1 : sum_to n (fun i => sum_to (n + m) (fun j => (if (i <? n)%nat then - u i else delta i (n + t)) * (if (j <? n)%nat then - u j else delta j (n + t)) * J i j))
                 = bil n J u u - dot n u k).
    { unfold bil, dot. rewrite <- sum_to_minus. apply sum_to_ext. intros i Hi. destruct (Nat.ltb_spec i n) as [_|]; [|lia]. rewrite sum_to_app. unfold Rminus at 1. f_equal.
      - apply sum_to_ext. intros j Hj. destruct (Nat.ltb_spec j n) as [_|]; [ring|lia].
      - rewrite (sum_to_ext m _ (fun j => delta t j * (- (u i * J i (n + j)%nat)))).
        + rewrite (delta_sum m t (fun j => - (u i * J i (n + j)%nat)) Ht). unfold k. ring.
        + intros j _. destruct (Nat.ltb_spec (n + j) n) as [|_]; [lia|]. unfold delta. destruct (Nat.eqb_spec (n + j) (n + t)), (Nat.eqb_spec t j); try lia; ring. }
    assert (E2 : sum_to m (fun i => sum_to (n + m) (fun j => (if (n + i <? n)%nat then - u (n + i)%nat else delta (n + i) (n + t)) * (if (j <? n)%nat then - u j else delta j (n + t)) * J (n + i)%nat j))
                 = g - dot n u k).
    { rewrite (sum_to_ext m _ (fun i => delta t i * sum_to (n + m) (fun j => (if (j <? n)%nat then - u j else delta j (n + t)) * J (n + i)%nat j))).
      - rewrite (delta_sum m t (fun i => sum_to (n + m) (fun j => (if (j <? n)%nat then - u j else delta j (n + t)) * J (n + i)%nat j)) Ht). rewrite sum_to_app.
        rewrite (sum_to_ext m _ (fun j => delta t j * J (n + t)%nat (n + j)%nat)).
        + rewrite (delta_sum m t (fun j => J (n + t)%nat (n + j)%nat) Ht). fold g. rewrite (sum_to_ext n _ (fun j => (-1) * (u j * k j))).
          * rewrite sum_to_scal. unfold dot. ring.
          * intros j Hj. destruct (Nat.ltb_spec j n) as [_|]; [|lia]. unfold k. rewrite (Sy (n + t)%nat j) by lia. ring.
        + intros j _. destruct (Nat.ltb_spec (n + j) n) as [|_]; [lia|]. unfold delta. destruct (Nat.eqb_spec (n + j) (n + t)), (Nat.eqb_spec t j); try lia; ring.
      - intros i _. rewrite <- sum_to_scal. apply sum_to_ext. intros j _. destruct (Nat.ltb_spec (n + i) n) as [|_]; [lia|]. unfold delta at 1 3.
        destruct (Nat.eqb_spec (n + i) (n + t)), (Nat.eqb_spec t i); try lia; ring. }
    rewrite E1, E2 in H. lra.
  Qed.
  Lemma var_nonneg : 0 <= g - dot n w k.
  Proof.
    pose proof (quadratic w) as H. assert (E' : dot n w k = bil n A w w) by (rewrite bil_app; symmetry; apply dot_ext; intros; apply solves; assumption).
    rewrite bil_A in E'. pose proof (Rmult_le_pos _ _ Hs (dot_self w)). lra.
  Qed.
End Best.

(** ** The computed predictions *)
Lemma bind_ok' {A B} (m : res A) (f : A -> res B) b : bind m f = Ok b -> exists a, m = Ok a /\ f a = Ok b.
Proof. destruct m; [eauto|discriminate]. Qed.
Section Predict.
  Context (r : regression) (n : nat) (x y : nat -> R) (s : R) (B : built_kernel (r_kern r)) (H : inferred r n x y s).
  (** Mean and variances in terms of the covariances of the joined data. *)
  Lemma raw_values m z : exists J C, computes (kK (r_kern r) (column (n + m) (joined n x z)) None) (n + m) (n + m) J
    /\ symmetric (n + m) J /\ psd (n + m) J /\ inverse n (fun i j => J i j + s * delta i j) C
    /\ forall full, exists mu v, raw_predict r (r_kern r) (column m z) full = Ok (mu, v)
      /\ array mu m 1 (fun t _ => dot n (app n C (fun i => J i (n + t)%nat)) y)
      /\ nr v = m /\ nc v = (if full then m else 1%nat)
      /\ forall t, (t < m)%nat -> ent v t (if full then t else 0%nat) = J (n + t)%nat (n + t)%nat - dot n (app n C (fun i => J i (n + t)%nat)) (fun i => J i (n + t)%nat).
  Proof.
    destruct H as (HX & Hs & K & C & HK & HC & HI & HV). destruct (built_blocks (r_kern r) n x m z B) as (J & HJ & Sy & Ps & J1 & J2 & J3 & J4).
    assert (EK : forall i j, (i < n)%nat -> (j < n)%nat -> K i j = J i j).
    { destruct HK as (A1 & E1 & HA1), J1 as (A2 & E2 & HA2). rewrite E1 in E2. injection E2 as <-. intros i j Hi Hj. rewrite <- (array_value _ _ _ _ _ _ HA1 Hi Hj). apply (array_value _ _ _ _ _ _ HA2 Hi Hj). }
    assert (HI' : inverse n (fun i j => J i j + s * delta i j) C).
    { intros i j Hi Hj. destruct (HI i j Hi Hj) as [E1 E2]. split; [rewrite <- E1|rewrite <- E2]; apply sum_to_ext; intros l Hl; rewrite EK by assumption; reflexivity. }
    exists J, C. split; [exact HJ|]. split; [exact Sy|]. split; [exact Ps|]. split; [exact HI'|].
    assert (SC : symmetric n C) by (apply (inverse_sym n _ C (A_sym n J s m Sy) HI')).
    intros full. unfold raw_predict. rewrite HX. destruct J2 as (Kx & -> & HKx). cbn [bind].
    destruct (array_dot (mT Kx) (woodbury_vector r) m n 1 _ _ (array_T _ _ _ _ HKx) HV) as (mu & -> & Hmu). cbn [bind].
    assert (Emu : array mu m 1 (fun t _ => dot n (app n C (fun i => J i (n + t)%nat)) y)).
    { eapply array_ext; [exact Hmu|]. intros t q _ _. cbv beta. unfold dot, app. transitivity (sum_to n (fun i => sum_to n (fun j => J i (n + t)%nat * (C i j * y j)))).
      - apply sum_to_ext. intros i _. symmetry. apply sum_to_scal.
      - rewrite sum_to_swap. apply sum_to_ext. intros j Hj. rewrite Rmult_comm, <- sum_to_scal. apply sum_to_ext. intros i Hi. rewrite (SC j i) by assumption. ring. }
    destruct full.
    - destruct J3 as (Kxx & -> & HKxx). cbn [bind]. destruct (array_dot (woodbury_inv r) Kx n n m _ _ HC HKx) as (T & -> & HT). cbn [bind].
      destruct (array_dot (mT Kx) T m n m _ _ (array_T _ _ _ _ HKx) HT) as (S & -> & HS). cbn [bind]. unfold msub.
      destruct (array_ew Rminus Kxx S m m _ _ HKxx HS) as (V & -> & HV'). cbn [bind]. exists mu, V. split; [reflexivity|]. split; [exact Emu|]. split; [apply HV'|]. split; [apply HV'|].
      intros t Ht. rewrite (array_value _ _ _ _ _ _ HV' Ht Ht). f_equal. unfold dot, app. apply sum_to_ext. intros i _. ring.
    - destruct (array_dot (mT (woodbury_inv r)) Kx n n m _ _ (array_T _ _ _ _ HC) HKx) as (T & -> & HT). cbn [bind]. unfold mmul.
      destruct (array_ew Rmult T Kx n m _ _ HT HKx) as (P & -> & HP). cbn [bind]. eexists mu, _. split; [reflexivity|]. split; [exact Emu|]. split; [reflexivity|]. split; [reflexivity|].
      intros t Ht. cbn [column ent]. rewrite J4 by exact Ht. f_equal. rewrite rsum_sum_to. rewrite (proj1 HP). apply sum_to_ext. intros i Hi.
      rewrite (array_value _ _ _ _ _ _ HP Hi Ht). f_equal. unfold app. apply sum_to_ext. intros j Hj. rewrite (SC j i) by assumption. reflexivity.
  Qed.
  Lemma predict_best ppf m z q1 q2 qs full p : predict ppf (Some r) (column m z) (q1 :: q2 :: qs) full None None false = Ok p ->
    exists J, computes (kK (r_kern r) (column (n + m) (joined n x z)) None) (n + m) (n + m) J
    /\ forall t, (t < m)%nat ->
         (exists w, ent (p_mean p) t 0 = sum_to n (fun i => w i * y i) /\ mse n J s t w = variance_at p full t)
         /\ (forall a, variance_at p full t <= mse n J s t a) /\ 0 <= variance_at p full t <= J (n + t)%nat (n + t)%nat.
  Proof.
    intros Hp. destruct (raw_values m z) as (J & C & HJ & Sy & Ps & HI & HR). exists J. split; [exact HJ|]. intros t Ht. destruct (HR full) as (mu & v & E & Hmu & _ & _ & Hv).
    unfold predict, gpy_predict, gpy_predict_quantiles in Hp. cbn [default] in Hp. rewrite E in Hp. destruct (HR false) as (mu' & v' & E' & _). rewrite E' in Hp. cbn [bind fst snd map] in Hp.
    injection Hp as <-. unfold variance_at. cbn [p_mean p_covariance]. rewrite (Hv t Ht). rewrite (array_value _ _ _ _ _ _ Hmu Ht (Nat.lt_0_succ 0)).
    assert (Hs : 0 <= s) by apply H. split; [|split].
    - exists (app n C (fun i => J i (n + t)%nat)). split; [reflexivity|]. apply (mse_best n J s t C HI).
    - intros a. apply (mse_min n J s t m Sy Ps Hs C HI).
    - split; [apply (var_nonneg n J s t m Sy Ps Hs Ht C HI)|apply (var_le n J s t m Ps Hs C HI)].
  Qed.
  Lemma noise_values noise full v t : ent (add_noise noise full v) t (if full then t else 0%nat) = ent v t (if full then t else 0%nat) + noise.
  Proof. unfold add_noise. cbn [ent]. destruct full; [rewrite Nat.eqb_refl|]; reflexivity. Qed.
  (** The two quantiles, in terms of the variance with noise. *)
  Lemma predict_values ppf m z q1 q2 qs full lik incl p : predict ppf (Some r) (column m z) (q1 :: q2 :: qs) full None lik incl = Ok p ->
    forall t, (t < m)%nat -> exists v, 0 <= v /\ variance_at p full t = (if incl then v + default (r_noise r) lik else v)
      /\ ent (p_low p) t 0 = ppf (q1 / 100) * sqrt (v + default (r_noise r) lik) + ent (p_mean p) t 0
      /\ ent (p_high p) t 0 = ppf (q2 / 100) * sqrt (v + default (r_noise r) lik) + ent (p_mean p) t 0.
  Proof.
    intros Hp t Ht. destruct (raw_values m z) as (J & C & HJ & Sy & Ps & HI & HR). destruct (HR full) as (mu & v & E & Hmu & _ & _ & Hv). destruct (HR false) as (mu' & v' & E' & Hmu' & _ & _ & Hv').
    unfold predict, gpy_predict, gpy_predict_quantiles in Hp. cbn [default] in Hp. rewrite E, E' in Hp. cbn [bind fst snd map] in Hp. injection Hp as <-.
    unfold variance_at. cbn [p_mean p_covariance p_low p_high ent]. assert (Hs : 0 <= s) by apply H. specialize (Hv t Ht). specialize (Hv' t Ht). cbv iota in Hv'.
    exists (ent v' t 0%nat). rewrite (array_value _ _ _ _ _ _ Hmu Ht (Nat.lt_0_succ 0)), (array_value _ _ _ _ _ _ Hmu' Ht (Nat.lt_0_succ 0)). split; [|split; [|split; reflexivity]].
    - rewrite Hv'. apply (var_nonneg n J s t m Sy Ps Hs Ht C HI).
    - rewrite Hv'. destruct incl; [rewrite noise_values|]; rewrite Hv; reflexivity.
  Qed.
  Lemma predict_total ppf m z q1 q2 qs full lik incl : exists p, predict ppf (Some r) (column m z) (q1 :: q2 :: qs) full None lik incl = Ok p.
  Proof.
    destruct (raw_values m z) as (J & C & HJ & Sy & Ps & HI & HR). destruct (HR full) as (mu & v & E & _). destruct (HR false) as (mu' & v' & E' & _).
    unfold predict, gpy_predict, gpy_predict_quantiles. cbn [default]. rewrite E, E'. cbn [bind fst snd map]. eexists. reflexivity.
  Qed.
End Predict.

(** ** The normal distribution *)
Lemma density_pos t : 0 < exp (- t ^ 2 / 2) / sqrt (2 * PI).
Proof. apply Rdiv_lt_0_compat; [apply exp_pos|]. apply sqrt_lt_R0. pose proof PI_RGT_0. lra. Qed.
Lemma density_cont t : continuous (fun t => exp (- t ^ 2 / 2) / sqrt (2 * PI)) t.
Proof. apply (ex_derive_continuous (fun t => exp (- t ^ 2 / 2) / sqrt (2 * PI))). auto_derive. exact Logic.I. Qed.
Lemma density_int a b : ex_RInt (fun t => exp (- t ^ 2 / 2) / sqrt (2 * PI)) a b.
Proof. apply (ex_RInt_continuous (V := R_CompleteNormedModule)). intros t _. apply density_cont. Qed.
Lemma Phi_increasing a b : a < b -> Phi a < Phi b.
Proof.
  intros Hab. unfold Phi. pose proof (RInt_Chasles (fun t => exp (- t ^ 2 / 2) / sqrt (2 * PI)) 0 a b (density_int _ _) (density_int _ _)) as E. unfold plus in E. simpl in E.
  assert (0 < RInt (fun t => exp (- t ^ 2 / 2) / sqrt (2 * PI)) a b); [|simpl in *; lra].
  apply RInt_gt_0; [exact Hab|intros; apply density_pos|intros; apply density_cont].
Qed.
Lemma Phi_le a b : Phi a <= Phi b -> a <= b.
Proof. intros H. destruct (Rle_or_lt a b) as [|L]; [assumption|]. apply Phi_increasing in L. lra. Qed.
Lemma Phi_0 : Phi 0 = / 2.
Proof. unfold Phi. rewrite RInt_point. unfold zero. simpl. lra. Qed.
Lemma Phi_opp z : Phi (- z) = 1 - Phi z.
Proof.
  unfold Phi. assert (E : RInt (fun t => exp (- t ^ 2 / 2) / sqrt (2 * PI)) 0 (- z) = - RInt (fun t => exp (- t ^ 2 / 2) / sqrt (2 * PI)) 0 z); [|rewrite E; lra].
  set (f := fun t => exp (- t ^ 2 / 2) / sqrt (2 * PI)). pose proof (RInt_correct f 0 (- z) (density_int _ _)) as H. rewrite <- Ropp_0 in H at 1.
  apply is_RInt_comp_opp in H. apply (is_RInt_ext _ (fun t => opp (f t))) in H.
  - apply is_RInt_opp in H. apply (is_RInt_unique (V := R_CompleteNormedModule)) in H. assert (E : RInt (fun y => opp (opp (f y))) 0 z = RInt f 0 z) by (apply RInt_ext; intros t _; unfold opp; simpl; lra).
    transitivity (- - RInt f 0 (- z)); [symmetry; apply Ropp_involutive|]. f_equal. rewrite <- E. symmetry. exact H.
  - intros t _. unfold f. simpl. replace (- t * (- t * 1)) with (t * (t * 1)) by ring. reflexivity.
Qed.

(** ** Leave one out *)
Section Loo.
  Context (n : nat) (A C : nat -> nat -> R) (SA : symmetric n A) (I : inverse n A C) (i : nat) (Hi : (i < n)%nat) (Hc : 0 < C i i).
  Definition loo_w : nat -> R := fun j => if Nat.eqb j i then 0 else - C i j / C i i.
  Lemma CA a : (a < n)%nat -> sum_to n (fun j => C i j * A j a) = delta i a.
  Proof. intros Ha. apply (I i a Hi Ha). Qed.
  Lemma loo_solves : others_weights n A i loo_w.
  Proof.
    split; [unfold loo_w; rewrite Nat.eqb_refl; reflexivity|]. intros a Ha Hne. pose proof (CA a Ha) as E. rewrite (sum_to_remove n i _ Hi) in E.
    unfold delta in E. destruct (Nat.eqb_spec i a) as [|_]; [congruence|]. apply (Rmult_eq_reg_l (C i i)); [|lra].
    transitivity (- sum_to n (fun j => if (j =? i)%nat then 0 else C i j * A j a)); [|lra].
    rewrite <- sum_to_scal. replace (- sum_to n (fun j => if (j =? i)%nat then 0 else C i j * A j a)) with ((-1) * sum_to n (fun j => if (j =? i)%nat then 0 else C i j * A j a)) by ring.
    rewrite <- sum_to_scal. apply sum_to_ext. intros j _. unfold loo_w. destruct (j =? i)%nat; [ring|]. field. lra.
  Qed.
  Lemma loo_unique w : others_weights n A i w -> forall j, (j < n)%nat -> w j = loo_w j.
  Proof.
    intros [W0 W1] j Hj. destruct loo_solves as [L0 L1]. set (d := fun j => w j - loo_w j). set (tau := sum_to n (fun j => d j * A j i)).
    assert (E : forall a, (a < n)%nat -> sum_to n (fun j => d j * A j a) = tau * delta i a).
    { intros a Ha. unfold delta. destruct (Nat.eqb_spec i a) as [<-|Hne]; [unfold tau; ring|]. rewrite Rmult_0_r.
      rewrite <- (Rminus_eq_0 (A i a)). rewrite <- (W1 a Ha) at 1 by congruence. rewrite <- (L1 a Ha) by congruence. rewrite <- sum_to_minus. apply sum_to_ext. intros l _. unfold d. ring. }
    assert (F : forall b, (b < n)%nat -> d b = tau * C i b).
    { intros b Hb. transitivity (sum_to n (fun a => sum_to n (fun j => d j * A j a) * C a b)).
      - transitivity (sum_to n (fun j => d j * delta j b)); [symmetry; apply (delta_sum' n b d Hb)|].
        transitivity (sum_to n (fun j => sum_to n (fun a => d j * A j a * C a b))).
        + apply sum_to_ext. intros l Hl. rewrite <- (proj1 (I l b Hl Hb)), <- sum_to_scal. apply sum_to_ext. intros; ring.
        + rewrite sum_to_swap. apply sum_to_ext. intros a _. rewrite (Rmult_comm (sum_to n _)), <- sum_to_scal. apply sum_to_ext. intros; ring.
      - rewrite <- (delta_sum n i (fun a => tau * C a b) Hi). apply sum_to_ext. intros a Ha. rewrite (E a Ha). ring. }
    assert (T : tau = 0). { pose proof (F i Hi) as Fi. unfold d in Fi. rewrite W0, L0 in Fi. nra. }
    pose proof (F j Hj) as Fj. rewrite T in Fj. unfold d in Fj. lra.
  Qed.
  Lemma loo_mean y : sum_to n (fun j => loo_w j * y j) = y i - sum_to n (fun j => C i j * y j) / C i i.
  Proof.
    rewrite (sum_to_remove n i (fun j => C i j * y j) Hi). unfold loo_w. apply (Rmult_eq_reg_l (C i i)); [|lra].
    transitivity (- sum_to n (fun j => if (j =? i)%nat then 0 else C i j * y j)); [|field; lra]. rewrite <- sum_to_scal.
    replace (- sum_to n (fun j => if (j =? i)%nat then 0 else C i j * y j)) with ((-1) * sum_to n (fun j => if (j =? i)%nat then 0 else C i j * y j)) by ring.
    rewrite <- sum_to_scal. apply sum_to_ext. intros j _. destruct (j =? i)%nat; [ring|]. field. lra.
  Qed.
  Lemma loo_variance : A i i - sum_to n (fun j => loo_w j * A j i) = / C i i.
  Proof.
    rewrite (loo_mean (fun j => A j i)), (CA i Hi). unfold delta. rewrite Nat.eqb_refl. field. lra.
  Qed.
End Loo.
Lemma log_density m v y : 0 < v -> ln (normal_density m v y) = - (/ 2 * ln (2 * PI) + / 2 * ln v + / 2 * ((y - m) ^ 2 / v)).
Proof.
  intros Hv. pose proof PI_RGT_0. unfold normal_density, Rdiv at 1. rewrite ln_mult, ln_exp; [|apply exp_pos|apply Rinv_0_lt_compat, sqrt_lt_R0; nra].
  rewrite ln_Rinv by (apply sqrt_lt_R0; nra).
  assert (E : ln (2 * PI * v) = 2 * ln (sqrt (2 * PI * v))).
  { rewrite <- (sqrt_sqrt (2 * PI * v)) at 1 by nra. rewrite ln_mult by (apply sqrt_lt_R0; nra). ring. }
  rewrite (ln_mult (2 * PI) v) in E by lra. replace (ln (sqrt (2 * PI * v))) with ((ln (2 * PI) + ln v) / 2) by lra. field. lra.
Qed.
(** The entries of LOO. *)
Lemma loo_entry r n x y s : inferred r n x y s -> forall K, computes (kK (r_kern r) (column n x) None) n n K -> symmetric n K ->
  forall i w, (i < n)%nat -> 0 < ent (woodbury_inv r) i i -> others_weights n (fun i j => K i j + s * delta i j) i w ->
  ent (gpy_LOO r) i 0 = ln (normal_density (sum_to n (fun j => w j * y j)) (K i i + s - sum_to n (fun j => w j * (K j i + s * delta j i))) (y i)).
Proof.
  intros (HX & Hs & K' & C & HK' & HC & HI & HV) K HK SK i w Hi Hc Hw.
  assert (EK : forall i j, (i < n)%nat -> (j < n)%nat -> K' i j = K i j).
  { destruct HK as (A1 & E1 & HA1), HK' as (A2 & E2 & HA2). rewrite E1 in E2. injection E2 as <-. intros a b Ha Hb. rewrite <- (array_value _ _ _ _ _ _ HA1 Ha Hb). symmetry. apply (array_value _ _ _ _ _ _ HA2 Ha Hb). }
  set (A := fun i j => K i j + s * delta i j) in *.
  assert (HI' : inverse n A C).
  { intros a b Ha Hb. destruct (HI a b Ha Hb) as [E1 E2]. unfold A. split; [rewrite <- E1|rewrite <- E2]; apply sum_to_ext; intros l Hl; rewrite EK by assumption; reflexivity. }
  rewrite (array_value _ _ _ _ _ _ HC Hi Hi) in Hc.
  rewrite (sum_to_ext n (fun j => w j * y j) (fun j => loo_w C i j * y j)) by (intros j Hj; rewrite (loo_unique n A C HI' i Hi Hc w Hw j Hj); reflexivity).
  rewrite (sum_to_ext n (fun j => w j * (K j i + s * delta j i)) (fun j => loo_w C i j * A j i)) by (intros j Hj; rewrite (loo_unique n A C HI' i Hi Hc w Hw j Hj); reflexivity).
  replace (K i i + s) with (A i i) by (unfold A, delta; rewrite Nat.eqb_refl; ring). rewrite (loo_variance n A C HI' i Hi Hc), (loo_mean n C i Hi Hc y).
  rewrite log_density by (apply Rinv_0_lt_compat, Hc). unfold gpy_LOO. cbn [ent]. rewrite (array_value _ _ _ _ _ _ HC Hi Hi), (array_value _ _ _ _ _ _ HV Hi (Nat.lt_0_succ 0)).
  rewrite ln_Rinv by exact Hc. field. lra.
Qed.
