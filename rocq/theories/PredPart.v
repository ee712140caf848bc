(** Predictions of the terms of a sum of kernels (C80), and the mean of the leave-one-out log densities (C43). *)
From Coq Require Import Reals List Bool Arith Lra Lia Psatz.
From Coquelicot Require Import Coquelicot.
From Verif Require Import Py KernModel KernSpec KernSig KernGrad KernGrad2 KernGrad3 KernBessel KernGrad4 KernPsd KernProper PredModel PredSpec PredProofs PredBest PredWit.
Import ListNotations.
Local Open Scope R_scope.
Notation Forall := List.Forall.

(** ** Terms *)
Lemma terms_built k l : terms_of k l -> Forall built_kernel l -> built_kernel k.
Proof. induction 1 as [k|a b la lb Ta IHa Tb IHb]; intros F; [now inversion F|]. apply Forall_app in F as [Fa Fb]. apply bk_add; auto. Qed.
Lemma computes_eq r n m K K' : computes r n m K -> computes r n m K' -> forall i j, (i < n)%nat -> (j < m)%nat -> K i j = K' i j.
Proof. intros (A & E & HA) (A' & E' & HA') i j Hi Hj. rewrite E in E'. injection E' as <-. rewrite <- (array_value _ _ _ _ _ _ HA Hi Hj). apply (array_value _ _ _ _ _ _ HA' Hi Hj). Qed.
Lemma computes_sum k1 k2 X X2 n m K1 K2 : computes (kK k1 X X2) n m K1 -> computes (kK k2 X X2) n m K2 -> computes (kK (add_kernel k1 k2) X X2) n m (fun i j => K1 i j + K2 i j).
Proof. intros (A1 & E1 & M1) (A2 & E2 & M2). cbn [add_kernel kK]. rewrite E1, E2. cbn [bind]. apply (array_ew Rplus _ _ n m _ _ M1 M2). Qed.
(** The covariances without those of a term are those of the other terms. *)
Lemma terms_rest k l : terms_of k l -> Forall built_kernel l -> forall c, In c l -> forall N x K P, computes (kK k (column N x) None) N N K -> computes (kK c (column N x) None) N N P ->
  psd N (fun i j => K i j - P i j).
Proof.
  induction 1 as [k|a b la lb Ta IHa Tb IHb]; intros F c I N x K P HK HP.
  - destruct I as [<-|[]]. eapply psd_ext; [|apply psd_zero]. intros i j Hi Hj. cbv beta. rewrite (computes_eq _ _ _ _ _ HK HP i j Hi Hj). ring.
  - apply Forall_app in F as [Fa Fb]. destruct (built_proper a (terms_built a la Ta Fa) N x) as (Ka & HKa & _ & Pa & _). destruct (built_proper b (terms_built b lb Tb Fb) N x) as (Kb & HKb & _ & Pb & _).
    pose proof (computes_eq _ _ _ _ _ HK (computes_sum a b _ _ _ _ _ _ HKa HKb)) as E. apply in_app_or in I as [I|I].
    + eapply psd_ext; [|apply (psd_plus N _ _ (IHa Fa c I N x Ka P HKa HP) Pb)]. intros i j Hi Hj. cbv beta. rewrite (E i j Hi Hj). ring.
    + eapply psd_ext; [|apply (psd_plus N _ _ Pa (IHb Fb c I N x Kb P HKb HP))]. intros i j Hi Hj. cbv beta. rewrite (E i j Hi Hj). ring.
Qed.

(** ** The values computed for a term *)
Section Part.
  Context (r : regression) (n : nat) (x y : nat -> R) (s : R) (l : list kernel) (T : terms_of (r_kern r) l) (F : Forall built_kernel l) (H : inferred r n x y s).
  Lemma part_values c m z : built_kernel c -> exists J P C, computes (kK (r_kern r) (column (n + m) (joined n x z)) None) (n + m) (n + m) J
    /\ computes (kK c (column (n + m) (joined n x z)) None) (n + m) (n + m) P
    /\ computes (kK c (column n x) (Some (column m z))) n m (fun i j => P i (n + j)%nat)
    /\ symmetric (n + m) J /\ psd (n + m) J /\ symmetric (n + m) P /\ psd (n + m) P /\ inverse n (fun i j => J i j + s * delta i j) C
    /\ array (woodbury_inv r) n n C
    /\ forall full, exists mu v, raw_predict r c (column m z) full = Ok (mu, v)
      /\ array mu m 1 (fun t _ => dot n (app n C (fun i => P i (n + t)%nat)) y)
      /\ nr v = m /\ nc v = (if full then m else 1%nat)
      /\ forall t, (t < m)%nat -> ent v t (if full then t else 0%nat) = P (n + t)%nat (n + t)%nat - dot n (app n C (fun i => P i (n + t)%nat)) (fun i => P i (n + t)%nat).
  Proof.
    intros Bc. pose proof (terms_built _ _ T F) as B. destruct H as (HX & Hs & K & C & HK & HC & HI & HV). destruct (built_blocks (r_kern r) n x m z B) as (J & HJ & Sy & Ps & J1 & _).
    destruct (built_blocks c n x m z Bc) as (P & HP & SyP & PsP & _ & J2 & J3 & J4).
    pose proof (computes_eq _ _ _ _ _ HK J1) as EK.
    assert (HI' : inverse n (fun i j => J i j + s * delta i j) C).
    { intros i j Hi Hj. destruct (HI i j Hi Hj) as [E1 E2]. split; [rewrite <- E1|rewrite <- E2]; apply sum_to_ext; intros a Ha; rewrite EK by assumption; reflexivity. }
    exists J, P, C. split; [exact HJ|]. split; [exact HP|]. split; [exact J2|]. split; [exact Sy|]. split; [exact Ps|]. split; [exact SyP|]. split; [exact PsP|]. split; [exact HI'|]. split; [exact HC|].
    assert (SC : symmetric n C) by (apply (inverse_sym n _ C (A_sym n J s m Sy) HI')).
    intros full. unfold raw_predict. rewrite HX. destruct J2 as (Kx & -> & HKx). cbn [bind].
    destruct (array_dot (mT Kx) (woodbury_vector r) m n 1 _ _ (array_T _ _ _ _ HKx) HV) as (mu & -> & Hmu). cbn [bind].
    assert (Emu : array mu m 1 (fun t _ => dot n (app n C (fun i => P i (n + t)%nat)) y)).
    { eapply array_ext; [exact Hmu|]. intros t q _ _. cbv beta. unfold dot, app. transitivity (sum_to n (fun i => sum_to n (fun j => P i (n + t)%nat * (C i j * y j)))).
      - apply sum_to_ext. intros i _. symmetry. apply sum_to_scal.
      - rewrite sum_to_swap. apply sum_to_ext. intros j Hj. rewrite Rmult_comm, <- sum_to_scal. apply sum_to_ext. intros i Hi. rewrite (SC j i) by assumption. ring. }
    destruct full.
    - destruct J3 as (Kxx & -> & HKxx). cbn [bind]. destruct (array_dot (woodbury_inv r) Kx n n m _ _ HC HKx) as (T0 & -> & HT). cbn [bind].
      destruct (array_dot (mT Kx) T0 m n m _ _ (array_T _ _ _ _ HKx) HT) as (S & -> & HS). cbn [bind]. unfold msub.
      destruct (array_ew Rminus Kxx S m m _ _ HKxx HS) as (V & -> & HV'). cbn [bind]. exists mu, V. split; [reflexivity|]. split; [exact Emu|]. split; [apply HV'|]. split; [apply HV'|].
      intros t Ht. rewrite (array_value _ _ _ _ _ _ HV' Ht Ht). f_equal. unfold dot, app. apply sum_to_ext. intros i _. ring.
    - destruct (array_dot (mT (woodbury_inv r)) Kx n n m _ _ (array_T _ _ _ _ HC) HKx) as (T0 & -> & HT). cbn [bind]. unfold mmul.
      destruct (array_ew Rmult T0 Kx n m _ _ HT HKx) as (P0 & -> & HP0). cbn [bind]. eexists mu, _. split; [reflexivity|]. split; [exact Emu|]. split; [reflexivity|]. split; [reflexivity|].
      intros t Ht. cbn [column ent]. rewrite J4 by exact Ht. f_equal. rewrite rsum_sum_to. rewrite (proj1 HP0). apply sum_to_ext. intros i Hi.
      rewrite (array_value _ _ _ _ _ _ HP0 Hi Ht). f_equal. unfold app. apply sum_to_ext. intros j Hj. rewrite (SC j i) by assumption. reflexivity.
  Qed.
  (** The best linear prediction of a term. *)
  Lemma part_facts c m z J P C t : In c l -> (t < m)%nat -> computes (kK (r_kern r) (column (n + m) (joined n x z)) None) (n + m) (n + m) J ->
    computes (kK c (column (n + m) (joined n x z)) None) (n + m) (n + m) P -> symmetric (n + m) J -> psd (n + m) J -> symmetric (n + m) P -> psd (n + m) P -> inverse n (fun i j => J i j + s * delta i j) C ->
    let k := fun i => P i (n + t)%nat in let w := app n C k in let v := P (n + t)%nat (n + t)%nat - dot n w k in
    part_mse n P J s t w = v /\ (forall a, v <= part_mse n P J s t a) /\ 0 <= v <= P (n + t)%nat (n + t)%nat.
  Proof.
    intros Ic Ht HJ HP Sy Ps SyP PsP HI k w v. assert (Hs : 0 <= s) by apply H. set (A := fun i j => J i j + s * delta i j).
    assert (M : forall a, part_mse n P J s t a = P (n + t)%nat (n + t)%nat - 2 * dot n a k + bil n A a a) by reflexivity.
    assert (S : forall a, dot n a k = bil n A a w) by (intros a; rewrite bil_app; symmetry; apply dot_ext; intros i Hi; apply (app_inverse n A C HI k i Hi)).
    pose proof (A_sym n J s m Sy) as SA. pose proof (A_psd n J s m Ps Hs) as PA. fold A in SA, PA. unfold v. split; [|split; [|split]].
    - rewrite M, (S w). ring.
    - intros a. rewrite M, (S a), (S w). pose proof (PA (fun i => a i - w i)) as Q. change (0 <= bil n A (fun i => a i - w i) (fun i => a i - w i)) in Q. rewrite (bil_minus n A a w SA) in Q. lra.
    - pose proof (quadratic n P t m SyP PsP Ht w) as Q. fold k in Q. pose proof (psd_le n (n + m) _ (Nat.le_add_r n m) (terms_rest _ _ T F c Ic _ _ _ _ HJ HP)) as R.
      specialize (R w). assert (E : sum_to n (fun i => sum_to n (fun j => w i * w j * (J i j - P i j))) = bil n J w w - bil n P w w).
      { unfold bil. rewrite <- sum_to_minus. apply sum_to_ext. intros i _. rewrite <- sum_to_minus. apply sum_to_ext. intros j _. ring. }
      cbv beta in R. rewrite E in R. pose proof (S w) as E'. unfold A in E'. rewrite bil_A in E'. pose proof (Rmult_le_pos _ _ Hs (dot_self n w)). lra.
    - rewrite (S w). pose proof (PA w) as Q. change (0 <= bil n A w w) in Q. lra.
  Qed.
  Lemma part_best c ppf m z q1 q2 qs full p : In c l -> predict ppf (Some r) (column m z) (q1 :: q2 :: qs) full (Some c) None false = Ok p ->
    exists J P, computes (kK (r_kern r) (column (n + m) (joined n x z)) None) (n + m) (n + m) J /\ computes (kK c (column (n + m) (joined n x z)) None) (n + m) (n + m) P
    /\ forall t, (t < m)%nat ->
         (exists w, ent (p_mean p) t 0 = sum_to n (fun i => w i * y i) /\ part_mse n P J s t w = variance_at p full t)
         /\ (forall a, variance_at p full t <= part_mse n P J s t a) /\ 0 <= variance_at p full t <= P (n + t)%nat (n + t)%nat.
  Proof.
    intros Ic Hp. assert (Bc : built_kernel c) by (rewrite Forall_forall in F; apply F, Ic). destruct (part_values c m z Bc) as (J & P & C & HJ & HP & _ & Sy & Ps & SyP & PsP & HI & _ & HR). exists J, P. split; [exact HJ|]. split; [exact HP|].
    intros t Ht. destruct (HR full) as (mu & v & E & Hmu & _ & _ & Hv). unfold predict, gpy_predict, gpy_predict_quantiles in Hp. cbn [default] in Hp. rewrite E in Hp. destruct (HR false) as (mu' & v' & E' & _). rewrite E' in Hp. cbn [bind fst snd map] in Hp.
    injection Hp as <-. unfold variance_at. cbn [p_mean p_covariance]. rewrite (Hv t Ht). rewrite (array_value _ _ _ _ _ _ Hmu Ht (Nat.lt_0_succ 0)).
    destruct (part_facts c m z J P C t Ic Ht HJ HP Sy Ps SyP PsP HI) as (F1 & F2 & F3). split; [|split; [exact F2|exact F3]]. exists (app n C (fun i => P i (n + t)%nat)). split; [reflexivity|exact F1].
  Qed.
  Lemma part_predict c ppf m z q1 q2 qs full lik incl p : In c l -> predict ppf (Some r) (column m z) (q1 :: q2 :: qs) full (Some c) lik incl = Ok p ->
    forall t, (t < m)%nat -> exists v, 0 <= v /\ variance_at p full t = (if incl then v + default (r_noise r) lik else v)
      /\ ent (p_low p) t 0 = ppf (q1 / 100) * sqrt (v + default (r_noise r) lik) + ent (p_mean p) t 0
      /\ ent (p_high p) t 0 = ppf (q2 / 100) * sqrt (v + default (r_noise r) lik) + ent (p_mean p) t 0.
  Proof.
    intros Ic Hp t Ht. assert (Bc : built_kernel c) by (rewrite Forall_forall in F; apply F, Ic). destruct (part_values c m z Bc) as (J & P & C & HJ & HP & _ & Sy & Ps & SyP & PsP & HI & _ & HR).
    destruct (HR full) as (mu & v & E & Hmu & _ & _ & Hv). destruct (HR false) as (mu' & v' & E' & Hmu' & _ & _ & Hv').
    unfold predict, gpy_predict, gpy_predict_quantiles in Hp. cbn [default] in Hp. rewrite E, E' in Hp. cbn [bind fst snd map] in Hp. injection Hp as <-.
    unfold variance_at. cbn [p_mean p_covariance p_low p_high ent]. specialize (Hv t Ht). specialize (Hv' t Ht). cbv iota in Hv'.
    exists (ent v' t 0%nat). rewrite (array_value _ _ _ _ _ _ Hmu Ht (Nat.lt_0_succ 0)), (array_value _ _ _ _ _ _ Hmu' Ht (Nat.lt_0_succ 0)). split; [|split; [|split; reflexivity]].
    - rewrite Hv'. apply (part_facts c m z J P C t Ic Ht HJ HP Sy Ps SyP PsP HI).
    - rewrite Hv'. destruct incl; [rewrite noise_values|]; rewrite Hv; reflexivity.
  Qed.
  Lemma part_total c ppf m z q1 q2 qs full lik incl : In c l -> exists p, predict ppf (Some r) (column m z) (q1 :: q2 :: qs) full (Some c) lik incl = Ok p.
  Proof.
    intros Ic. assert (Bc : built_kernel c) by (rewrite Forall_forall in F; apply F, Ic). destruct (part_values c m z Bc) as (J & P & C & _ & _ & _ & _ & _ & _ & _ & _ & _ & HR). destruct (HR full) as (mu & v & E & _). destruct (HR false) as (mu' & v' & E' & _).
    unfold predict, gpy_predict, gpy_predict_quantiles. cbn [default]. rewrite E, E'. cbn [bind fst snd map]. eexists. reflexivity.
  Qed.
End Part.
Lemma part_quantiles ppf r n x y s l c m z q1 q2 qs full lik p : terms_of (r_kern r) l -> Forall built_kernel l -> inferred r n x y s -> In c l -> 0 < noise_of r lik ->
  Phi (ppf (q1 / 100)) = q1 / 100 -> Phi (ppf (q2 / 100)) = q2 / 100 ->
  predict ppf (Some r) (column m z) (q1 :: q2 :: qs) full (Some c) lik true = Ok p -> forall t, (t < m)%nat ->
  normal_cdf (ent (p_mean p) t 0) (variance_at p full t) (ent (p_low p) t 0) = q1 / 100
  /\ normal_cdf (ent (p_mean p) t 0) (variance_at p full t) (ent (p_high p) t 0) = q2 / 100.
Proof.
  intros T F I Ic Hn H1 H2 Hp t Ht. destruct (part_predict r n x y s l T F I c _ _ _ _ _ _ _ _ _ _ Ic Hp t Ht) as (v & Hv & -> & -> & ->). unfold noise_of in Hn.
  split; apply quantile; try assumption; lra.
Qed.

(** ** The predictions of the terms add up *)
Lemma app_plus n C a b i : app n C (fun j => a j + b j) i = app n C a i + app n C b i.
Proof. unfold app. rewrite <- sum_to_plus. apply sum_to_ext. intros j _. ring. Qed.
Lemma dot_plus n a b y : dot n (fun i => a i + b i) y = dot n a y + dot n b y.
Proof. unfold dot. rewrite <- sum_to_plus. apply sum_to_ext. intros j _. ring. Qed.
Definition total (ms : list R) : R := fold_right Rplus 0 ms.
Lemma total_app a b : total (a ++ b) = total a + total b.
Proof. unfold total. induction a as [|v a IH]; cbn; [ring|]. rewrite IH. ring. Qed.
Section Sum.
  Context (n : nat) (x y : nat -> R) (C : nat -> nat -> R) (m : nat) (z : nat -> R) (t : nat) (Ht : (t < m)%nat).
  (** The mean for a kernel, from its cross covariances. *)
  Definition mean_of (c : kernel) (v : R) : Prop := exists P, computes (kK c (column n x) (Some (column m z))) n m P /\ v = dot n (app n C (fun i => P i t)) y.
  Lemma mean_unique c v v' : mean_of c v -> mean_of c v' -> v = v'.
  Proof.
    intros (P & HP & ->) (P' & HP' & ->). unfold dot, app. apply sum_to_ext. intros i Hi. f_equal. apply sum_to_ext. intros j Hj. f_equal. apply (computes_eq _ _ _ _ _ HP HP'); assumption.
  Qed.
  Lemma means_add k l : terms_of k l -> Forall built_kernel l -> forall vs, List.Forall2 mean_of l vs -> mean_of k (total vs).
  Proof.
    induction 1 as [k|a b la lb Ta IHa Tb IHb]; intros F vs Hv.
    - inversion Hv as [|? v ? vs' H1 H2]; subst. inversion H2; subst. unfold total. cbn. rewrite Rplus_0_r. exact H1.
    - apply Forall_app in F as [Fa Fb]. apply Forall2_app_inv_l in Hv as (va & vb & Ha & Hb & ->). destruct (IHa Fa va Ha) as (Pa & HPa & Ea). destruct (IHb Fb vb Hb) as (Pb & HPb & Eb).
      exists (fun i j => Pa i j + Pb i j). split; [apply computes_sum; assumption|]. rewrite total_app, Ea, Eb, <- dot_plus. unfold dot. apply sum_to_ext. intros i _. rewrite app_plus. reflexivity.
  Qed.
End Sum.
Lemma part_mean r n x y s l c ppf m z q1 q2 qs full lik incl p C : terms_of (r_kern r) l -> Forall built_kernel l -> inferred r n x y s -> built_kernel c -> array (woodbury_inv r) n n C ->
  predict ppf (Some r) (column m z) (q1 :: q2 :: qs) full (Some c) lik incl = Ok p -> forall t, (t < m)%nat -> mean_of n x y C m z t c (ent (p_mean p) t 0).
Proof.
  intros T F I Bc HC Hp t Ht. destruct (part_values r n x y s l T F I c m z Bc) as (J & P & C' & HJ & HP & HX & Sy & Ps & SyP & PsP & HI & HC' & HR).
  destruct (HR full) as (mu & v & E & Hmu & _). destruct (HR false) as (mu' & v' & E' & _). unfold predict, gpy_predict, gpy_predict_quantiles in Hp. cbn [default] in Hp. rewrite E, E' in Hp. cbn [bind fst snd map] in Hp. injection Hp as <-.
  cbn [p_mean]. rewrite (array_value _ _ _ _ _ _ Hmu Ht (Nat.lt_0_succ 0)). exists (fun i j => P i (n + j)%nat). split; [exact HX|]. unfold dot, app. apply sum_to_ext. intros i Hi. f_equal. apply sum_to_ext. intros j Hj. f_equal.
  rewrite <- (array_value _ _ _ _ _ _ HC Hi Hj). symmetry. apply (array_value _ _ _ _ _ _ HC' Hi Hj).
Qed.
Theorem parts_add r n x y s l ppf m z q1 q2 qs full lik incl p ps : terms_of (r_kern r) l -> Forall built_kernel l -> inferred r n x y s ->
  predict ppf (Some r) (column m z) (q1 :: q2 :: qs) full None lik incl = Ok p ->
  List.Forall2 (fun c p => predict ppf (Some r) (column m z) (q1 :: q2 :: qs) full (Some c) lik incl = Ok p) l ps ->
  forall t, (t < m)%nat -> ent (p_mean p) t 0 = fold_right Rplus 0 (map (fun p => ent (p_mean p) t 0) ps).
Proof.
  intros T F I Hp Hps t Ht. pose proof I as (_ & _ & _ & C & _ & HC & _). change (predict ppf (Some r) (column m z) (q1 :: q2 :: qs) full (Some (r_kern r)) lik incl = Ok p) in Hp.
  pose proof (part_mean r n x y s l (r_kern r) ppf m z q1 q2 qs full lik incl p C T F I (terms_built _ _ T F) HC Hp t Ht) as Hm.
  apply (mean_unique n x y C m z t Ht (r_kern r)); [exact Hm|]. fold (total (map (fun p => ent (p_mean p) t 0) ps)). apply (means_add n x y C m z t (r_kern r) l T F).
  clear Hm Hp. assert (G : forall c p, In c l -> predict ppf (Some r) (column m z) (q1 :: q2 :: qs) full (Some c) lik incl = Ok p -> mean_of n x y C m z t c (ent (p_mean p) t 0)).
  { intros c p0 Ic Hc. rewrite Forall_forall in F. eapply part_mean; try eassumption; [apply Forall_forall; exact F|apply F, Ic]. }
  clear T F I. revert G. induction Hps as [|c p0 l ps Hc Hps IH]; intros G; cbn [map]; constructor; [apply G; [left; reflexivity|exact Hc]|]. apply IH. intros c' p' I' H'. apply G; [right; exact I'|exact H'].
Qed.

(** ** The leave-one-out score *)
Lemma loo_mean_score r n x y s : inferred r n x y s -> (0 < n)%nat -> LA_LOO r = sum_to n (fun i => ent (gpy_LOO r) i 0) / INR n.
Proof.
  intros (_ & _ & K & C & _ & _ & _ & HV) Hn. unfold LA_LOO, msum. destruct HV as (Hr & Hc & _). change (nr (gpy_LOO r)) with (nr (woodbury_vector r)). change (nc (gpy_LOO r)) with (nc (woodbury_vector r)).
  rewrite Hr, Hc, rsum_sum_to. cbn [INR]. rewrite Rmult_1_r. f_equal. apply sum_to_ext. intros i _. rewrite rsum_sum_to. cbn [sum_to]. ring.
Qed.

(** One observation of 1 at 0, a constant and a white noise kernel of variance 1 and noise 1. *)
Definition two_terms : kernel := add_kernel (bias_kernel 1) (white_kernel 1).
Definition two_reg : regression :=
  {| r_kern := two_terms; r_X := column 1 (fun _ => 0); r_Y := column 1 (fun _ => 1); woodbury_inv := Mat 1 1 (fun _ _ => / 3); woodbury_vector := column 1 (fun _ => / 3); r_noise := 1 |}.
Lemma two_ok : terms_of (r_kern two_reg) [bias_kernel 1; white_kernel 1] /\ Forall built_kernel [bias_kernel 1; white_kernel 1] /\ inferred two_reg 1 (fun _ => 0) (fun _ => 1) 1.
Proof.
  split; [exact (terms_add _ _ _ _ (terms_one _) (terms_one _))|]. split; [constructor; [apply bk_bias; lra|constructor; [apply bk_white; lra|constructor]]|].
  split; [reflexivity|]. split; [lra|]. exists (fun _ _ => 2), (fun _ _ => / 3).
  split; [eapply computes_ext; [apply computes_sum; (eexists; split; [reflexivity|repeat split; intros; reflexivity])|]; intros i j Hi Hj; assert (i = 0%nat) by lia; assert (j = 0%nat) by lia; subst; simpl; lra|].
  split; [repeat split|]. split; [|split; [reflexivity|split; [reflexivity|intros; simpl; lra]]].
  intros i j Hi Hj. assert (i = 0%nat) by lia. assert (j = 0%nat) by lia. subst. unfold delta. simpl. split; lra.
Qed.
