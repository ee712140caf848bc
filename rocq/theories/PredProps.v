(** Properties: predictions and the leave-one-out score. *)
From Coq Require Import Reals List Bool Arith Lra.
From Verif Require Import Py KexModel KernModel KernSpec PredModel PredSpec PredProofs PredBest PredWit PredPart SearchModel SearchSpec.
Import ListNotations.
Local Open Scope R_scope.

(** C41: the covariances computed between two data sets, and within each, are blocks of one covariance matrix. *)
Theorem C41_cross : forall k n x m y, built_kernel k -> exists J,
  computes (kK k (column (n + m) (joined n x y)) None) (n + m) (n + m) J /\ symmetric (n + m) J /\ psd (n + m) J
  /\ computes (kK k (column n x) None) n n J
  /\ computes (kK k (column n x) (Some (column m y))) n m (fun i j => J i (n + j)%nat)
  /\ computes (kK k (column m y) None) m m (fun i j => J (n + i)%nat (n + j)%nat)
  /\ (forall j, (j < m)%nat -> kKdiag k (column m y) j = J (n + j)%nat (n + j)%nat).
Proof. exact built_blocks. Qed.
Print Assumptions C41_cross.
Example C41_cross_example : built_kernel (prod_kernel (lin_kernel 1 0) (change_kernel (ChangePoint 0 1) (white_kernel 1) (rbf_kernel 1 2))).
Proof. repeat constructor; simpl; lra. Qed.

(** C63: predictions of a fitted model return, *)
Theorem C63_total : forall r n x y s, built_kernel (r_kern r) -> inferred r n x y s -> forall ppf m z q1 q2 qs full lik incl,
  exists p, predict ppf (Some r) (column m z) (q1 :: q2 :: qs) full None lik incl = Ok p.
Proof. exact predict_total. Qed.
Print Assumptions C63_total.
(** and the mean is the weighted sum of the observations with the least mean squared error, which is the variance. *)
Theorem C63_best : forall r n x y s, built_kernel (r_kern r) -> inferred r n x y s -> forall ppf m z q1 q2 qs full p,
  predict ppf (Some r) (column m z) (q1 :: q2 :: qs) full None None false = Ok p ->
  exists J, computes (kK (r_kern r) (column (n + m) (joined n x z)) None) (n + m) (n + m) J
  /\ forall t, (t < m)%nat ->
       (exists w, ent (p_mean p) t 0 = sum_to n (fun i => w i * y i) /\ mse n J s t w = variance_at p full t)
       /\ (forall a, variance_at p full t <= mse n J s t a) /\ 0 <= variance_at p full t <= J (n + t)%nat (n + t)%nat.
Proof. exact predict_best. Qed.
Print Assumptions C63_best.
(** The interval's ends are in order, around the mean, symmetrically for symmetric levels. *)
Theorem C63_ordered : forall ppf r n x y s m z q1 q2 qs full lik incl p, built_kernel (r_kern r) -> inferred r n x y s ->
  Phi (ppf (q1 / 100)) = q1 / 100 -> Phi (ppf (q2 / 100)) = q2 / 100 ->
  predict ppf (Some r) (column m z) (q1 :: q2 :: qs) full None lik incl = Ok p -> forall t, (t < m)%nat ->
  (q1 <= q2 -> ent (p_low p) t 0 <= ent (p_high p) t 0)
  /\ (q1 <= 50 -> ent (p_low p) t 0 <= ent (p_mean p) t 0) /\ (50 <= q2 -> ent (p_mean p) t 0 <= ent (p_high p) t 0)
  /\ (q1 + q2 = 100 -> ent (p_mean p) t 0 = (ent (p_low p) t 0 + ent (p_high p) t 0) / 2).
Proof. exact predict_ordered. Qed.
Print Assumptions C63_ordered.
(** They are the requested quantiles of the returned distribution if the noise is included. *)
Theorem C63_quantiles_partial : forall ppf r n x y s m z q1 q2 qs full lik p, built_kernel (r_kern r) -> inferred r n x y s -> 0 < noise_of r lik ->
  Phi (ppf (q1 / 100)) = q1 / 100 -> Phi (ppf (q2 / 100)) = q2 / 100 ->
  predict ppf (Some r) (column m z) (q1 :: q2 :: qs) full None lik true = Ok p -> forall t, (t < m)%nat ->
  normal_cdf (ent (p_mean p) t 0) (variance_at p full t) (ent (p_low p) t 0) = q1 / 100
  /\ normal_cdf (ent (p_mean p) t 0) (variance_at p full t) (ent (p_high p) t 0) = q2 / 100.
Proof. exact predict_quantiles. Qed.
Print Assumptions C63_quantiles_partial.
(** If it is not included, they still are the quantiles with the noise, *)
Theorem C63_quantiles_noise : forall ppf r n x y s m z q1 q2 qs full lik p, built_kernel (r_kern r) -> inferred r n x y s -> 0 < noise_of r lik ->
  Phi (ppf (q1 / 100)) = q1 / 100 -> Phi (ppf (q2 / 100)) = q2 / 100 ->
  predict ppf (Some r) (column m z) (q1 :: q2 :: qs) full None lik false = Ok p -> forall t, (t < m)%nat ->
  normal_cdf (ent (p_mean p) t 0) (variance_at p full t + noise_of r lik) (ent (p_low p) t 0) = q1 / 100
  /\ normal_cdf (ent (p_mean p) t 0) (variance_at p full t + noise_of r lik) (ent (p_high p) t 0) = q2 / 100.
Proof. exact predict_quantiles_noise. Qed.
Print Assumptions C63_quantiles_noise.
(** so that the interval covers too much of the returned distribution. *)
Theorem C63_refuted : exists ppf r n x y s m z q1 q2 p t, built_kernel (r_kern r) /\ inferred r n x y s /\ 0 < noise_of r None
  /\ Phi (ppf (q1 / 100)) = q1 / 100 /\ Phi (ppf (q2 / 100)) = q2 / 100
  /\ predict ppf (Some r) (column m z) [q1; q2] false None None false = Ok p /\ (t < m)%nat
  /\ normal_cdf (ent (p_mean p) t 0) (variance_at p false t) (ent (p_low p) t 0) < q1 / 100
  /\ q2 / 100 < normal_cdf (ent (p_mean p) t 0) (variance_at p false t) (ent (p_high p) t 0).
Proof. exact quantiles_refuted. Qed.
Print Assumptions C63_refuted.
Example C63_example : built_kernel (r_kern const_reg) /\ inferred const_reg 1 (fun _ => 0) (fun _ => 1) 1 /\ 0 < noise_of const_reg None
  /\ Phi (some_ppf (100 * Phi (-1) / 100)) = 100 * Phi (-1) / 100 /\ Phi (some_ppf (100 * Phi 1 / 100)) = 100 * Phi 1 / 100.
Proof. split; [apply const_inferred|]. split; [apply const_inferred|]. split; [unfold noise_of; simpl; lra|]. exact some_ppf_ok. Qed.

(** C80: with a term of the model's kernel, predictions return, *)
Theorem C80_total : forall r n x y s l, terms_of (r_kern r) l -> Forall built_kernel l -> inferred r n x y s -> forall c ppf m z q1 q2 qs full lik incl, In c l ->
  exists p, predict ppf (Some r) (column m z) (q1 :: q2 :: qs) full (Some c) lik incl = Ok p.
Proof. exact part_total. Qed.
Print Assumptions C80_total.
(** and the mean is the weighted sum of the observations that predicts this term with the least mean squared error, which is the variance. *)
Theorem C80_best : forall r n x y s l, terms_of (r_kern r) l -> Forall built_kernel l -> inferred r n x y s -> forall c ppf m z q1 q2 qs full p, In c l ->
  predict ppf (Some r) (column m z) (q1 :: q2 :: qs) full (Some c) None false = Ok p ->
  exists J P, computes (kK (r_kern r) (column (n + m) (joined n x z)) None) (n + m) (n + m) J /\ computes (kK c (column (n + m) (joined n x z)) None) (n + m) (n + m) P
  /\ forall t, (t < m)%nat ->
       (exists w, ent (p_mean p) t 0 = sum_to n (fun i => w i * y i) /\ part_mse n P J s t w = variance_at p full t)
       /\ (forall a, variance_at p full t <= part_mse n P J s t a) /\ 0 <= variance_at p full t <= P (n + t)%nat (n + t)%nat.
Proof. exact part_best. Qed.
Print Assumptions C80_best.
(** The interval's ends are the requested quantiles of the returned distribution if the noise is included. *)
Theorem C80_quantiles : forall ppf r n x y s l c m z q1 q2 qs full lik p, terms_of (r_kern r) l -> Forall built_kernel l -> inferred r n x y s -> In c l -> 0 < noise_of r lik ->
  Phi (ppf (q1 / 100)) = q1 / 100 -> Phi (ppf (q2 / 100)) = q2 / 100 ->
  predict ppf (Some r) (column m z) (q1 :: q2 :: qs) full (Some c) lik true = Ok p -> forall t, (t < m)%nat ->
  normal_cdf (ent (p_mean p) t 0) (variance_at p full t) (ent (p_low p) t 0) = q1 / 100
  /\ normal_cdf (ent (p_mean p) t 0) (variance_at p full t) (ent (p_high p) t 0) = q2 / 100.
Proof. exact part_quantiles. Qed.
Print Assumptions C80_quantiles.
(** The means of the terms add up to that of the model. *)
Theorem C80_additive : forall r n x y s l ppf m z q1 q2 qs full lik incl p ps, terms_of (r_kern r) l -> Forall built_kernel l -> inferred r n x y s ->
  predict ppf (Some r) (column m z) (q1 :: q2 :: qs) full None lik incl = Ok p ->
  Forall2 (fun c p => predict ppf (Some r) (column m z) (q1 :: q2 :: qs) full (Some c) lik incl = Ok p) l ps ->
  forall t, (t < m)%nat -> ent (p_mean p) t 0 = fold_right Rplus 0 (map (fun p => ent (p_mean p) t 0) ps).
Proof. exact parts_add. Qed.
Print Assumptions C80_additive.
Example C80_example : terms_of (r_kern two_reg) [bias_kernel 1; white_kernel 1] /\ Forall built_kernel [bias_kernel 1; white_kernel 1] /\ inferred two_reg 1 (fun _ => 0) (fun _ => 1) 1.
Proof. exact two_ok. Qed.

(** C43: each entry of the leave-one-out score is the log density of an observation under its best prediction from the others, *)
Theorem C43_LOO : forall r n x y s, built_kernel (r_kern r) -> inferred r n x y s -> 0 < s ->
  exists K, computes (kK (r_kern r) (column n x) None) n n K /\ forall i, (i < n)%nat ->
    let error := observation_mse n (fun j k => K j k + s * delta j k) i in
    exists w, w i = 0 /\ (forall a, a i = 0 -> error w <= error a) /\ ent (gpy_LOO r) i 0 = ln (normal_density (sum_to n (fun j => w j * y j)) (error w) (y i)).
Proof. exact loo_score. Qed.
Print Assumptions C43_LOO.
(** the score is the mean of these, *)
Theorem C43_LOO_mean : forall r n x y s, inferred r n x y s -> (0 < n)%nat -> LA_LOO r = sum_to n (fun i => ent (gpy_LOO r) i 0) / INR n.
Proof. exact loo_mean_score. Qed.
Print Assumptions C43_LOO_mean.
(** so searches with this utility put a model that predicts every observation worse before the better one. *)
Theorem C43_LOO_refuted : exists (a b : gp regression) n x y sa sb,
  built_kernel (r_kern (gdata a)) /\ inferred (gdata a) n x y sa /\ built_kernel (r_kern (gdata b)) /\ inferred (gdata b) n x y sb
  /\ (forall i, (i < n)%nat -> ent (gpy_LOO (gdata b)) i 0 < ent (gpy_LOO (gdata a)) i 0)
  /\ forall W (w : W * (nat -> option R)) w' l, sorted_by_score Rleb (fun m => Ok (LA_LOO (gdata m))) [a; b] w = (w', Ok l) -> l = [b; a].
Proof. exact loo_refuted. Qed.
Print Assumptions C43_LOO_refuted.
Example C43_LOO_example : built_kernel (r_kern (white_reg 1 2)) /\ inferred (white_reg 1 2) 2 INR (fun _ => 10) 2.
Proof. apply white_inferred; lra. Qed.
