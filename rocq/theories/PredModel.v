(** Model of GPModel.predict (Models/model.py) and of the LA_LOO score (Util/modelUtil.py). *)
From Coq Require Import Reals List Bool Arith.
From Verif Require Import Py KernModel.
Import ListNotations.
Local Open Scope R_scope.

(** ** GPy's regression object.  Not in /repo: GPy's documented formulas for exact Gaussian inference (GPy 1.9: core/gp.py, posterior.py,
    likelihoods/gaussian.py, exact_gaussian_inference.py), part of the trusted base. *)
Record regression : Type := {
  r_kern : kernel;
  r_X : mat;
  r_Y : mat;
  woodbury_inv : mat;       (* inverse of K(X) + noise *)
  woodbury_vector : mat;    (* woodbury_inv Y *)
  r_noise : R               (* Gaussian_noise.variance *)
}.
(** posterior._raw_predict(kern, Xnew, pred_var = X, full_cov) *)
Definition raw_predict (r : regression) (k : kernel) (Z : mat) (full_cov : bool) : res (mat * mat) :=
  do Kx <- kK k (r_X r) (Some Z);
  do mu <- mdot (mT Kx) (woodbury_vector r);
  if full_cov then
    do Kxx <- kK k Z None; do t <- mdot (woodbury_inv r) Kx; do s <- mdot (mT Kx) t; do v <- msub Kxx s; Ok (mu, v)
  else
    do t <- mdot (mT (woodbury_inv r)) Kx; do p <- mmul t Kx;
    Ok (mu, column (nr Z) (fun j => kKdiag k Z j - rsum (nr p) (fun i => ent p i j))).
Definition default {A : Type} (d : A) (o : option A) : A := match o with Some a => a | None => d end.
(** likelihood.predictive_values: the noise variance is added to the variances *)
Definition add_noise (noise : R) (full_cov : bool) (v : mat) : mat :=
  Mat (nr v) (nc v) (fun i j => if (negb full_cov || Nat.eqb i j)%bool then ent v i j + noise else ent v i j).
(** GP.predict(Xnew, full_cov, Y_metadata, kern, likelihood, include_likelihood); a likelihood is its noise variance *)
Definition gpy_predict (r : regression) (Z : mat) (full_cov : bool) (kern : option kernel) (likelihood : option R) (include_likelihood : bool) : res (mat * mat) :=
  do mv <- raw_predict r (default (r_kern r) kern) Z full_cov;
  Ok (fst mv, if include_likelihood then add_noise (default (r_noise r) likelihood) full_cov (snd mv) else snd mv).
(** GP.predict_quantiles(X, quantiles, Y_metadata, kern, likelihood); [ppf] is scipy's norm.ppf *)
Definition gpy_predict_quantiles (ppf : R -> R) (r : regression) (Z : mat) (quantiles : list R) (kern : option kernel) (likelihood : option R) : res (list mat) :=
  do mv <- raw_predict r (default (r_kern r) kern) Z false;
  Ok (map (fun q => Mat (nr (fst mv)) (nc (fst mv))
                      (fun i j => ppf (q / 100) * sqrt (ent (snd mv) i j + default (r_noise r) likelihood) + ent (fst mv) i j)) quantiles).
(** exact_gaussian_inference.LOO: the log density of each point under the prediction from the others, as a column *)
Definition gpy_LOO (r : regression) : mat :=
  let g := woodbury_vector r in let c i := ent (woodbury_inv r) i i in
  Mat (nr g) (nc g) (fun i j => - (/ 2 * ln (2 * PI) - / 2 * ln (c i) + / 2 * (ent g i j ^ 2 / c i))).

(** ** /repo *)
Record prediction : Type := { p_mean : mat; p_covariance : mat; p_low : mat; p_high : mat }.
(** model.py:50-53 [predict]; the attribute model is None before the first fit *)
Definition predict (ppf : R -> R) (model : option regression) (Z : mat) (quantiles : list R) (full_cov : bool) (kern : option kernel)
    (likelihood : option R) (include_likelihood : bool) : res prediction :=
  match model with
  | None => Raise EAttributeError
  | Some r =>
      do mc <- gpy_predict r Z full_cov kern likelihood include_likelihood;
      do qs <- gpy_predict_quantiles ppf r Z quantiles kern likelihood;
      match qs with
      | low :: high :: _ => Ok {| p_mean := fst mc; p_covariance := snd mc; p_low := low; p_high := high |}
      | _ => Raise EIndexError
      end
  end.
(** modelUtil.py:15 [LA_LOO]: np.mean of LOO *)
Definition LA_LOO (r : regression) : R := let l := gpy_LOO r in msum l / (INR (nr l) * INR (nc l)).
