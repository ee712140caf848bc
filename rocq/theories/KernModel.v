(** Model of GPy_ABCD/Kernels/{sigmoidalKernels,linearKernel,linearOffsetKernel,periodicKernel,changeOperators}.py over the real numbers
    (no rounding, overflow or NaN), for one-dimensional inputs (all kernels are built with input_dim = 1).

    numpy arrays of two dimensions are [mat]; elementwise operations broadcast and raise ValueError on incompatible shapes. *)
From Coq Require Import Reals List Bool Arith.
From Verif Require Import Py.
Import ListNotations.
Local Open Scope R_scope.

(** ** numpy *)
Record mat : Type := Mat { nr : nat; nc : nat; ent : nat -> nat -> R }.

(** Broadcasting of one dimension: equal sizes, or one of them 1. *)
Definition bc (a b : nat) : option nat :=
  if Nat.eqb a b then Some a else if Nat.eqb a 1 then Some b else if Nat.eqb b 1 then Some a else None.
Definition ix (n i : nat) : nat := if Nat.eqb n 1 then 0%nat else i.
Definition elementwise (f : R -> R -> R) (A B : mat) : res mat :=
  match bc (nr A) (nr B), bc (nc A) (nc B) with
  | Some r, Some c => Ok (Mat r c (fun i j => f (ent A (ix (nr A) i) (ix (nc A) j)) (ent B (ix (nr B) i) (ix (nc B) j))))
  | _, _ => Raise EValueError
  end.
Definition mmul := elementwise Rmult.
Definition madd := elementwise Rplus.
Definition msub := elementwise Rminus.
(** An array operation with scalars. *)
Definition mmap (f : R -> R) (A : mat) : mat := Mat (nr A) (nc A) (fun i j => f (ent A i j)).
Definition mT (A : mat) : mat := Mat (nc A) (nr A) (fun i j => ent A j i).
Fixpoint rsum (n : nat) (f : nat -> R) : R := match n with O => 0 | S m => rsum m f + f m end.
Definition msum (A : mat) : R := rsum (nr A) (fun i => rsum (nc A) (fun j => ent A i j)).
Definition mdot (A B : mat) : res mat :=
  if Nat.eqb (nc A) (nr B) then Ok (Mat (nr A) (nc B) (fun i j => rsum (nc A) (fun k => ent A i k * ent B k j))) else Raise EValueError.
(** A column of inputs. *)
Definition column (n : nat) (x : nat -> R) : mat := Mat n 1 (fun i _ => x i).

(** ** Sigmoids *)
(** sigmoidalKernels.py:12-13 *)
Definition sigmoid_function (arg : R) : R := (1 + arg / (1 + Rabs arg)) / 2.
(** sigmoidalKernels.py:14-15 *)
Definition sigmoid_function_d (arg : R) : R := 0.5 / (1 + Rabs arg) ^ 2.
(** sigmoidalKernels.py:26-27 *)
Definition core_sigmoid_function (arg : R) : R := arg / (1 + Rabs arg).
(** sigmoidalKernels.py:32-33 *)
Definition inv_core_sigmoid_d (arg : R) : R := - 1 / arg ^ 2.

(** sigmoidalKernels.py:101-104 [_phi_S], at one input *)
Definition phi_S (location slope : R) (reverse : bool) (x : R) : R :=
  let asc := sigmoid_function ((x - location) / slope) in
  if reverse then 1 - asc else asc.

(** sigmoidalKernels.py:173-179 [_phi_SI], at one input *)
Definition phi_SI (location slope width : R) (reverse : bool) (x : R) : R :=
  let asc := sigmoid_function ((x - location) / slope) in
  let desc := sigmoid_function ((x - location - width) / (- slope)) in
  let height := core_sigmoid_function (width / (2 * slope)) in
  let hat := (asc + desc - 1) / height in
  if reverse then 1 - hat else hat.

(** GPy's BasisFuncKernel.K and Kdiag (external): variance * phi(X) . phi(X2)^T, variance * phi(X)^2. *)
Definition basis_K (variance : R) (phi : R -> R) (X X2 : mat) : res mat :=
  do P <- mdot (mmap phi X) (mT (mmap phi X2)); Ok (mmap (Rmult variance) P).
Definition basis_Kdiag (variance : R) (phi : R -> R) (X : mat) : nat -> R := fun i => variance * phi (ent X i 0%nat) ^ 2.

(** sigmoidalKernels.py:106-121 [_update_gradients_full_S_1]: the location and slope gradients.  The slope gradient is discarded if the
    slope is fixed; it is computed here in any case. *)
Definition update_gradients_full_S_1 (variance location slope : R) (phi1 dL_dK X : mat) : res (R * R) :=
  let arg := mmap (fun x => (x - location) / slope) X in
  let sig_d := mmap sigmoid_function_d arg in
  let dphi1_dl := mmap (fun d => d / (- slope)) sig_d in
  do P <- mdot phi1 (mT dphi1_dl); do M <- mmul dL_dK P;
  let location_gradient := variance * 2 * msum M in
  do dphi1_ds <- mmul sig_d (mmap (fun a => - a / slope) arg);
  do P' <- mdot phi1 (mT dphi1_ds); do M' <- mmul dL_dK P';
  let slope_gradient := variance * 2 * msum M' in
  Ok (location_gradient, slope_gradient).

(** sigmoidalKernels.py:123-139 [_update_gradients_full_S_2] *)
Definition update_gradients_full_S_2 (variance location slope : R) (phi1 phi2 dL_dK X X2 : mat) : res (R * R) :=
  let arg := mmap (fun x => (x - location) / slope) X in
  let arg2 := mmap (fun x => (x - location) / slope) X2 in
  let sig_d := mmap sigmoid_function_d arg in
  let sig_d2 := mmap sigmoid_function_d arg2 in
  let dphi1_dl := mmap (fun d => d / (- slope)) sig_d in
  let dphi2_dl := mmap (fun d => d / (- slope)) sig_d2 in
  do P1 <- mdot phi1 (mT dphi2_dl); do P2 <- mdot phi2 (mT dphi1_dl); do P <- madd P1 P2; do M <- mmul dL_dK P;
  let location_gradient := variance * msum M in
  do dphi1_ds <- mmul sig_d (mmap (fun a => - a / slope) arg);
  do dphi2_ds <- mmul sig_d2 (mmap (fun a => - a / slope) arg2);
  do P1' <- mdot phi1 (mT dphi2_ds); do P2' <- mdot phi2 (mT dphi1_ds); do P' <- madd P1' P2'; do M' <- mmul dL_dK P';
  let slope_gradient := variance * msum M' in
  Ok (location_gradient, slope_gradient).

(** sigmoidalKernels.py:80-99 [SigmoidalKernel.update_gradients_full]: location and slope (the variance is GPy's); [None] for X2 stands
    for None and for X itself. *)
Definition S_update_gradients_full (variance location slope : R) (reverse : bool) (dL_dK X : mat) (X2 : option mat) : res (R * R) :=
  let phi1 := mmap (phi_S location slope reverse) X in
  do g <- (match X2 with
           | None => update_gradients_full_S_1 variance location slope phi1 dL_dK X
           | Some X2 => update_gradients_full_S_2 variance location slope phi1 (mmap (phi_S location slope reverse) X2) dL_dK X X2
           end);
  if reverse then Ok (- fst g, - snd g) else Ok g.

(** sigmoidalKernels.py:181-230 [_update_gradients_full_SI]: location, slope, width *)
Definition update_gradients_full_SI (variance location slope width : R) (reverse : bool) (phi1 phi2 dL_dK X X2 : mat) : res (R * R * R) :=
  let arg := mmap (fun x => (x - location) / slope) X in
  let arg2 := mmap (fun x => (x - location) / slope) X2 in
  let argW := mmap (fun x => (x - location - width) / (- slope)) X in
  let argW2 := mmap (fun x => (x - location - width) / (- slope)) X2 in
  let sig_d := mmap sigmoid_function_d arg in
  let sig_d2 := mmap sigmoid_function_d arg2 in
  let sig_dW := mmap sigmoid_function_d argW in
  let sig_dW2 := mmap sigmoid_function_d argW2 in
  do n1 <- madd (mmap sigmoid_function arg) (mmap sigmoid_function argW);
  let numerator1 := mmap (fun a => a - 1) n1 in
  do n2 <- madd (mmap sigmoid_function arg2) (mmap sigmoid_function argW2);
  let numerator2 := mmap (fun a => a - 1) n2 in
  let height_arg := width / (2 * slope) in
  let inv_height := 1 / core_sigmoid_function height_arg in
  let inv_height_d := inv_core_sigmoid_d height_arg in
  let dinvheight_dw := inv_height_d / (2 * slope) in
  let dinvheight_ds := inv_height_d * (- height_arg / slope) in
  do d1 <- madd (mmap Ropp sig_d) sig_dW;
  let dphi1_dl := mmap (fun a => (a / slope) * inv_height) d1 in
  do d2 <- madd (mmap Ropp sig_d2) sig_dW2;
  let dphi2_dl := mmap (fun a => (a / slope) * inv_height) d2 in
  do P1 <- mdot phi1 (mT dphi2_dl); do P2 <- mdot phi2 (mT dphi1_dl); do P <- madd P1 P2; do M <- mmul dL_dK P;
  let location_gradient := variance * msum M in
  do s1 <- mmul sig_d arg; do s1W <- mmul sig_dW argW; do s1T <- madd s1 s1W;
  do dphi1_ds <- madd (mmap (fun a => (a / (- slope)) * inv_height) s1T) (mmap (fun a => a * dinvheight_ds) numerator1);
  do s2 <- mmul sig_d2 arg2; do s2W <- mmul sig_dW2 argW2; do s2T <- madd s2 s2W;
  do dphi2_ds <- madd (mmap (fun a => (a / (- slope)) * inv_height) s2T) (mmap (fun a => a * dinvheight_ds) numerator2);
  do Q1 <- mdot phi1 (mT dphi2_ds); do Q2 <- mdot phi2 (mT dphi1_ds); do Q <- madd Q1 Q2; do MQ <- mmul dL_dK Q;
  let slope_gradient := variance * msum MQ in
  do dphi1_dw <- madd (mmap (fun a => (a / slope) * inv_height) sig_dW) (mmap (fun a => a * dinvheight_dw) numerator1);
  do dphi2_dw <- madd (mmap (fun a => (a / slope) * inv_height) sig_dW2) (mmap (fun a => a * dinvheight_dw) numerator2);
  do T1 <- mdot phi1 (mT dphi2_dw); do T2 <- mdot phi2 (mT dphi1_dw); do T <- madd T1 T2; do MT <- mmul dL_dK T;
  let width_gradient := variance * msum MT in
  if reverse then Ok (- location_gradient, - slope_gradient, - width_gradient)
  else Ok (location_gradient, slope_gradient, width_gradient).

(** sigmoidalKernels.py:158-171 [SigmoidalIndicatorKernel.update_gradients_full] *)
Definition SI_update_gradients_full (variance location slope width : R) (reverse : bool) (dL_dK X : mat) (X2 : option mat) : res (R * R * R) :=
  let X2 := match X2 with None => X | Some X2 => X2 end in
  let phi1 := mmap (phi_SI location slope width reverse) X in
  let phi2 := mmap (phi_SI location slope width reverse) X2 in
  update_gradients_full_SI variance location slope width reverse phi1 phi2 dL_dK X X2.

(** ** Linear kernels *)
Definition or_self (X : mat) (X2 : option mat) : mat := match X2 with None => X | Some X2 => X2 end.

(** linearOffsetKernel.py:57-60 [LinearWithOffset.K] *)
Definition lin_K (variance offset : R) (X : mat) (X2 : option mat) : res mat :=
  mmul (mmap (fun x => variance * (x - offset)) X) (mT (mmap (fun x => x - offset) (or_self X X2))).
(** linearOffsetKernel.py:63-65, 86-88 [Kdiag] *)
Definition lin_Kdiag (variance offset : R) (X : mat) : nat -> R := fun i => rsum (nc X) (fun j => variance * (ent X i j - offset) ^ 2).
(** linearOffsetKernel.py:67-73 [update_gradients_full]: variance and offset *)
Definition lin_update_gradients_full (variance offset : R) (dL_dK X : mat) (X2 : option mat) : res (R * R) :=
  let X2 := or_self X X2 in
  do dK_dV <- mmul (mmap (fun x => x - offset) X) (mT (mmap (fun x => x - offset) X2));
  do D <- msub (mmap (fun x => 2 * offset - x) X) X2;
  let dK_do := mmap (Rmult variance) D in
  do GV <- mmul dL_dK dK_dV; do GO <- mmul dL_dK dK_do;
  Ok (msum GV, msum GO).

(** linearKernel.py:68-84 [Linear.K] without ARD; tdot(X) = X . X^T *)
Definition lin0_K (variance : R) (X : mat) (X2 : option mat) : res mat :=
  do P <- mdot X (mT (or_self X X2)); Ok (mmap (fun p => p * variance) P).
(** linearKernel.py:86-87 [Linear.Kdiag] *)
Definition lin0_Kdiag (variance : R) (X : mat) : nat -> R := fun i => rsum (nc X) (fun j => variance * ent X i j ^ 2).
(** linearKernel.py:89-100 [Linear.update_gradients_full] without ARD *)
Definition lin0_update_gradients_full (dL_dK X : mat) (X2 : option mat) : res R :=
  do dL <- (match X2 with None => do s <- madd dL_dK (mT dL_dK); Ok (mmap (fun a => a / 2) s) | Some _ => Ok dL_dK end);
  do P <- mdot X (mT (or_self X X2)); do M <- mmul P dL; Ok (msum M).
(** linearKernel.py:102-107 [Linear.update_gradients_diag] without ARD *)
Definition lin0_update_gradients_diag (dL_dKdiag : nat -> R) (X : mat) : res R :=
  do tmp <- mmul (column (nr X) dL_dKdiag) (mmap (fun x => x ^ 2) X); Ok (msum tmp).

(** ** Periodic kernel *)
(** periodicKernel.py:12-16 [_embi0] *)
Definition embi0 (x : R) : R :=
  let y := 3.75 / x in
  let f := 0.39894228 + (0.01328592 + (0.00225319 + (- 0.00157565 + (0.00916281 + (- 0.02057706 + (0.02635537 + (- 0.01647633 + 0.00392377 * y) * y) * y) * y) * y) * y) * y) * y in
  f / sqrt x.
(** periodicKernel.py:17-21 [_embi1] *)
Definition embi1 (x : R) : R :=
  let y := 3.75 / x in
  let f := 0.39894228 + (- 0.03988024 + (- 0.00362018 + (0.00163801 + (- 0.01031555 + (0.02282967 + (- 0.02895312 + (0.01787654 + - 0.00420059 * y) * y) * y) * y) * y) * y) * y) * y in
  f / sqrt x.
(** periodicKernel.py:22-26 [_embi0min1] *)
Definition embi0min1 (x : R) : R :=
  let y := 3.75 / x in
  let f := (0.05316616 + (0.00587337 + (- 0.00321366 + (0.01947836 + (- 0.04340673 + (0.05530849 + (- 0.03435287 + 0.00812436 * y) * y) * y) * y) * y) * y) * y) * y in
  f / sqrt x.

Definition Rltb (a b : R) : bool := if Rlt_dec a b then true else false.

Section Periodic.
  (** scipy.special's i0 and i1 (external). *)
  Context (i0 i1 : R -> R).

  (** periodicKernel.py:94-109 [PureStdPeriodicKernel.K], as a function of one entry of X - X2.T *)
  Definition per_entry (variance period lengthscale d : R) : R :=
    let cos_term := cos ((2 * PI / period) * d) in
    let invL2 := 1 / lengthscale ^ 2 in
    if Rltb 10000 lengthscale then variance * cos_term
    else if Rltb invL2 3.75 then
      let exp_term := exp (cos_term * invL2) in
      let bessel0 := i0 invL2 in
      variance * ((exp_term - bessel0) / (exp invL2 - bessel0))
    else
      let exp_term := exp ((cos_term - 1) * invL2) in
      let embi0 := embi0 invL2 in
      variance * ((exp_term - embi0) / (1 - embi0)).
  Definition per_K (variance period lengthscale : R) (X : mat) (X2 : option mat) : res mat :=
    do D <- msub X (mT (or_self X X2)); Ok (mmap (per_entry variance period lengthscale) D).
  (** periodicKernel.py:114-117 [Kdiag] *)
  Definition per_Kdiag (variance : R) (X : mat) : nat -> R := fun _ => variance.

  (** periodicKernel.py:119-166: the entries of dK_dV, dK_dp and dK_dl for one entry of X - X2.T *)
  Definition per_dK (variance period lengthscale d : R) : R * R * R :=
    let trig_arg := (2 * PI / period) * d in
    let cos_term := cos trig_arg in
    let sin_term := sin trig_arg in
    let invL2 := 1 / lengthscale ^ 2 in
    if Rltb 10000 lengthscale then
      (cos_term, (variance / period) * trig_arg * sin_term, 0.0001 / lengthscale)
    else if Rltb invL2 3.75 then
      let bessel0 := i0 invL2 in
      let bessel1 := i1 invL2 in
      let eInvL2 := exp invL2 in
      let dInvL2_dl := - 2 * invL2 / lengthscale in
      let denom := eInvL2 - bessel0 in
      let exp_term := exp (cos_term * invL2) in
      let K_no_Var := (exp_term - bessel0) / denom in
      (K_no_Var, (variance / period) * invL2 * trig_arg * sin_term * exp_term / denom,
       dInvL2_dl * variance * ((cos_term * exp_term - bessel1) - K_no_Var * (eInvL2 - bessel1)) / denom)
    else
      let embi0 := embi0 invL2 in
      let embi0min1 := embi0min1 invL2 in
      let dInvL2_dl := - 2 * invL2 / lengthscale in
      let denom := 1 - embi0 in
      let exp_term := exp ((cos_term - 1) * invL2) in
      let K_no_Var := (exp_term - embi0) / denom in
      (K_no_Var, (variance / period) * invL2 * trig_arg * sin_term * exp_term / denom,
       dInvL2_dl * variance * ((cos_term - 1) * exp_term + embi0min1 - K_no_Var * embi0min1) / denom).
  (** periodicKernel.py:119-170 [update_gradients_full]: variance, period, lengthscale *)
  Definition per_update_gradients_full (variance period lengthscale : R) (dL_dK X : mat) (X2 : option mat) : res (R * R * R) :=
    do D <- msub X (mT (or_self X X2));
    let part f := do M <- mmul dL_dK (mmap (fun d => f (per_dK variance period lengthscale d)) D); Ok (msum M) in
    do gv <- part (fun t => fst (fst t)); do gp <- part (fun t => snd (fst t)); do gl <- part snd;
    Ok (gv, gp, gl).
End Periodic.

(** ** Change kernels *)
(** What a change kernel uses of a sub-kernel: its covariance, its diagonal and its gradients (one value per parameter). *)
Record kernel : Type := {
  kK : mat -> option mat -> res mat;
  kKdiag : mat -> nat -> R;
  kgrad : mat -> mat -> option mat -> res (list R)
}.

(** Its sigmoids (changeOperators.py:27-37, with variance 1), for a change point and a change window. *)
Inductive change : Type := ChangePoint (location slope : R) | ChangeWindow (location slope width : R).
Definition change_phi (c : change) (reverse : bool) : R -> R :=
  match c with ChangePoint l s => phi_S l s reverse | ChangeWindow l s w => phi_SI l s w reverse end.
Definition sig_K (c : change) (reverse : bool) (X : mat) (X2 : option mat) : res mat := basis_K 1 (change_phi c reverse) X (or_self X X2).
(** The gradients of the location, slope and (for a window) width of sigmoidal.update_gradients_full *)
Definition sig_grad (c : change) (reverse : bool) (dL_dK X : mat) (X2 : option mat) : res (list R) :=
  match c with
  | ChangePoint l s => do g <- S_update_gradients_full 1 l s reverse dL_dK X X2; Ok [fst g; snd g]
  | ChangeWindow l s w => do g <- SI_update_gradients_full 1 l s w reverse dL_dK X X2; Ok [fst (fst g); snd (fst g); snd g]
  end.

(** changeOperators.py:53-55 [ChangeKernelBase.K] *)
Definition change_K (c : change) (first second : kernel) (X : mat) (X2 : option mat) : res mat :=
  do f <- kK first X X2; do sr <- sig_K c true X X2; do a <- mmul f sr;
  do s <- kK second X X2; do sg <- sig_K c false X X2; do b <- mmul s sg;
  madd a b.
(** changeOperators.py:57-59 [Kdiag] *)
Definition change_Kdiag (c : change) (first second : kernel) (X : mat) : nat -> R := fun i =>
  kKdiag first X i * basis_Kdiag 1 (change_phi c true) X i + kKdiag second X i * basis_Kdiag 1 (change_phi c false) X i.
(** changeOperators.py:64-72, 116-118 [update_gradients_full]: gradients of first, of second, and of location, slope, width *)
Definition change_update_gradients_full (c : change) (first second : kernel) (dL_dK X : mat) (X2 : option mat) : res (list R * list R * list R) :=
  do sg <- sig_K c false X X2; do d2 <- mmul dL_dK sg; do g2 <- kgrad second d2 X X2;
  do k2 <- kK second X X2; do ds <- mmul dL_dK k2; do gs <- sig_grad c false ds X X2;
  do sr <- sig_K c true X X2; do d1 <- mmul dL_dK sr; do g1 <- kgrad first d1 X X2;
  Ok (g1, g2, gs).

(** ** The kernel classes as one interface: K, Kdiag and the gradients in the order of the parameters listed *)
Definition lin_kernel (variance offset : R) : kernel :=
  {| kK := lin_K variance offset; kKdiag := lin_Kdiag variance offset;
     kgrad := fun dL X X2 => do g <- lin_update_gradients_full variance offset dL X X2; Ok [fst g; snd g] |}.
Definition lin0_kernel (variance : R) : kernel :=
  {| kK := lin0_K variance; kKdiag := lin0_Kdiag variance;
     kgrad := fun dL X X2 => do g <- lin0_update_gradients_full dL X X2; Ok [g] |}.
Definition S_kernel (variance location slope : R) (reverse : bool) : kernel :=
  {| kK := fun X X2 => basis_K variance (phi_S location slope reverse) X (or_self X X2);
     kKdiag := basis_Kdiag variance (phi_S location slope reverse);
     kgrad := fun dL X X2 => do g <- S_update_gradients_full variance location slope reverse dL X X2; Ok [fst g; snd g] |}.
Definition SI_kernel (variance location slope width : R) (reverse : bool) : kernel :=
  {| kK := fun X X2 => basis_K variance (phi_SI location slope width reverse) X (or_self X X2);
     kKdiag := basis_Kdiag variance (phi_SI location slope width reverse);
     kgrad := fun dL X X2 => do g <- SI_update_gradients_full variance location slope width reverse dL X X2; Ok [fst (fst g); snd (fst g); snd g] |}.
Definition per_kernel (i0 i1 : R -> R) (variance period lengthscale : R) : kernel :=
  {| kK := per_K i0 variance period lengthscale; kKdiag := per_Kdiag variance;
     kgrad := fun dL X X2 => do g <- per_update_gradients_full i0 i1 variance period lengthscale dL X X2; Ok [fst (fst g); snd (fst g); snd g] |}.
Definition change_kernel (c : change) (first second : kernel) : kernel :=
  {| kK := change_K c first second; kKdiag := change_Kdiag c first second;
     kgrad := fun dL X X2 => do g <- change_update_gradients_full c first second dL X X2; Ok (fst (fst g) ++ snd (fst g) ++ snd g) |}.

(** ** GPy's own kernels and combinations that the repository uses.  They are not in /repo: these are their documented formulas (GPy 1.9:
    static.White, static.Bias, rbf.RBF, add.Add, prod.Prod) and are part of the trusted base. *)
Definition white_kernel (variance : R) : kernel :=
  {| kK := fun X X2 => match X2 with
             | None => Ok (Mat (nr X) (nr X) (fun i j => if Nat.eqb i j then variance else 0))
             | Some X2 => Ok (Mat (nr X) (nr X2) (fun _ _ => 0)) end;
     kKdiag := fun _ _ => variance;
     kgrad := fun dL X X2 => match X2 with None => Ok [rsum (nr X) (fun i => ent dL i i)] | Some _ => Ok [0] end |}.
Definition bias_kernel (variance : R) : kernel :=
  {| kK := fun X X2 => Ok (Mat (nr X) (nr (or_self X X2)) (fun _ _ => variance)); kKdiag := fun _ _ => variance;
     kgrad := fun dL X X2 => Ok [msum dL] |}.
Definition rbf_entry (variance lengthscale d : R) : R := variance * exp (- d ^ 2 / (2 * lengthscale ^ 2)).
Definition rbf_kernel (variance lengthscale : R) : kernel :=
  {| kK := fun X X2 => do D <- msub X (mT (or_self X X2)); Ok (mmap (rbf_entry variance lengthscale) D); kKdiag := fun _ _ => variance;
     kgrad := fun dL X X2 =>
       do D <- msub X (mT (or_self X X2));
       do V <- mmul dL (mmap (fun d => exp (- d ^ 2 / (2 * lengthscale ^ 2))) D);
       do L <- mmul dL (mmap (fun d => rbf_entry variance lengthscale d * (d ^ 2 / lengthscale ^ 3)) D);
       Ok [msum V; msum L] |}.
Definition add_kernel (first second : kernel) : kernel :=
  {| kK := fun X X2 => do a <- kK first X X2; do b <- kK second X X2; madd a b;
     kKdiag := fun X i => kKdiag first X i + kKdiag second X i;
     kgrad := fun dL X X2 => do g1 <- kgrad first dL X X2; do g2 <- kgrad second dL X X2; Ok (g1 ++ g2) |}.
Definition prod_kernel (first second : kernel) : kernel :=
  {| kK := fun X X2 => do a <- kK first X X2; do b <- kK second X X2; mmul a b;
     kKdiag := fun X i => kKdiag first X i * kKdiag second X i;
     kgrad := fun dL X X2 =>
       do a <- kK first X X2; do b <- kK second X X2; do d1 <- mmul dL b; do d2 <- mmul dL a;
       do g1 <- kgrad first d1 X X2; do g2 <- kgrad second d2 X X2; Ok (g1 ++ g2) |}.
