(** C70-C71: the linear kernel in several dimensions. *)
From Coq Require Import Reals List Bool Arith Lra Lia.
From Verif Require Import Py KernModel KernSpec LinModel LinSpec LinProofs LinGrad LinXX.
Import ListNotations.
Local Open Scope R_scope.

(** The constructor refuses a number of variances other than one, or with ARD than one per dimension. *)
Theorem C70_rejects : forall dim (ARD : bool) v, length v <> (if ARD then dim else 1%nat) -> new_linear dim ARD (Some v) = Raise EAssertionError.
Proof. exact linear_rejects. Qed.
Print Assumptions C70_rejects.

Theorem C70_covariance : forall dim ARD variance k, new_linear dim ARD variance = Ok k -> (forall v, In v (l_variance k) -> 0 <= v) ->
  exists v, (forall d, (d < dim)%nat -> variance_of k d (v d)) /\
  forall n x, let K := fun i j => inner dim v (x i) (x j) in
    computes (linear_K k (points n dim x) None) n n K /\ symmetric n K /\ psd n K
    /\ linear_Kdiag k (points n dim x) = Ok (map (fun i => K i i) (seq 0 n))
    /\ forall m y, computes (linear_K k (points n dim x) (Some (points m dim y))) n m (fun i j => inner dim v (x i) (y j)).
Proof. exact linear_covariance. Qed.
Print Assumptions C70_covariance.
Example C70_nonvacuous : new_linear 2 true (Some [1; 3]) = Ok (Linear 2 true [1; 3]) /\ (forall v, In v [1; 3] -> 0 <= v) /\ variance_of (Linear 2 true [1; 3]) 1 3
  /\ inner 2 (fun d => nth d [1; 3] 0) (fun d => nth d [2; 1] 0) (fun d => nth d [4; 2] 0) = 14.
Proof. split; [reflexivity|]. split; [intros v [<-|[<-|[]]]; lra|]. split; [reflexivity|]. unfold inner. cbn. lra. Qed.

Theorem C70_variance_gradient : forall dim ARD variance k, new_linear dim ARD variance = Ok k -> (forall v, In v (l_variance k) -> 0 <= v) ->
  forall d p, nth_error (l_variance k) d = Some p ->
  forall n x Y, let (m, y) := others n x Y in exists K : R -> nat -> nat -> R,
    (forall z, 0 <= z -> computes (linear_K (with_variance k d z) (points n dim x) (second dim Y)) n m (K z))
    /\ (forall W w, array W n m w -> exists gs g, linear_gradients_full k W (points n dim x) (second dim Y) = Ok gs
        /\ length gs = length (l_variance k) /\ nth_error gs d = Some g /\ is_gradient n m w K p g).
Proof. exact linear_variance_gradient. Qed.
Print Assumptions C70_variance_gradient.

Theorem C70_variance_gradient_diag : forall dim ARD variance k, new_linear dim ARD variance = Ok k ->
  forall d p, nth_error (l_variance k) d = Some p ->
  forall n x, exists K : R -> nat -> R,
    (forall z, linear_Kdiag (with_variance k d z) (points n dim x) = Ok (map (K z) (seq 0 n)))
    /\ (forall w, exists gs g, linear_gradients_diag k (map w (seq 0 n)) (points n dim x) = Ok gs
        /\ length gs = length (l_variance k) /\ nth_error gs d = Some g /\ derivable_pt_lim (fun z => sum_to n (fun i => w i * K z i)) p g).
Proof. exact linear_variance_gradient_diag. Qed.
Print Assumptions C70_variance_gradient_diag.

Theorem C70_input_gradient : forall dim ARD variance k, new_linear dim ARD variance = Ok k ->
  forall v, (forall d, (d < dim)%nat -> variance_of k d (v d)) -> forall n x m y a b, (a < n)%nat -> (b < dim)%nat ->
  (forall W w, array W n n w -> exists G, linear_gradients_X k W (points n dim x) None = Ok G /\ nr G = n /\ nc G = dim
     /\ derivable_pt_lim (fun t => weighted_sum n n w (fun i j => inner dim v (moved x a b t i) (moved x a b t j))) (x a b) (ent G a b))
  /\ (forall W w, array W n m w -> exists G, linear_gradients_X k W (points n dim x) (Some (points m dim y)) = Ok G /\ nr G = n /\ nc G = dim
     /\ derivable_pt_lim (fun t => weighted_sum n m w (fun i j => inner dim v (moved x a b t i) (y j))) (x a b) (ent G a b))
  /\ (forall w, exists G, linear_gradients_X_diag k (map w (seq 0 n)) (points n dim x) = Ok G /\ nr G = n /\ nc G = dim
     /\ derivable_pt_lim (fun t => sum_to n (fun i => w i * inner dim v (moved x a b t i) (moved x a b t i))) (x a b) (ent G a b)).
Proof. exact linear_input_gradient. Qed.
Print Assumptions C70_input_gradient.

Theorem C70_sensitivity : forall dim ARD variance k, new_linear dim ARD variance = Ok k ->
  exists l, linear_sensitivity k = Ok l /\ length l = dim /\ forall d s, nth_error l d = Some s -> variance_of k d s.
Proof. exact linear_sensitive. Qed.
Print Assumptions C70_sensitivity.

(** The reported second derivatives are not those with respect to a coordinate of the first and one of the second argument. *)
Theorem C71_refuted : exists k v, new_linear 1 false (Some [2]) = Ok k /\ (forall d, (d < 1)%nat -> variance_of k d (v d))
  /\ exists W w n m x y, array W n m w /\ exists i j b c, (i < n)%nat /\ (j < m)%nat /\ (b < 1)%nat /\ (c < 1)%nat
  /\ ~ second_derivative (fun s t => w i j * inner 1 v (shifted (x i) c s) (shifted (y j) b t)) (snd (linear_gradients_XX W (points n 1 x) (Some (points m 1 y))) i j b c).
Proof. exact linear_second_wrong. Qed.
Print Assumptions C71_refuted.

(** They are the second derivatives with respect to two coordinates of the second argument. *)
Theorem C71_partial : forall q v n x m y W k b c i j, (b < q)%nat ->
  let G := linear_gradients_XX W (points n q x) (Some (points m q y)) in
  fst G = (n, m, q, q) /\ second_derivative (fun s t => k * inner q v (x i) (shifted (shifted (y j) c s) b t)) (snd G i j b c).
Proof. exact linear_second_same. Qed.
Print Assumptions C71_partial.
Example C71_nonvacuous : (1 < 2)%nat /\ inner 2 (fun _ => 2) (fun _ => 1) (shifted (shifted (fun _ => 3) 1 4) 1 5) = 30.
Proof. split; [lia|]. unfold inner, shifted. cbn. lra. Qed.
