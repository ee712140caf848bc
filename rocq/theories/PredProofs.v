(** Proofs about predictions and the leave-one-out score. *)
From Coq Require Import Reals List Bool Arith Lra Lia Psatz.
From Coquelicot Require Import Coquelicot.
From Verif Require Import Py KernModel KernSpec KernSig KernGrad KernGrad2 KernGrad3 KernBessel KernGrad4 KernPsd KernProper PredModel PredSpec.
Import ListNotations.
Local Open Scope R_scope.

(** ** Entries of a covariance matrix depend on the two points only (and on whether they are the same observation). *)
Definition pointwise (k : kernel) (f : R -> R -> R) (g : R -> R) : Prop := forall n x,
  computes (kK k (column n x) None) n n (fun i j => if Nat.eqb i j then g (x i) else f (x i) (x j))
  /\ (forall m y, computes (kK k (column n x) (Some (column m y))) n m (fun i j => f (x i) (y j)))
  /\ (forall i, (i < n)%nat -> kKdiag k (column n x) i = g (x i)).
Lemma computes_ext r n m K K' : computes r n m K -> (forall i j, (i < n)%nat -> (j < m)%nat -> K i j = K' i j) -> computes r n m K'.
Proof. intros (A & E & H) HK. exists A. split; [exact E|]. exact (array_ext _ _ _ _ _ H HK). Qed.
(** All entries by one formula. *)
Lemma pointwise_intro k f : (forall n x, computes (kK k (column n x) None) n n (fun i j => f (x i) (x j))) ->
  (forall n x m y, computes (kK k (column n x) (Some (column m y))) n m (fun i j => f (x i) (y j))) ->
  (forall n x i, (i < n)%nat -> kKdiag k (column n x) i = f (x i) (x i)) -> pointwise k f (fun a => f a a).
Proof.
  intros H1 H2 H3 n x. split; [|split; [apply H2|apply H3]]. eapply computes_ext; [apply H1|]. intros i j _ _. cbv beta.
  destruct (Nat.eqb_spec i j) as [->|]; reflexivity.
Qed.
Lemma diag_from_proper k f : proper k -> (forall n x, computes (kK k (column n x) None) n n (fun i j => f (x i) (x j))) ->
  forall n x i, (i < n)%nat -> kKdiag k (column n x) i = f (x i) (x i).
Proof.
  intros P H n x i Hi. destruct (P n x) as (K & (A & E & (_ & _ & HA)) & _ & _ & D). destruct (H n x) as (A' & E' & (_ & _ & HA')).
  rewrite E in E'. injection E' as <-. rewrite D, <- (HA i i Hi Hi), (HA' i i Hi Hi) by exact Hi. reflexivity.
Qed.
Lemma pointwise_proper k f : proper k -> (forall n x, computes (kK k (column n x) None) n n (fun i j => f (x i) (x j))) ->
  (forall n x m y, computes (kK k (column n x) (Some (column m y))) n m (fun i j => f (x i) (y j))) -> pointwise k f (fun a => f a a).
Proof. intros P H1 H2. apply pointwise_intro; [exact H1|exact H2|apply (diag_from_proper k f P H1)]. Qed.
Lemma ew_pointwise op k1 k2 k f1 g1 f2 g2 : pointwise k1 f1 g1 -> pointwise k2 f2 g2 ->
  (forall X X2, kK k X X2 = do a <- kK k1 X X2; do b <- kK k2 X X2; elementwise op a b) ->
  (forall X i, kKdiag k X i = op (kKdiag k1 X i) (kKdiag k2 X i)) ->
  pointwise k (fun a b => op (f1 a b) (f2 a b)) (fun a => op (g1 a) (g2 a)).
Proof.
  intros H1 H2 EK ED n x. destruct (H1 n x) as ((A1 & E1 & M1) & C1 & D1). destruct (H2 n x) as ((A2 & E2 & M2) & C2 & D2). split; [|split].
  - rewrite EK, E1. cbn [bind]. rewrite E2. cbn [bind]. eapply computes_ext; [apply (array_ew op _ _ n n _ _ M1 M2)|]. intros i j _ _. cbv beta. destruct (Nat.eqb i j); reflexivity.
  - intros m y. destruct (C1 m y) as (B1 & F1 & N1). destruct (C2 m y) as (B2 & F2 & N2). rewrite EK, F1. cbn [bind]. rewrite F2. cbn [bind]. apply (array_ew op _ _ n m _ _ N1 N2).
  - intros i Hi. rewrite ED, D1, D2 by exact Hi. reflexivity.
Qed.
Lemma built_pointwise k : built_kernel k -> exists f g, pointwise k f g /\ forall a b, f a b = f b a.
Proof.
  intros B. pose proof (built_proper k B) as P.
  induction B as [v Hv|v Hv|v o Hv|v Hv|v l Hv|v p l Hv Hl Hb|v l s rev Hv|v l s w rev Hv|a b Ba IHa Bb IHb|a b Ba IHa Bb IHb|c a b Ba IHa Bb IHb].
  - exists (fun _ _ => 0), (fun _ => v). split; [|reflexivity]. intros n x. split; [|split].
    + eexists. split; [reflexivity|repeat split; intros; reflexivity].
    + intros m y. eexists. split; [reflexivity|repeat split; intros; reflexivity].
    + reflexivity.
  - exists (fun _ _ => v), (fun _ => v). split; [|reflexivity]. apply (pointwise_proper _ (fun _ _ => v) P); intros; (eexists; split; [reflexivity|repeat split; intros; reflexivity]).
  - exists (fun a b => v * (a - o) * (b - o)). eexists. split; [|intros; ring].
    apply (pointwise_proper _ (fun a b => v * (a - o) * (b - o)) P); [intros n x; apply (lin_entries v o n x None)|intros n x m y; apply (lin_entries v o n x (Some (m, y)))].
  - exists (fun a b => v * (a * b)). eexists. split; [|intros; ring].
    apply (pointwise_proper _ (fun a b => v * (a * b)) P); [intros n x; apply (lin0_entries v n x None)|intros n x m y; apply (lin0_entries v n x (Some (m, y)))].
  - exists (fun a b => rbf_entry v l (a - b)). eexists. split; [|intros a b; unfold rbf_entry; replace ((a - b) ^ 2) with ((b - a) ^ 2) by ring; reflexivity].
    apply (pointwise_proper _ (fun a b => rbf_entry v l (a - b)) P); [intros n x; apply rbf_entries|]. intros n x m y. cbn [rbf_kernel kK or_self]. unfold msub.
    destruct (array_outer Rminus (column n x) (mT (column m y)) n m (fun i _ => x i) (fun _ j => y j)) as (D & -> & HD);
      [apply array_column|apply (array_T _ _ _ _ (array_column m y))|]. cbn [bind]. eexists. split; [reflexivity|]. apply (array_map (rbf_entry v l) _ _ _ _ HD).
  - exists (fun a b => per_entry bessel0 v p l (a - b)). eexists. split.
    + apply (pointwise_proper _ (fun a b => per_entry bessel0 v p l (a - b)) P);
        [intros n x; apply (per_entries bessel0 v p l n x None)|intros n x m y; apply (per_entries bessel0 v p l n x (Some (m, y)))].
    + intros a b. destruct (P 2%nat (fun i => match i with O => a | _ => b end)) as (K & (A & E & (_ & _ & HA)) & Sy & _).
      destruct (per_entries bessel0 v p l 2 (fun i => match i with O => a | _ => b end) None) as (A' & E' & (_ & _ & HA')).
      cbn [other_mat] in E'. cbn [per_kernel kK] in E. rewrite E in E'. injection E' as <-.
      pose proof (HA' 0%nat 1%nat ltac:(lia) ltac:(lia)) as H1. pose proof (HA' 1%nat 0%nat ltac:(lia) ltac:(lia)) as H2. cbv beta iota in H1, H2.
      rewrite <- H1, <- H2, (HA 0%nat 1%nat), (HA 1%nat 0%nat) by lia. apply Sy; lia.
  - exists (fun a b => v * (phi_S l s rev a * phi_S l s rev b)). eexists. split; [|intros; ring].
    apply (pointwise_proper _ (fun a b => v * (phi_S l s rev a * phi_S l s rev b)) P); [intros n x; apply (basis_entries v _ n n x x)|intros n x m y; apply (basis_entries v _ n m x y)].
  - exists (fun a b => v * (phi_SI l s w rev a * phi_SI l s w rev b)). eexists. split; [|intros; ring].
    apply (pointwise_proper _ (fun a b => v * (phi_SI l s w rev a * phi_SI l s w rev b)) P); [intros n x; apply (basis_entries v _ n n x x)|intros n x m y; apply (basis_entries v _ n m x y)].
  - destruct (IHa (built_proper a Ba)) as (f1 & g1 & H1 & S1). destruct (IHb (built_proper b Bb)) as (f2 & g2 & H2 & S2).
    exists (fun u v => f1 u v + f2 u v), (fun u => g1 u + g2 u). split; [|intros; rewrite S1, S2; reflexivity].
    apply (ew_pointwise Rplus a b _ f1 g1 f2 g2 H1 H2); reflexivity.
  - destruct (IHa (built_proper a Ba)) as (f1 & g1 & H1 & S1). destruct (IHb (built_proper b Bb)) as (f2 & g2 & H2 & S2).
    exists (fun u v => f1 u v * f2 u v), (fun u => g1 u * g2 u). split; [|intros; rewrite S1, S2; reflexivity].
    apply (ew_pointwise Rmult a b _ f1 g1 f2 g2 H1 H2); reflexivity.
  - destruct (IHa (built_proper a Ba)) as (f1 & g1 & H1 & S1). destruct (IHb (built_proper b Bb)) as (f2 & g2 & H2 & S2).
    set (sk := fun rev => {| kK := sig_K c rev; kKdiag := basis_Kdiag 1 (change_phi c rev); kgrad := fun _ _ _ => Ok [] |}).
    assert (Hs : forall rev, pointwise (sk rev) (fun u v => 1 * (change_phi c rev u * change_phi c rev v)) (fun u => 1 * (change_phi c rev u * change_phi c rev u))).
    { intros rev. apply (pointwise_intro (sk rev) (fun u v => 1 * (change_phi c rev u * change_phi c rev v))).
      - intros n x. apply (basis_entries 1 _ n n x x).
      - intros n x m y. apply (basis_entries 1 _ n m x y).
      - intros n x i Hi. cbn. unfold basis_Kdiag. cbn. ring. }
    set (p1 := {| kK := fun X X2 => do a' <- kK a X X2; do b' <- sig_K c true X X2; mmul a' b'; kKdiag := fun X i => kKdiag a X i * basis_Kdiag 1 (change_phi c true) X i; kgrad := fun _ _ _ => Ok [] |}).
    set (p2 := {| kK := fun X X2 => do a' <- kK b X X2; do b' <- sig_K c false X X2; mmul a' b'; kKdiag := fun X i => kKdiag b X i * basis_Kdiag 1 (change_phi c false) X i; kgrad := fun _ _ _ => Ok [] |}).
    pose proof (ew_pointwise Rmult a (sk true) p1 _ _ _ _ H1 (Hs true) (fun _ _ => eq_refl) (fun _ _ => eq_refl)) as Q1.
    pose proof (ew_pointwise Rmult b (sk false) p2 _ _ _ _ H2 (Hs false) (fun _ _ => eq_refl) (fun _ _ => eq_refl)) as Q2.
    eexists _, _. split; [apply (ew_pointwise Rplus p1 p2 (change_kernel c a b) _ _ _ _ Q1 Q2)|].
    + intros X X2. cbn [change_kernel kK p1 p2]. unfold change_K. destruct (kK a X X2) as [f|]; [|reflexivity]. cbn [bind]. destruct (sig_K c true X X2) as [sr|]; [|reflexivity]. cbn [bind].
      destruct (mmul f sr) as [fa|]; [|reflexivity]. cbn [bind]. destruct (kK b X X2) as [f'|]; [|reflexivity]. cbn [bind]. destruct (sig_K c false X X2) as [sg|]; [|reflexivity]. reflexivity.
    + reflexivity.
    + intros u v. cbv beta. rewrite S1, S2. ring.
Qed.

(** The covariances of two data sets are blocks of the covariance matrix of the joined data set. *)
Lemma built_blocks k n x m y : built_kernel k -> exists J,
  computes (kK k (column (n + m) (joined n x y)) None) (n + m) (n + m) J /\ symmetric (n + m) J /\ psd (n + m) J
  /\ computes (kK k (column n x) None) n n J
  /\ computes (kK k (column n x) (Some (column m y))) n m (fun i j => J i (n + j)%nat)
  /\ computes (kK k (column m y) None) m m (fun i j => J (n + i)%nat (n + j)%nat)
  /\ (forall j, (j < m)%nat -> kKdiag k (column m y) j = J (n + j)%nat (n + j)%nat).
Proof.
  intros B. destruct (built_pointwise k B) as (f & g & H & Sf). destruct (H n x) as (H1 & H2 & H3). destruct (H m y) as (G1 & _ & G3).
  destruct (H (n + m)%nat (joined n x y)) as (J1 & _ & _). pose proof (built_proper k B (n + m)%nat (joined n x y)) as (K & (A & E & HA) & Sy & Ps & _).
  set (J := fun i j => if Nat.eqb i j then g (joined n x y i) else f (joined n x y i) (joined n x y j)) in *.
  assert (EK : forall i j, (i < n + m)%nat -> (j < n + m)%nat -> K i j = J i j).
  { destruct J1 as (A' & E' & HA'). rewrite E in E'. injection E' as <-. intros i j Hi Hj. rewrite <- (array_value _ _ _ _ _ _ HA Hi Hj). apply (array_value _ _ _ _ _ _ HA' Hi Hj). }
  assert (Jx : forall i, (i < n)%nat -> joined n x y i = x i) by (intros i Hi; unfold joined; destruct (Nat.ltb_spec i n); [reflexivity|lia]).
  assert (Jy : forall i, joined n x y (n + i)%nat = y i) by (intros i; unfold joined; destruct (Nat.ltb_spec (n + i) n); [lia|f_equal; lia]).
  exists J. split; [exact J1|]. split; [intros i j Hi Hj; rewrite <- !EK by assumption; apply Sy; assumption|]. split; [exact (psd_ext _ _ _ EK Ps)|].
  split; [|split; [|split]].
  - eapply computes_ext; [exact H1|]. intros i j Hi Hj. cbv beta. unfold J. rewrite !Jx by assumption. reflexivity.
  - eapply computes_ext; [apply H2|]. intros i j Hi Hj. cbv beta. unfold J. rewrite Jx, Jy by assumption. destruct (Nat.eqb_spec i (n + j)); [lia|reflexivity].
  - eapply computes_ext; [exact G1|]. intros i j Hi Hj. cbv beta. unfold J. rewrite !Jy. destruct (Nat.eqb_spec i j), (Nat.eqb_spec (n + i) (n + j)); try lia; reflexivity.
  - intros j Hj. rewrite G3 by exact Hj. unfold J. rewrite Nat.eqb_refl, Jy. reflexivity.
Qed.
