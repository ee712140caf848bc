(** C36, C57: the gradients of a change operator's own parameters are those of its second part alone. *)
From Coq Require Import Reals List Bool Arith Lra Lia Psatz.
From Coquelicot Require Import Coquelicot.
From Verif Require Import Py KernModel KernSpec KernSig KernGrad KernGrad2 KernGrad3 KernBessel KernGrad4 KernGrad5 KernPsd KernProper CwModel CwSpec CwProofs CwProofs2.
Import ListNotations.
Local Open Scope R_scope.

Lemma prod_computes k1 k2 n x K1 K2 : computes (kK k1 (column n x) None) n n K1 -> computes (kK k2 (column n x) None) n n K2 ->
  computes (kK (prod_kernel k1 k2) (column n x) None) n n (fun i j => K1 i j * K2 i j).
Proof. intros (A1 & E1 & H1) (A2 & E2 & H2). cbn [prod_kernel kK]. rewrite E1, E2. cbn [bind]. apply (array_ew Rmult A1 A2 n n _ _ H1 H2). Qed.
Lemma S_computes l s rev n x : computes (kK (S_kernel 1 l s rev) (column n x) None) n n (fun i j => 1 * (phi_S l s rev (x i) * phi_S l s rev (x j))).
Proof. apply (basis_entries 1 (phi_S l s rev) n n x x). Qed.
Lemma SI_computes l s w rev n x : computes (kK (SI_kernel 1 l s w rev) (column n x) None) n n (fun i j => 1 * (phi_SI l s w rev (x i) * phi_SI l s w rev (x j))).
Proof. apply (basis_entries 1 (phi_SI l s w rev) n n x x). Qed.

(** A product of a fixed kernel and a varying one has the gradient of the latter with the weights multiplied. *)
Lemma frozen_gradient second (sig : R -> kernel) (Ksig : R -> nat -> nat -> R) n x dL ds K2 p g :
  (forall q, computes (kK (sig q) (column n x) None) n n (Ksig q)) -> computes (kK second (column n x) None) n n K2 ->
  array ds n n (fun i j => ent dL i j * K2 i j) -> is_gradient n n (ent ds) Ksig p g ->
  exists K, (forall q, computes (kK (prod_kernel second (sig q)) (column n x) None) n n (K q)) /\ is_gradient n n (ent dL) K p g.
Proof.
  intros Hs H2 J Hg. exists (fun q i j => K2 i j * Ksig q i j). split; [intros q; apply prod_computes; auto|].
  apply (gradient_weights n (ent dL) (ent ds) K2 Ksig); [|intros q i j _ _; ring|exact Hg]. intros i j Hi Hj. apply (array_value _ _ _ _ _ _ J Hi Hj).
Qed.

Lemma own_run c k1 k2 n x dL : valid_change c -> works k1 -> works k2 -> array dL n n (ent dL) -> symmetric n (ent dL) ->
  exists K2 ds gs, computes (kK k2 (column n x) None) n n K2 /\ array ds n n (fun i j => ent dL i j * K2 i j) /\ symmetric n (ent ds)
    /\ sig_grad c false ds (column n x) None = Ok gs /\ own_gradients c k1 k2 dL (column n x) None = Ok gs.
Proof.
  intros Hc W1 W2 HdL Hsym. destruct (W1 n x) as (K1 & S1 & C1 & T1). destruct (W2 n x) as (K2 & S2 & C2 & T2). exists K2. pose proof C2 as (A2 & E2 & H2).
  unfold own_gradients, change_update_gradients_full.
  destruct (sig_entries c true n x) as (B1 & F1 & G1). destruct (sig_entries c false n x) as (B2 & F2 & G2). rewrite F2. cbn [bind].
  destruct (array_ew Rmult dL B1 n n _ _ HdL G1) as (D1 & I1 & J1). destruct (array_ew Rmult dL B2 n n _ _ HdL G2) as (D2 & I2 & J2). unfold mmul. rewrite I2. cbn [bind].
  destruct (T2 D2 (array_self _ _ _ _ J2)) as (r2 & Er2). { apply (symmetrise _ _ _ J2). intros i j Hi Hj. rewrite (Hsym i j Hi Hj). ring. }
  rewrite Er2. cbn [bind]. rewrite E2. cbn [bind].
  destruct (array_ew Rmult dL A2 n n _ _ HdL H2) as (D & I & J). rewrite I. cbn [bind].
  assert (SD : symmetric n (ent D)). { apply (symmetrise _ _ _ J). intros i j Hi Hj. rewrite (Hsym i j Hi Hj), (S2 i j Hi Hj). ring. }
  destruct (sig_grad_total c false n x D Hc (array_self _ _ _ _ J) SD) as (gs & Egs).
  rewrite Egs. cbn [bind]. rewrite F1. cbn [bind]. rewrite I1. cbn [bind].
  destruct (T1 D1 (array_self _ _ _ _ J1)) as (r1 & Er1). { apply (symmetrise _ _ _ J1). intros i j Hi Hj. rewrite (Hsym i j Hi Hj). ring. }
  rewrite Er1. cbn [bind]. exists D, gs. split; [exists A2; split; [reflexivity|exact H2]|]. split; [exact J|]. split; [exact SD|]. split; [exact Egs|reflexivity].
Qed.
Lemma own_point l s first second : s <> 0 -> works first -> works second ->
  gradient_right (fun q => prod_kernel second (S_kernel 1 q s false)) (own_gradients (ChangePoint l s) first second) l 0
  /\ gradient_right (fun q => prod_kernel second (S_kernel 1 l q false)) (own_gradients (ChangePoint l s) first second) s 1.
Proof.
  intros Hs W1 W2. split; intros n x dL HdL Hsym; destruct (own_run (ChangePoint l s) first second n x dL Hs W1 W2 HdL Hsym) as (K2 & ds & gs & C2 & J & SD & E & ->); cbn [sig_grad] in E;
  destruct (S_gradients 1 l s false n x ds _ _ Hs (array_self _ _ _ _ J) SD (fun q => basis_entries _ _ n n x x) (fun q => basis_entries _ _ n n x x)) as (gl & gw & Eg & G1 & G2);
  rewrite Eg in E; cbn [bind fst snd] in E; injection E as <-.
  - destruct (frozen_gradient second (fun q => S_kernel 1 q s false) _ n x dL ds K2 l gl (fun q => S_computes q s false n x) C2 J G1) as (K & HK & HG). exists [gl; gw], gl, K. auto.
  - destruct (frozen_gradient second (fun q => S_kernel 1 l q false) _ n x dL ds K2 s gw (fun q => S_computes l q false n x) C2 J G2) as (K & HK & HG). exists [gl; gw], gw, K. auto.
Qed.
Lemma own_window l s w first second : 0 < s -> 0 < w -> works first -> works second ->
  gradient_right (fun q => prod_kernel second (SI_kernel 1 q s w false)) (own_gradients (ChangeWindow l s w) first second) l 0
  /\ gradient_right (fun q => prod_kernel second (SI_kernel 1 l q w false)) (own_gradients (ChangeWindow l s w) first second) s 1
  /\ gradient_right (fun q => prod_kernel second (SI_kernel 1 l s q false)) (own_gradients (ChangeWindow l s w) first second) w 2.
Proof.
  intros Hs Hw W1 W2. repeat split; intros n x dL HdL Hsym; destruct (own_run (ChangeWindow l s w) first second n x dL (conj Hs Hw) W1 W2 HdL Hsym) as (K2 & ds & gs & C2 & J & SD & E & ->); cbn [sig_grad] in E;
  destruct (SI_gradients 1 l s w false n x ds _ _ _ Hs Hw (array_self _ _ _ _ J) SD (fun q => basis_entries _ _ n n x x) (fun q => basis_entries _ _ n n x x) (fun q => basis_entries _ _ n n x x)) as (gl & gs' & gw & Eg & G1 & G2 & G3);
  rewrite Eg in E; cbn [bind fst snd] in E; injection E as <-.
  - destruct (frozen_gradient second (fun q => SI_kernel 1 q s w false) _ n x dL ds K2 l gl (fun q => SI_computes q s w false n x) C2 J G1) as (K & HK & HG). exists [gl; gs'; gw], gl, K. auto.
  - destruct (frozen_gradient second (fun q => SI_kernel 1 l q w false) _ n x dL ds K2 s gs' (fun q => SI_computes l q w false n x) C2 J G2) as (K & HK & HG). exists [gl; gs'; gw], gs', K. auto.
  - destruct (frozen_gradient second (fun q => SI_kernel 1 l s q false) _ n x dL ds K2 w gw (fun q => SI_computes l s q false n x) C2 J G3) as (K & HK & HG). exists [gl; gs'; gw], gw, K. auto.
Qed.
Lemma own_shifted l s w first second : 0 < s -> 0 < w -> works first -> works second ->
  gradient_right (fun q => prod_kernel second (SI_kernel 1 q s w false)) (shifted_own l s w first second) l 0
  /\ gradient_right (fun q => prod_kernel second (SI_kernel 1 l q w false)) (shifted_own l s w first second) s 1
  /\ gradient_right (fun q => prod_kernel second (SI_kernel 1 l s q false)) (shifted_own l s w first second) w 2.
Proof.
  intros Hs Hw W1 W2.
  assert (HR : forall n x dL, array dL n n (ent dL) -> symmetric n (ent dL) -> exists K2 ds gs, computes (kK second (column n x) None) n n K2 /\ array ds n n (fun i j => ent dL i j * K2 i j) /\ symmetric n (ent ds)
    /\ SI_update_gradients_full 1 l s w false ds (column n x) None = Ok gs /\ shifted_own l s w first second dL (column n x) None = Ok [fst (fst gs); snd (fst gs); snd gs]).
  { intros n x dL HdL Hsym. destruct (W1 n x) as (K1 & S1 & C1 & T1). destruct (W2 n x) as (K2 & S2 & C2 & T2).
    destruct (shifted_run l s w first second n x dL K2 (fun _ _ => True) (fun _ _ => True) Hs Hw HdL Hsym C2 S2) as (d1 & d2 & ds & r1 & r2 & gs & r & E & _ & _ & _ & _ & J & Eg & _).
    - intros d Hd Hds. destruct (T1 d Hd Hds) as (g & Eg). exists g. auto.
    - intros d Hd Hds. destruct (T2 d Hd Hds) as (g & Eg). exists g. auto.
    - exists K2, ds, gs. split; [exact C2|]. split; [exact J|]. split; [|split; [exact Eg|unfold shifted_own; rewrite E; reflexivity]].
      apply (symmetrise _ _ _ J). intros i j Hi Hj. rewrite (Hsym i j Hi Hj), (S2 i j Hi Hj). ring. }
  repeat split; intros n x dL HdL Hsym; destruct (HR n x dL HdL Hsym) as (K2 & ds & gs & C2 & J & SD & E & ->);
  destruct (SI_gradients 1 l s w false n x ds _ _ _ Hs Hw (array_self _ _ _ _ J) SD (fun q => basis_entries _ _ n n x x) (fun q => basis_entries _ _ n n x x) (fun q => basis_entries _ _ n n x x)) as (gl & gs' & gw & Eg & G1 & G2 & G3);
  rewrite Eg in E; injection E as <-; cbn [fst snd].
  - destruct (frozen_gradient second (fun q => SI_kernel 1 q s w false) _ n x dL ds K2 l gl (fun q => SI_computes q s w false n x) C2 J G1) as (K & HK & HG). exists [gl; gs'; gw], gl, K. auto.
  - destruct (frozen_gradient second (fun q => SI_kernel 1 l q w false) _ n x dL ds K2 s gs' (fun q => SI_computes l q w false n x) C2 J G2) as (K & HK & HG). exists [gl; gs'; gw], gs', K. auto.
  - destruct (frozen_gradient second (fun q => SI_kernel 1 l s q false) _ n x dL ds K2 w gw (fun q => SI_computes l s q false n x) C2 J G3) as (K & HK & HG). exists [gl; gs'; gw], gw, K. auto.
Qed.

(** With a second kernel that is zero at the point, the location has a computed gradient of zero. *)
Lemma shifted_location_wrong : ~ gradient_right (fun q => shifted_kernel q 1 1 0 (lin_kernel 1 1) (lin_kernel 1 0)) (shifted_own 0 1 1 (lin_kernel 1 1) (lin_kernel 1 0)) 0 0.
Proof.
  intros H. set (dL := {| nr := 1; nc := 1; ent := fun _ _ => 1 |}). assert (HdL : array dL 1 1 (ent dL)) by (repeat split; reflexivity). assert (Hsym : symmetric 1 (ent dL)) by (intros i j _ _; reflexivity).
  destruct (H 1%nat (fun _ => 0) dL HdL Hsym) as (g & gk & K & E & Hn & HK & Hg).
  destruct (proj1 (own_shifted 0 1 1 (lin_kernel 1 1) (lin_kernel 1 0) ltac:(lra) ltac:(lra) ltac:(auto using lin_works) ltac:(auto using lin_works)) 1%nat (fun _ => 0) dL HdL Hsym) as (g' & gk' & K' & E' & Hn' & HK' & Hg').
  rewrite E in E'. injection E' as <-. rewrite Hn in Hn'. injection Hn' as <-.
  pose proof (lin_entries 1 1 1 (fun _ => 0) None) as L1. pose proof (lin_entries 1 0 1 (fun _ => 0) None) as L2. simpl in L1, L2.
  assert (D0 : is_derive (fun q => weighted_sum 1 1 (ent dL) (K' q)) 0 0).
  { apply (is_derive_ext (fun _ => 0)); [|apply (is_derive_const (V := R_NormedModule) 0 0)]. intros q.
    pose proof (computes_ext _ _ _ _ _ (HK' q) (prod_computes (lin_kernel 1 0) (SI_kernel 1 q 1 1 false) 1 (fun _ => 0) _ _ L2 (SI_computes q 1 1 false 1 (fun _ => 0))) 0%nat 0%nat ltac:(lia) ltac:(lia)) as HE.
    unfold weighted_sum, dL. simpl. rewrite HE. match goal with |- ?a = ?b => change (@eq R a b) end. ring. }
  pose proof (gradient_unique _ _ _ _ _ _ _ Hg' D0) as ->.
  assert (D1 : is_derive (fun q => weighted_sum 1 1 (ent dL) (K q)) 0 (7 / 16)).
  { apply (is_derive_ext (fun q => 1 * (1 * (phi_S q 1 true 0 * phi_S q 1 true 0)) + 1 * (1 * (phi_S (q + 1) 1 false 0 * phi_S (q + 1) 1 false 0)))).
    - intros q. pose proof (computes_ext _ _ _ _ _ (HK q) (shifted_any q 1 1 0 (lin_kernel 1 1) (lin_kernel 1 0) 1 (fun _ => 0) None _ _ L1 L2) 0%nat 0%nat ltac:(lia) ltac:(lia)) as HE.
      unfold weighted_sum, dL. cbn [sum_to ent]. rewrite HE. unfold three_entry. match goal with |- ?a = ?b => change (@eq R a b) end. ring.
    - pose proof (phi_S_dl 0 1 true 0 ltac:(lra)) as P1. pose proof (phi_S_dl (0 + 1) 1 false 0 ltac:(lra)) as P2'.
      assert (P2 : is_derive (fun q => phi_S (q + 1) 1 false 0) 0 (sign false (sigmoid_function_d ((0 - (0 + 1)) / 1) / - (1)))).
      { evar_last. { apply (is_derive_comp (fun q => phi_S q 1 false 0) (fun q => q + 1) 0 _ 1 P2'). auto_derive; [trivial|ring]. } apply Rmult_1_l. }
      rewrite zero_arg, sig_d_0 in P1. unfold sign in P1, P2. replace ((0 - (0 + 1)) / 1) with (-1) in P2 by field.
      evar_last. { apply (derive_two_squares _ _ _ _ _ P1 P2). }
      match goal with |- ?a = ?b => change (@eq R a b) end.
      unfold phi_S. rewrite zero_arg, sig_0. replace ((0 - (0 + 1)) / 1) with (-1) by field.
      replace (sigmoid_function (-1)) with (1 / 4). 2:{ unfold sigmoid_function. rewrite Rabs_left by lra. replace (1 + - -1) with 2 by ring. change 0.5 with (5 / 10). field. }
      replace (sigmoid_function_d (-1)) with (1 / 8). 2:{ unfold sigmoid_function_d. rewrite Rabs_left by lra. replace (1 + - -1) with 2 by ring. change 0.5 with (5 / 10). field. } field. }
  pose proof (gradient_unique _ _ _ _ _ _ _ Hg D1). lra.
Qed.
