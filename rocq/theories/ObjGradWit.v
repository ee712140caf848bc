(** Witness for C55. *)
From Coq Require Import Reals Lra Lia List Bool Arith ZArith.
From Coquelicot Require Import Coquelicot.
From Verif Require Import Py KexModel KernModel KernSpec KernSig KernGrad KernGrad2 KernGrad3 KernGrad4 KernGrad5 SemModel ObjModel ObjSpec ObjProofs ObjGrad ObjGrad2.
Import ListNotations.
Local Open Scope R_scope.

(** CP(LIN, LIN) with the change point at 1, at the single point 1: moving the change point changes both sides by opposite amounts. *)
Definition moved_lin : kobj := OBase (OLIN (value 1) (value 0)) true.
Definition moved : kobj := OCP moved_lin moved_lin moved_lin moved_lin (value 1) (value (1 / 2)).
Definition one_weight : mat := Mat 1 1 (fun _ _ => 1).
Definition moved_K (q : R) (i j : nat) : R := change_entry (ChangePoint q (1 / 2)) 1 1 (1 * (1 - 0) * (1 - 0)) (1 * (1 - 0) * (1 - 0)).

Lemma arg_0 : (1 - 1) / (1 / 2) = 0.
Proof. field. Qed.
Lemma location_witness : exists e k o l o1 o2 n x dL i v g K,
  to_kernel e = Ok k /\ new_object k = Ok o /\ optimise true true o l = Ok o1 /\ Forall2 allowed (roles true true k) (map pv (listed true true o1))
  /\ array dL n n (ent dL) /\ symmetric n (ent dL) /\ update_gradients true true o1 dL (column n x) None = Ok o2
  /\ nth_error (map pv (listed true true o1)) i = Some v /\ nth_error (map pg (listed true true o2)) i = Some g
  /\ (forall q, exists oq, assign true true o1 (set_nth i q (map pv (listed true true o1))) = Ok oq /\ computes (kK (kernel_of true oq) (column n x) None) n n (K q))
  /\ ~ is_gradient n n (ent dL) K v g.
Proof.
  exists (Change CP (inl bLIN) (inl bLIN)), (GChange CP (GBase bLIN true) (GBase bLIN true)). eexists. exists [Assign [1; 0; 1; 0; 1]]. exists moved. eexists. exists 1%nat, (fun _ => 1), one_weight, 4%nat, 1. eexists. exists moved_K.
  split; [reflexivity|]. split; [reflexivity|]. split; [reflexivity|]. split; [repeat constructor; cbn; lra|]. split; [repeat split|]. split; [intros i j _ _; reflexivity|].
  split; [reflexivity|]. split; [reflexivity|]. split; [reflexivity|]. split.
  - intros q. eexists. split; [reflexivity|]. cbn [kernel_of]. pose proof (lin_entries 1 0 1 (fun _ => 1) None) as HL. simpl in HL.
    exact (change_entries (ChangePoint q (1 / 2)) (lin_kernel 1 0) (lin_kernel 1 0) 1 (fun _ => 1) _ _ HL HL).
  - intros Hg. cbn -[sigmoid_function sigmoid_function_d phi_S] in Hg.
    assert (HD : is_derive (fun q => weighted_sum 1 1 (ent one_weight) (moved_K q)) 1 0).
    { apply (is_derive_ext (fun q => change_entry (ChangePoint q (1 / 2)) 1 1 1 1)).
      - intros q. unfold weighted_sum, moved_K, change_entry. simpl. match goal with |- ?a = ?b => change (@eq R a b) end. ring.
      - unfold change_entry. cbn [change_phi].
        pose proof (phi_S_dl 1 (1 / 2) true 1 ltac:(lra)) as D1. pose proof (phi_S_dl 1 (1 / 2) false 1 ltac:(lra)) as D2. rewrite arg_0, sig_d_0 in D1, D2. unfold sign in D1, D2.
        evar_last. { apply (derive_two_squares _ _ _ _ _ D1 D2). }
        match goal with |- ?a = ?b => change (@eq R a b) end. unfold phi_S. rewrite arg_0, sig_0. field. }
    pose proof (gradient_unique _ _ _ _ _ _ _ Hg HD) as HC. unfold phi_S in HC. rewrite arg_0, sig_0, sig_d_0 in HC. replace (1 / 2 / - (1 / 2)) with (-1) in HC by field. lra.
Qed.
