(** Proofs about kernel objects and their parameters (C54). *)
From Coq Require Import Reals Lra List Bool Arith ZArith Lia.
From Verif Require Import Py KexModel KernModel KernSpec SemModel ObjModel ObjSpec.
Import ListNotations.
Local Open Scope R_scope.

Lemma bind_ok {A B : Type} (m : res A) (f : A -> res B) x : bind m f = Ok x -> exists a, m = Ok a /\ f a = Ok x.
Proof. destruct m as [a|]; cbn; [|discriminate]. intros E. exists a; auto. Qed.
Ltac ok H := let r := fresh "r" in let E := fresh "E" in apply bind_ok in H; destruct H as [r [E H]]; cbv beta in H.
Ltac oks := repeat match goal with H : bind _ _ = Ok _ |- _ => ok H end.

Section Proofs.
  Variables (offset fixed : bool).
  Notation listed := (listed offset fixed).
  Notation kernel_of := (kernel_of offset).
  Notation assign_from := (assign_from offset fixed).
  Notation assign := (assign offset fixed).
  Notation update_gradients := (update_gradients offset fixed).
  Notation optimise := (optimise offset fixed).
  Notation at_values := (at_values offset fixed).
  Notation arity := (arity offset fixed).
  Notation in_operand := (in_operand offset fixed).

  Definition values (o : kobj) : list R := map pv (listed o).
  Definition grads (o : kobj) : list R := map pg (listed o).

  (** ** Assigning *)
  Definition fits (o o' : kobj) (vs rest : list R) : Prop := vs = values o' ++ rest /\ grads o' = grads o.
  Lemma take_spec p vs p' rest : take p vs = Ok (p', rest) -> vs = pv p' :: rest /\ pg p' = pg p.
  Proof. destruct vs as [|v t]; cbn; [discriminate|]. intros E; inversion E; subst. split; reflexivity. Qed.
  Lemma take_if_spec f p vs p' rest : take_if f p vs = Ok (p', rest) ->
    (if f then vs = pv p' :: rest /\ pg p' = pg p else p' = p /\ vs = rest).
  Proof. destruct f; cbn; [apply take_spec|]. intros E; inversion E; split; reflexivity. Qed.

  Ltac prs := repeat match goal with p : (_ * _)%type |- _ => destruct p; cbn [fst snd] in * end.
  Ltac tk := repeat match goal with
    | H : take_if ?f _ _ = Ok (_, _) |- _ => apply take_if_spec in H
    | H : take _ _ = Ok (_, _) |- _ => apply take_spec in H; destruct H end.

  Lemma assign_base_spec f b vs b' rest : assign_base offset f b vs = Ok (b', rest) ->
    vs = map pv (listed_base offset f b') ++ rest /\ map pg (listed_base offset f b') = map pg (listed_base offset f b).
  Proof.
    intros E. destruct b; cbn in E; oks; prs; tk; inversion E; subst; clear E; destruct f, offset; cbn;
      repeat match goal with H : _ /\ _ |- _ => destruct H end; subst; cbn; repeat match goal with H : pg _ = pg _ |- _ => rewrite H; clear H end; split; reflexivity.
  Qed.

  Lemma assign_from_spec o vs o' rest : assign_from o vs = Ok (o', rest) -> vs = values o' ++ rest /\ grads o' = grads o.
  Proof.
    revert vs o' rest. induction o; intros vs o' rest E; cbn in E.
    - oks. prs. inversion E; subst. apply assign_base_spec in E0. exact E0.
    - oks. prs. inversion E; subst. apply IHo1 in E0. apply IHo2 in E1. unfold values, grads in *. cbn. rewrite !map_app.
      destruct E0 as [-> ->], E1 as [-> ->]. rewrite app_assoc. split; reflexivity.
    - oks. prs. inversion E; subst. apply IHo1 in E0. apply IHo2 in E1. unfold values, grads in *. cbn. rewrite !map_app.
      destruct E0 as [-> ->], E1 as [-> ->]. rewrite app_assoc. split; reflexivity.
    - oks. prs. inversion E; subst. apply IHo1 in E0. apply IHo2 in E1. tk. unfold values, grads in *. cbn. rewrite !map_app.
      destruct E0 as [-> ->], E1 as [-> ->]. unfold slope_of. destruct fixed; cbn in *; destruct E2 as [? ?]; subst; cbn;
        repeat match goal with H : pg _ = pg _ |- _ => rewrite H; clear H end; rewrite <- !app_assoc; split; reflexivity.
    - oks. prs. inversion E; subst. apply IHo1 in E0. apply IHo2 in E1. tk. unfold values, grads in *. cbn. rewrite !map_app.
      destruct E0 as [-> ->], E1 as [-> ->]. unfold slope_of. destruct fixed; cbn in *; destruct E2 as [? ?]; subst; cbn;
        repeat match goal with H : pg _ = pg _ |- _ => rewrite H; clear H end; rewrite <- !app_assoc; split; reflexivity.
  Qed.

  Lemma assign_spec o vs o' : assign o vs = Ok o' -> values o' = vs /\ grads o' = grads o.
  Proof.
    unfold ObjModel.assign. intros E. ok E. destruct r as [a [|x t]]; cbn in E; [|discriminate]. inversion E; subst.
    destruct (assign_from_spec _ _ _ _ E0) as [-> G]. rewrite app_nil_r. split; [reflexivity|exact G].
  Qed.

  (** ** Gradients *)
  Lemma store_base_spec b gs b' : store_base b gs = Ok b' -> base_kernel offset b' = base_kernel offset b /\
    forall f, map pv (listed_base offset f b') = map pv (listed_base offset f b).
  Proof.
    intros E. destruct b; destruct gs as [|g1 [|g2 [|g3 [|g4 gs]]]]; cbn in E; try discriminate; inversion E; subst; (split; [reflexivity|]);
      intros f; destruct f, offset; reflexivity.
  Qed.

  Lemma update_values o dL X X2 o' : update_gradients o dL X X2 = Ok o' -> kernel_of o' = kernel_of o /\ values o' = values o.
  Proof.
    revert dL o'. induction o; intros dL o' E; cbn in E.
    - oks. inversion E; subst. destruct (store_base_spec _ _ _ E1) as [K V]. split; [exact K|exact (V _)].
    - oks. inversion E; subst. destruct (IHo1 _ _ E0), (IHo2 _ _ E1). unfold values in *. cbn. rewrite !map_app. split; congruence.
    - oks. inversion E; subst. destruct (IHo1 _ _ E2), (IHo2 _ _ E5). unfold values in *. cbn. rewrite !map_app. split; congruence.
    - oks. destruct r4 as [|gl [|gsl [|x t]]]; try discriminate. inversion E; subst.
      destruct (IHo3 _ _ E8), (IHo4 _ _ E2). unfold values in *. cbn.
      split; [|rewrite !map_app; destruct fixed; reflexivity]. f_equal; try assumption. destruct fixed; reflexivity.
    - oks. destruct r4 as [|gl [|gsl [|x [|y t]]]]; try discriminate. inversion E; subst.
      destruct (IHo3 _ _ E8), (IHo4 _ _ E2). unfold values in *. cbn.
      split; [|rewrite !map_app; destruct fixed; reflexivity]. f_equal; try assumption. destruct fixed; reflexivity.
  Qed.

  (** ** New objects *)
  Lemma new_base_kernel b f ob : new_base b = Ok ob -> at_values (GBase b f) (map pv (listed_base offset f ob)) (base_kernel offset ob).
  Proof.
    destruct b; cbn; intros E; inversion E; subst; cbn [base_kernel]; destruct f; cbn [listed_base var_of map app pv].
    - apply av_WN; reflexivity.
    - apply av_WN; split; reflexivity.
    - apply av_C; reflexivity.
    - apply av_C; split; reflexivity.
    - destruct offset eqn:O; cbn; [apply (av_LIN _ _ true 1 0 [1]); reflexivity|apply av_LIN0; reflexivity].
    - destruct offset eqn:O; cbn; [apply (av_LIN _ _ false 1 0 []); [split; reflexivity|reflexivity]|apply av_LIN0; [split; reflexivity|reflexivity]].
    - apply (av_SE _ _ true 1 1 [1]); reflexivity.
    - apply (av_SE _ _ false 1 1 []); split; reflexivity.
    - apply (av_PER _ _ true 1 _ _ [1]); reflexivity.
    - apply (av_PER _ _ false 1 _ _ []); split; reflexivity.
  Qed.

  Lemma new_values k n : new_object k = Ok n -> at_values k (values n) (kernel_of n).
  Proof.
    revert n. induction k; intros n E; cbn in E; oks.
    - inversion E; subst. apply new_base_kernel; assumption.
    - inversion E; subst. unfold values. cbn. rewrite map_app. apply av_add; [apply IHk1; assumption|apply IHk2; assumption].
    - inversion E; subst. unfold values. cbn. rewrite map_app. apply av_mul; [apply IHk1; assumption|apply IHk2; assumption].
    - inversion E; subst. destruct c; unfold values; cbn; rewrite !map_app.
      + apply av_CP; [apply IHk1; assumption|apply IHk2; assumption|]. unfold slope_of; destruct fixed; cbn; [split; reflexivity|reflexivity].
      + apply (av_CW offset fixed k1 k2 _ _ _ _ _ _ 0 1); [apply IHk1; assumption|apply IHk2; assumption|]. unfold slope_of; destruct fixed; cbn; [split; reflexivity|reflexivity].
  Qed.

  (** ** The objects an optimiser can reach *)
  Definition base_shape (b : base) (ob : bobj) : Prop :=
    match b, ob with bWN, OWN _ | bC, OC _ | bLIN, OLIN _ _ | bSE, OSE _ _ | bPER, OPER _ _ _ => True | _, _ => False end.
  Definition variance (ob : bobj) : R := match ob with OWN v | OC v | OLIN v _ | OSE v _ | OPER v _ _ => pv v end.
  Definition slope_ok (s : param) : Prop := fixed = true -> pv s = 1 / 2.
  Fixpoint inv (k : gkern) (o : kobj) : Prop :=
    match k, o with
    | GBase b f, OBase ob f' => base_shape b ob /\ f = f' /\ (f = false -> variance ob = 1)
    | GAdd k1 k2, OAdd o1 o2 => inv k1 o1 /\ inv k2 o2
    | GMul k1 k2, OMul o1 o2 => inv k1 o1 /\ inv k2 o2
    | GChange CP k1 k2, OCP l1 l2 f s loc sl =>
        inv k1 l1 /\ inv k2 l2 /\ slope_ok sl /\
        (exists n1 n2, new_object k1 = Ok n1 /\ new_object k2 = Ok n2 /\ kernel_of f = kernel_of n1 /\ kernel_of s = kernel_of n2
           /\ grads l1 = grads n1 /\ grads l2 = grads n2)
    | GChange CW k1 k2, OCW l1 l2 f s loc sl w =>
        inv k1 l1 /\ inv k2 l2 /\ slope_ok sl /\
        (exists n1 n2, new_object k1 = Ok n1 /\ new_object k2 = Ok n2 /\ kernel_of f = kernel_of n1 /\ kernel_of s = kernel_of n2
           /\ grads l1 = grads n1 /\ grads l2 = grads n2)
    | _, _ => False
    end.

  Lemma inv_new k n : new_object k = Ok n -> inv k n.
  Proof.
    revert n. induction k; intros n E; cbn in E; oks.
    - inversion E; subst. destruct b; cbn in E0; inversion E0; subst; cbn; auto.
    - inversion E; subst. cbn; auto.
    - inversion E; subst. cbn; auto.
    - inversion E; subst. destruct c; cbn; (split; [auto|]); (split; [auto|]); (split; [intros _; reflexivity|]); exists r, r0; auto 10.
  Qed.

  Lemma inv_assign k o vs o' rest : inv k o -> assign_from o vs = Ok (o', rest) -> inv k o'.
  Proof.
    revert o vs o' rest. induction k; intros o vs o' rest I E; destruct o; try (destruct c; contradiction); try contradiction; cbn in E; oks; prs.
    - inversion E; subst. destruct I as [B [-> F]]. destruct b, b0; try contradiction; cbn in E0; oks; prs; inversion E0; subst; cbn; (split; [exact Logic.I|]); (split; [reflexivity|]);
        intros ->; cbn in *; repeat match goal with H : Ok _ = Ok _ |- _ => inversion H; subst; clear H end; apply F; reflexivity.
    - inversion E; subst. destruct I. cbn. split; eauto.
    - inversion E; subst. destruct I. cbn. split; eauto.
    - inversion E; subst. destruct c; [|contradiction]. destruct I as [I1 [I2 [S [n1 [n2 [N1 [N2 [F1 [F2 [G1 G2]]]]]]]]]]. cbn.
      split; [eauto|]. split; [eauto|]. split.
      + apply take_if_spec in E2. intros Fx. unfold slope_ok in S. rewrite Fx in E2. cbn in E2. destruct E2 as [-> _]. apply S; exact Fx.
      + exists n1, n2. rewrite (proj2 (assign_from_spec _ _ _ _ E0)), (proj2 (assign_from_spec _ _ _ _ E1)). auto 10.
    - inversion E; subst. destruct c; [contradiction|]. destruct I as [I1 [I2 [S [n1 [n2 [N1 [N2 [F1 [F2 [G1 G2]]]]]]]]]]. cbn.
      split; [eauto|]. split; [eauto|]. split.
      + apply take_if_spec in E2. intros Fx. unfold slope_ok in S. rewrite Fx in E2. cbn in E2. destruct E2 as [-> _]. apply S; exact Fx.
      + exists n1, n2. rewrite (proj2 (assign_from_spec _ _ _ _ E0)), (proj2 (assign_from_spec _ _ _ _ E1)). auto 10.
  Qed.

  Lemma inv_update k o dL X X2 o' : inv k o -> update_gradients o dL X X2 = Ok o' -> inv k o'.
  Proof.
    revert o dL o'. induction k; intros o dL o' I E; destruct o; try (destruct c; contradiction); try contradiction; cbn in E; oks.
    - inversion E; subst. destruct I as [B [-> F]]. cbn. destruct b, b0; try contradiction; destruct r as [|g1 [|g2 [|g3 [|g4 gs]]]]; cbn in E1; try discriminate; inversion E1; subst; cbn in *; auto.
    - inversion E; subst. destruct I. cbn. split; eauto.
    - inversion E; subst. destruct I. cbn. split; eauto.
    - destruct r4 as [|gl [|gsl [|x t]]]; try discriminate. inversion E; subst. destruct c; [|contradiction].
      destruct I as [I1 [I2 [S [n1 [n2 [N1 [N2 [F1 [F2 [G1 G2]]]]]]]]]]. cbn. split; [exact I1|]. split; [exact I2|]. split.
      + unfold slope_ok in *. destruct fixed; [exact S|discriminate].
      + exists n1, n2. rewrite (proj1 (update_values _ _ _ _ _ E8)), (proj1 (update_values _ _ _ _ _ E2)). auto 10.
    - destruct r4 as [|gl [|gsl [|x [|y t]]]]; try discriminate. inversion E; subst. destruct c; [contradiction|].
      destruct I as [I1 [I2 [S [n1 [n2 [N1 [N2 [F1 [F2 [G1 G2]]]]]]]]]]. cbn. split; [exact I1|]. split; [exact I2|]. split.
      + unfold slope_ok in *. destruct fixed; [exact S|discriminate].
      + exists n1, n2. rewrite (proj1 (update_values _ _ _ _ _ E8)), (proj1 (update_values _ _ _ _ _ E2)). auto 10.
  Qed.

  Lemma inv_optimise k o l o' : inv k o -> optimise o l = Ok o' -> inv k o'.
  Proof.
    revert o. induction l as [|a t IH]; intros o I E; cbn in E.
    - inversion E; subst; exact I.
    - ok E. apply (IH r); [|exact E]. destruct a as [vs|dL X X2]; cbn in E0.
      + unfold ObjModel.assign in E0. ok E0. destruct r0 as [x [|y z]]; cbn in E0; [|discriminate]. inversion E0; subst. eapply inv_assign; eassumption.
      + eapply inv_update; eassumption.
  Qed.

  (** ** What reachable objects list and compute *)
  Lemma inv_arity k o : inv k o -> length (listed o) = arity k.
  Proof.
    revert o. induction k; intros o I; destruct o; try (destruct c; contradiction); try contradiction.
    - destruct I as [B [-> _]]. destruct b, b0; try contradiction; destruct free; cbn; try reflexivity; destruct offset; reflexivity.
    - destruct I as [I1 I2]. cbn. rewrite app_length, (IHk1 _ I1), (IHk2 _ I2). reflexivity.
    - destruct I as [I1 I2]. cbn. rewrite app_length, (IHk1 _ I1), (IHk2 _ I2). reflexivity.
    - destruct c; [|contradiction]. destruct I as [I1 [I2 _]]. cbn. rewrite !app_length, (IHk1 _ I1), (IHk2 _ I2). unfold slope_of. destruct fixed; reflexivity.
    - destruct c; [contradiction|]. destruct I as [I1 [I2 _]]. cbn. rewrite !app_length, (IHk1 _ I1), (IHk2 _ I2). unfold slope_of. destruct fixed; reflexivity.
  Qed.
  Lemma len_values k o : inv k o -> length (values o) = arity k.
  Proof. intros I. unfold values. rewrite map_length. apply inv_arity; exact I. Qed.
  Lemma len_grads k o : inv k o -> length (grads o) = arity k.
  Proof. intros I. unfold grads. rewrite map_length. apply inv_arity; exact I. Qed.

  Lemma mixed_all_old n : forall us vs, length us = n -> length vs = n -> mixed (repeat true n) us vs us.
  Proof. induction n; intros [|u us] [|v vs] L1 L2; try discriminate; cbn; constructor. apply IHn; [injection L1 as L1; exact L1|injection L2 as L2; exact L2]. Qed.
  Lemma mixed_all_new n : forall us vs, length us = n -> length vs = n -> mixed (repeat false n) us vs vs.
  Proof. induction n; intros [|u us] [|v vs] L1 L2; try discriminate; cbn; constructor. apply IHn; [injection L1 as L1; exact L1|injection L2 as L2; exact L2]. Qed.
  Lemma mixed_app m1 u1 v1 r1 m2 u2 v2 r2 : mixed m1 u1 v1 r1 -> mixed m2 u2 v2 r2 -> mixed (m1 ++ m2) (u1 ++ u2) (v1 ++ v2) (r1 ++ r2).
  Proof. intros H1 H2. induction H1; cbn; [exact H2|constructor; assumption|constructor; assumption]. Qed.

  Lemma base_at b ob f : base_shape b ob -> (f = false -> variance ob = 1) -> at_values (GBase b f) (map pv (listed_base offset f ob)) (base_kernel offset ob).
  Proof.
    intros B V. assert (W : is_variance f (variance ob) (map pv (match ob with OWN v | OC v | OLIN v _ | OSE v _ | OPER v _ _ => var_of f v end))).
    { destruct f; [destruct ob; reflexivity|]. split; [apply V; reflexivity|destruct ob; reflexivity]. }
    destruct b, ob; try contradiction; cbn [variance] in W; cbn [listed_base base_kernel]; rewrite ?map_app; cbn [map].
    - apply av_WN; exact W.
    - apply av_C; exact W.
    - destruct offset eqn:O; cbn [map]; [apply av_LIN; [exact W|reflexivity]|rewrite app_nil_r; apply av_LIN0; [exact W|reflexivity]].
    - apply av_SE; exact W.
    - apply av_PER; exact W.
  Qed.

  Lemma inv_values k : forall o n, inv k o -> new_object k = Ok n -> exists r, mixed (in_operand k) (values n) (values o) r /\ at_values k r (kernel_of o).
  Proof.
    induction k; intros o n I N; destruct o; try (destruct c; contradiction); try contradiction.
    - pose proof (len_values _ _ I) as L1. pose proof (len_values _ _ (inv_new _ _ N)) as L2. exists (values (OBase b0 free)). cbn [ObjSpec.in_operand]. split; [apply mixed_all_new; assumption|].
      destruct I as [B [-> V]]. apply base_at; assumption.
    - cbn in N. oks. inversion N; subst. destruct I as [I1 I2]. destruct (IHk1 _ _ I1 E) as [v1 [M1 A1]], (IHk2 _ _ I2 E0) as [v2 [M2 A2]].
      exists (v1 ++ v2). unfold values in *. cbn. rewrite !map_app. split; [apply mixed_app; assumption|apply av_add; assumption].
    - cbn in N. oks. inversion N; subst. destruct I as [I1 I2]. destruct (IHk1 _ _ I1 E) as [v1 [M1 A1]], (IHk2 _ _ I2 E0) as [v2 [M2 A2]].
      exists (v1 ++ v2). unfold values in *. cbn. rewrite !map_app. split; [apply mixed_app; assumption|apply av_mul; assumption].
    - cbn in N. oks. inversion N; subst. destruct c; [|contradiction]. destruct I as [I1 [I2 [S [n1 [n2 [N1 [N2 [F1 [F2 _]]]]]]]]].
      assert (n1 = r) by congruence. assert (n2 = r0) by congruence. subst n1 n2.
      exists ((values r ++ values r0) ++ map pv (slope_of fixed slope) ++ [pv location]). unfold values. cbn. rewrite !map_app. split.
      + apply mixed_app; [apply mixed_all_old; rewrite app_length|unfold slope_of; destruct fixed; cbn; repeat constructor].
        * fold (values r) (values r0). rewrite (len_values _ _ (inv_new _ _ E)), (len_values _ _ (inv_new _ _ E0)). reflexivity.
        * fold (values o1) (values o2). rewrite (len_values _ _ I1), (len_values _ _ I2). reflexivity.
      + rewrite F1, F2. apply av_CP; [apply new_values; exact E|apply new_values; exact E0|]. unfold slope_of, slope_ok in *. destruct fixed; cbn; [split; [apply S|]; reflexivity|reflexivity].
    - cbn in N. oks. inversion N; subst. destruct c; [contradiction|]. destruct I as [I1 [I2 [S [n1 [n2 [N1 [N2 [F1 [F2 _]]]]]]]]].
      assert (n1 = r) by congruence. assert (n2 = r0) by congruence. subst n1 n2.
      exists ((values r ++ values r0) ++ map pv (slope_of fixed slope) ++ [pv location; pv width]). unfold values. cbn. rewrite !map_app. split.
      + apply mixed_app; [apply mixed_all_old; rewrite app_length|unfold slope_of; destruct fixed; cbn; repeat constructor].
        * fold (values r) (values r0). rewrite (len_values _ _ (inv_new _ _ E)), (len_values _ _ (inv_new _ _ E0)). reflexivity.
        * fold (values o1) (values o2). rewrite (len_values _ _ I1), (len_values _ _ I2). reflexivity.
      + rewrite F1, F2. apply (av_CW offset fixed k1 k2 _ _ _ _ _ _ (pv location) (pv width)); [apply new_values; exact E|apply new_values; exact E0|].
        unfold slope_of, slope_ok in *. destruct fixed; cbn; [split; [apply S|]; reflexivity|reflexivity].
  Qed.

  Lemma inv_grads k : forall o n, inv k o -> new_object k = Ok n -> mixed (in_operand k) (grads n) (grads o) (grads o).
  Proof.
    induction k; intros o n I N; destruct o; try (destruct c; contradiction); try contradiction.
    - pose proof (len_grads _ _ I) as L1. pose proof (len_grads _ _ (inv_new _ _ N)) as L2. apply mixed_all_new; assumption.
    - cbn in N. oks. inversion N; subst. destruct I as [I1 I2]. unfold grads. cbn. rewrite !map_app. apply mixed_app; [apply IHk1|apply IHk2]; assumption.
    - cbn in N. oks. inversion N; subst. destruct I as [I1 I2]. unfold grads. cbn. rewrite !map_app. apply mixed_app; [apply IHk1|apply IHk2]; assumption.
    - cbn in N. oks. inversion N; subst. destruct c; [|contradiction]. destruct I as [I1 [I2 [S [n1 [n2 [N1 [N2 [_ [_ [G1 G2]]]]]]]]]].
      assert (n1 = r) by congruence. assert (n2 = r0) by congruence. subst n1 n2. unfold grads. cbn. rewrite !map_app.
      fold (grads o1) (grads o2) (grads r) (grads r0). rewrite G1, G2. apply mixed_app.
      + apply mixed_all_old; rewrite app_length, (len_grads _ _ (inv_new _ _ E)), (len_grads _ _ (inv_new _ _ E0)); reflexivity.
      + unfold slope_of; destruct fixed; cbn; repeat constructor.
    - cbn in N. oks. inversion N; subst. destruct c; [contradiction|]. destruct I as [I1 [I2 [S [n1 [n2 [N1 [N2 [_ [_ [G1 G2]]]]]]]]]].
      assert (n1 = r) by congruence. assert (n2 = r0) by congruence. subst n1 n2. unfold grads. cbn. rewrite !map_app.
      fold (grads o1) (grads o2) (grads r) (grads r0). rewrite G1, G2. apply mixed_app.
      + apply mixed_all_old; rewrite app_length, (len_grads _ _ (inv_new _ _ E)), (len_grads _ _ (inv_new _ _ E0)); reflexivity.
      + unfold slope_of; destruct fixed; cbn; repeat constructor.
  Qed.

  Lemma mixed_nth m us vs : forall i, mixed m us vs vs -> nth_error m i = Some true -> nth_error vs i = nth_error us i.
  Proof.
    revert us vs. induction m as [|b m IH]; intros us vs i H E; [destruct i; discriminate|].
    inversion H; subst; destruct i; cbn in *; try congruence; eauto.
  Qed.

  (** ** The statements *)
  Theorem optimise_covariance k o l o' : new_object k = Ok o -> optimise o l = Ok o' ->
    exists r K, mixed (in_operand k) (map pv (listed o)) (map pv (listed o')) r /\ at_values k r K /\ same_covariance (kernel_of o') K.
  Proof.
    intros N E. destruct (inv_values k o' o (inv_optimise _ _ _ _ (inv_new _ _ N) E) N) as [r [M A]].
    exists r, (kernel_of o'). split; [exact M|]. split; [exact A|]. split; reflexivity.
  Qed.

  Lemma change_free_mask k : change_free k -> forall us vs r, mixed (in_operand k) us vs r -> r = vs.
  Proof.
    intros F. assert (A : forall b, In b (in_operand k) -> b = false).
    { revert F. induction k; cbn; intros F b' I.
      - apply repeat_spec in I; exact I.
      - apply in_app_or in I. destruct F. destruct I; auto.
      - apply in_app_or in I. destruct F. destruct I; auto.
      - contradiction. }
    revert A. generalize (in_operand k). intros m A us vs r M. induction M; [reflexivity| |].
    - specialize (A true (or_introl eq_refl)). discriminate.
    - f_equal. apply IHM. intros b I. apply A. right; exact I.
  Qed.

  Theorem optimise_change_free k o l o' : change_free k -> new_object k = Ok o -> optimise o l = Ok o' ->
    exists K, at_values k (map pv (listed o')) K /\ same_covariance (kernel_of o') K.
  Proof.
    intros F N E. destruct (optimise_covariance _ _ _ _ N E) as [r [K [M [A S]]]]. rewrite (change_free_mask _ F _ _ _ M) in A. exists K; auto.
  Qed.

  Theorem assign_lists o vs o' : assign o vs = Ok o' -> map pv (listed o') = vs.
  Proof. intros E. exact (proj1 (assign_spec _ _ _ E)). Qed.

  Theorem optimise_gradients k o l o' i : new_object k = Ok o -> optimise o l = Ok o' -> nth_error (in_operand k) i = Some true ->
    nth_error (map pg (listed o')) i = nth_error (map pg (listed o)) i.
  Proof. intros N E T. exact (mixed_nth _ _ _ i (inv_grads k o' o (inv_optimise _ _ _ _ (inv_new _ _ N) E) N) T). Qed.

  (** Any array of the right length can be assigned. *)
  Lemma assign_from_total k : forall o vs, inv k o -> (arity k <= length vs)%nat -> exists o' rest, assign_from o vs = Ok (o', rest) /\ length rest = (length vs - arity k)%nat.
  Proof.
    induction k; intros o vs I L; destruct o; try (destruct c; contradiction); try contradiction.
    - destruct I as [B [-> _]]. destruct b, b0; try contradiction; destruct free, offset; cbn in *;
        do 4 (try (destruct vs as [|? vs]; cbn in *; try lia)); eexists _, _; (split; [reflexivity|cbn; lia]).
    - cbn in *. destruct I as [I1 I2]. destruct (IHk1 o1 vs I1) as [a [r1 [-> L1]]]; [lia|]. destruct (IHk2 o2 r1 I2) as [b [r2 [E2 L2]]]; [lia|]. cbn. rewrite E2. cbn. eexists _, _. split; [reflexivity|cbn; lia].
    - cbn in *. destruct I as [I1 I2]. destruct (IHk1 o1 vs I1) as [a [r1 [-> L1]]]; [lia|]. destruct (IHk2 o2 r1 I2) as [b [r2 [E2 L2]]]; [lia|]. cbn. rewrite E2. cbn. eexists _, _. split; [reflexivity|cbn; lia].
    - destruct c; [|contradiction]. cbn in *. destruct I as [I1 [I2 _]]. destruct (IHk1 o1 vs I1) as [a [r1 [-> L1]]]; [lia|]. destruct (IHk2 o2 r1 I2) as [b [r2 [E2 L2]]]; [lia|]. cbn. rewrite E2. cbn.
      unfold take_if. destruct fixed; cbn in *; [destruct r2 as [|x r2]; cbn in *; [lia|]|destruct r2 as [|x [|y r2]]; cbn in *; [lia|lia|]]; eexists _, _; (split; [reflexivity|cbn; lia]).
    - destruct c; [contradiction|]. cbn in *. destruct I as [I1 [I2 _]]. destruct (IHk1 o1 vs I1) as [a [r1 [-> L1]]]; [lia|]. destruct (IHk2 o2 r1 I2) as [b [r2 [E2 L2]]]; [lia|]. cbn. rewrite E2. cbn.
      unfold take_if. destruct fixed; cbn in *; [destruct r2 as [|x [|y r2]]; cbn in *; [lia|lia|]|destruct r2 as [|x [|y [|z r2]]]; cbn in *; [lia|lia|lia|]]; eexists _, _; (split; [reflexivity|cbn; lia]).
  Qed.
  Theorem optimise_assignable k o l o' vs : new_object k = Ok o -> optimise o l = Ok o' -> length vs = length (listed o) ->
    exists o'', assign o' vs = Ok o'' /\ map pv (listed o'') = vs.
  Proof.
    intros N E L. pose proof (inv_optimise _ _ _ _ (inv_new _ _ N) E) as I. rewrite (inv_arity _ _ (inv_new _ _ N)) in L.
    destruct (assign_from_total k o' vs I) as [a [r [A R]]]; [lia|]. destruct r; [|cbn in R; lia].
    assert (A' : assign o' vs = Ok a) by (unfold ObjModel.assign; rewrite A; reflexivity). exists a. split; [exact A'|exact (assign_lists _ _ _ A')].
  Qed.
End Proofs.
