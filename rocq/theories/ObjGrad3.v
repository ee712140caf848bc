(** Gradients stored in kernel objects (C55): from expressions to objects. *)
From Coq Require Import Reals List Bool Arith Lra Lia.
From Verif Require Import Py KexModel KernModel KernSpec KernSig KernGrad KernGrad2 KernGrad3 KernBessel KernGrad4 KernPsd KernProper SemModel ObjModel ObjSpec ObjProofs ObjGrad ObjGrad2.
Import ListNotations.
Local Open Scope R_scope.

Section Grad.
  Variables (offset fixed : bool).
  Notation listed := (listed offset fixed).
  Notation kernel_of := (kernel_of offset).
  Notation assign_from := (assign_from offset fixed).
  Notation assign := (assign offset fixed).
  Notation update_gradients := (update_gradients offset fixed).
  Notation optimise := (optimise offset fixed).
  Notation values := (values offset fixed).
  Notation grads := (grads offset fixed).
  Notation roles := (roles offset fixed).
  Notation arity := (arity offset fixed).
  Notation in_operand := (in_operand offset fixed).
  Notation inv := (inv offset fixed).
  Notation clear := (clear offset fixed).
  Notation fine := (fine offset fixed).

  (** The parts a change computes with stay valid. *)
  Fixpoint hid (o : kobj) : Prop :=
    match o with
    | OBase _ _ => True
    | OAdd k1 k2 | OMul k1 k2 => hid k1 /\ hid k2
    | OCP _ _ f s _ _ | OCW _ _ f s _ _ _ => valid f /\ valid s
    end.
  Lemma valid_update o : forall dL X X2 o', valid o -> update_gradients o dL X X2 = Ok o' -> valid o'.
  Proof.
    induction o; intros dL X X2 o' V E; cbn in E; oks.
    - injection E as <-. exact I.
    - injection E as <-. destruct V. cbn. split; eauto.
    - injection E as <-. destruct V. cbn. split; eauto.
    - match type of E with match ?g with _ => _ end = _ => destruct g as [|gl [|gsl [|? ?]]] end; try discriminate. injection E as <-.
      destruct V as (Vs & V1 & V2). cbn. split; [destruct fixed; exact Vs|]. split; eauto.
    - match type of E with match ?g with _ => _ end = _ => destruct g as [|gl [|gsl [|? [|? ?]]]] end; try discriminate. injection E as <-.
      destruct V as (Vs & V1 & V2). cbn. split; [destruct fixed; exact Vs|]. split; eauto.
  Qed.
  Lemma hid_update o : forall dL X X2 o', hid o -> update_gradients o dL X X2 = Ok o' -> hid o'.
  Proof.
    induction o; intros dL X X2 o' V E; cbn in E; oks.
    - injection E as <-. exact I.
    - injection E as <-. destruct V. cbn. split; eauto.
    - injection E as <-. destruct V. cbn. split; eauto.
    - match type of E with match ?g with _ => _ end = _ => destruct g as [|gl [|gsl [|? ?]]] end; try discriminate. injection E as <-.
      destruct V as (V1 & V2). cbn. split; match goal with H : update_gradients ?a _ _ _ = Ok ?b |- valid ?b => eapply (valid_update a); [|exact H]; assumption end.
    - match type of E with match ?g with _ => _ end = _ => destruct g as [|gl [|gsl [|? [|? ?]]]] end; try discriminate. injection E as <-.
      destruct V as (V1 & V2). cbn. split; match goal with H : update_gradients ?a _ _ _ = Ok ?b |- valid ?b => eapply (valid_update a); [|exact H]; assumption end.
  Qed.
  Lemma hid_assign o : forall vs r, hid o -> assign_from o vs = Ok r -> hid (fst r).
  Proof.
    induction o; intros vs r V E; cbn in E; oks; injection E as <-; cbn; try exact I; try exact V; destruct V; split; eauto.
  Qed.
  Lemma hid_optimise l : forall o o', hid o -> optimise o l = Ok o' -> hid o'.
  Proof.
    induction l as [|a t IH]; intros o o' V E; cbn in E; [injection E as <-; exact V|]. ok E. apply (IH r); [|exact E].
    destruct a; cbn in E0; [|eapply hid_update; eauto]. unfold ObjModel.assign in E0. ok E0. pose proof (hid_assign _ _ _ V E1) as H. destruct r0 as [o1 [|v w]]; cbn in *; [|discriminate]. injection E0 as <-. exact H.
  Qed.
  Lemma valid_new k : forall n, new_object k = Ok n -> valid n.
  Proof.
    induction k; intros n E; cbn in E; oks; injection E as <-; cbn; auto. destruct c; cbn; (split; [|auto]); [lra|lra].
  Qed.
  Lemma hid_new k : forall n, new_object k = Ok n -> hid n.
  Proof. induction k; intros n E; cbn in E; oks; injection E as <-; cbn; auto. destruct c; cbn; split; eapply valid_new; eauto. Qed.

  (** No gradients in the linked copies. *)
  Lemma new_clear k : forall n, new_object k = Ok n -> forall p, In p (listed n) -> pg p = 0.
  Proof.
    induction k; intros n E p Hp; cbn in E; oks; injection E as <-; cbn in Hp.
    - destruct b; cbn in E0; try discriminate; injection E0 as <-; cbn in Hp; unfold var_of in Hp; destruct variance, offset; cbn in Hp; repeat (destruct Hp as [<-|Hp]; [reflexivity|]); contradiction.
    - apply in_app_or in Hp as [Hp|Hp]; eauto.
    - apply in_app_or in Hp as [Hp|Hp]; eauto.
    - destruct c; cbn in Hp; unfold slope_of in Hp; (apply in_app_or in Hp as [Hp|Hp]; [apply in_app_or in Hp as [Hp|Hp]; eauto|]); destruct fixed; cbn in Hp;
        repeat (destruct Hp as [<-|Hp]; [reflexivity|]); contradiction.
  Qed.
  Lemma grads_zero o n : grads o = grads n -> (forall p, In p (listed n) -> pg p = 0) -> forall p, In p (listed o) -> pg p = 0.
  Proof.
    intros E H p Hp. apply (in_map pg) in Hp. fold (grads o) in Hp. rewrite E in Hp. apply in_map_iff in Hp as (p' & <- & Hp'). apply H; exact Hp'.
  Qed.
  Lemma inv_clear k : forall o, inv k o -> clear o.
  Proof.
    induction k; intros o H; destruct o; try (destruct c; contradiction); try contradiction; cbn; try exact I.
    - destruct H; split; auto.
    - destruct H; split; auto.
    - destruct c; [|contradiction]. destruct H as (_ & _ & _ & n1 & n2 & N1 & N2 & _ & _ & G1 & G2). intros p Hp. apply in_app_or in Hp as [Hp|Hp].
      + exact (grads_zero _ _ G1 (new_clear _ _ N1) p Hp).
      + exact (grads_zero _ _ G2 (new_clear _ _ N2) p Hp).
    - destruct c; [contradiction|]. destruct H as (_ & _ & _ & n1 & n2 & N1 & N2 & _ & _ & G1 & G2). intros p Hp. apply in_app_or in Hp as [Hp|Hp].
      + exact (grads_zero _ _ G1 (new_clear _ _ N1) p Hp).
      + exact (grads_zero _ _ G2 (new_clear _ _ N2) p Hp).
  Qed.

  (** Allowed values. *)
  Lemma roles_arity k : length (roles k) = arity k.
  Proof.
    induction k; cbn.
    - unfold base_roles, base_arity. destruct b, variance, offset; reflexivity.
    - rewrite app_length; lia.
    - rewrite app_length; lia.
    - rewrite !app_length, IHk1, IHk2. destruct c, fixed; reflexivity.
  Qed.
  Lemma operand_arity k : length (in_operand k) = arity k.
  Proof.
    induction k; cbn.
    - rewrite repeat_length. reflexivity.
    - rewrite app_length; lia.
    - rewrite app_length; lia.
    - rewrite app_length, !repeat_length. reflexivity.
  Qed.
  Lemma forall2_split {A B} (P : A -> B -> Prop) a b c d : length a = length c -> Forall2 P (a ++ b) (c ++ d) -> Forall2 P a c /\ Forall2 P b d.
  Proof.
    revert c. induction a as [|x a IH]; intros [|y c] L H; cbn in *; try discriminate; [split; [constructor|exact H]|].
    inversion H; subst. destruct (IH c) as [H1 H2]; [congruence|assumption|]. split; [constructor; assumption|exact H2].
  Qed.
  Lemma split_values k o1 o2 k2 : inv k o1 -> Forall2 allowed (roles k ++ k2) (map pv (listed o1 ++ o2)) -> Forall2 allowed (roles k) (values o1) /\ Forall2 allowed k2 (map pv o2).
  Proof. intros H F. rewrite map_app in F. apply forall2_split in F; [exact F|]. rewrite map_length, roles_arity. symmetry. apply inv_arity. exact H. Qed.

  Lemma allowed_valid k : forall o, inv k o -> hid o -> Forall2 allowed (roles k) (values o) -> valid o.
  Proof.
    induction k; intros o H Hd F; destruct o; try (destruct c; contradiction); try contradiction; cbn; try exact I.
    - destruct H as [H1 H2], Hd as [D1 D2]. unfold ObjProofs.values in F. cbn in F. apply split_values in F as [F1 F2]; [|exact H1]. split; auto.
    - destruct H as [H1 H2], Hd as [D1 D2]. unfold ObjProofs.values in F. cbn in F. apply split_values in F as [F1 F2]; [|exact H1]. split; auto.
    - destruct c; [|contradiction]. split; [|exact Hd]. destruct H as (H1 & H2 & Sl & _). unfold ObjProofs.values in F. cbn in F. rewrite <- !app_assoc in F.
      apply split_values in F as [_ F]; [|exact H1]. apply split_values in F as [_ F]; [|exact H2]. unfold slope_of, slope_ok in *.
      destruct fixed; cbn in F; [rewrite (Sl eq_refl); lra|]. inversion F; subst. cbn in *. lra.
    - destruct c; [contradiction|]. split; [|exact Hd]. destruct H as (H1 & H2 & Sl & _). unfold ObjProofs.values in F. cbn in F. rewrite <- !app_assoc in F.
      apply split_values in F as [_ F]; [|exact H1]. apply split_values in F as [_ F]; [|exact H2]. unfold slope_of, slope_ok in *.
      destruct fixed; cbn in F.
      + rewrite (Sl eq_refl). inversion F as [|? ? ? ? _ F1]; subst. inversion F1; subst. cbn in *. lra.
      + inversion F as [|? ? ? ? A1 F1]; subst. inversion F1 as [|? ? ? ? _ F2]; subst. inversion F2; subst. cbn in *. lra.
  Qed.

  Definition covered (k : gkern) (i : nat) : Prop := nth_error (in_operand k) i = Some true \/ exists r, nth_error (roles k) i = Some r /\ of_change r = false.
  Lemma covered_left k1 k2 k i : in_operand k = in_operand k1 ++ in_operand k2 -> roles k = roles k1 ++ roles k2 -> (i < arity k1)%nat -> covered k i -> covered k1 i.
  Proof. unfold covered. intros -> -> L. rewrite !nth_error_app1; [auto|rewrite roles_arity; exact L|rewrite operand_arity; exact L]. Qed.
  Lemma covered_right k1 k2 k i : in_operand k = in_operand k1 ++ in_operand k2 -> roles k = roles k1 ++ roles k2 -> (arity k1 <= i)%nat -> covered k i -> covered k2 (i - arity k1).
  Proof. unfold covered. intros -> -> L. rewrite !nth_error_app2; [|rewrite roles_arity; exact L|rewrite operand_arity; exact L]. rewrite roles_arity, operand_arity. auto. Qed.

  Lemma covered_change c k1 k2 i : covered (GChange c k1 k2) i -> (i < arity k1 + arity k2)%nat.
  Proof.
    intros H. destruct (Nat.lt_ge_cases i (arity k1 + arity k2)) as [L|L]; [exact L|exfalso]. unfold covered in H. cbn in H. destruct H as [H|(r & H & Hr)].
    - rewrite nth_error_app2 in H by (rewrite repeat_length; exact L). apply nth_error_In in H. apply repeat_spec in H. discriminate.
    - rewrite nth_error_app2 in H by (rewrite app_length, !roles_arity; exact L). apply nth_error_In in H. destruct fixed, c; cbn in H; repeat (destruct H as [<-|H]; [discriminate|]); contradiction.
  Qed.

  Lemma base_allowed b ob f i : base_shape b ob -> Forall2 allowed (base_roles offset f b) (map pv (listed_base offset f ob)) -> base_fine f ob i.
  Proof.
    intros B F. destruct b, ob; try contradiction; cbn; try exact I.
    - unfold base_roles in F. cbn in F. unfold var_of in F. destruct f; cbn in F.
      + destruct i as [|[|i]]; try exact I. inversion F as [|? ? ? ? _ F1]; subst. inversion F1; subst. cbn in *. lra.
      + destruct i as [|i]; try exact I. inversion F; subst. cbn in *. lra.
    - unfold base_roles in F. cbn in F. unfold var_of in F. destruct f; cbn in F.
      + inversion F as [|? ? ? ? _ F1]; subst. inversion F1 as [|? ? ? ? A1 F2]; subst. inversion F2 as [|? ? ? ? A2 _]; subst. cbn in *. destruct i as [|[|[|i]]]; try exact I; [lra|exact A2].
      + inversion F as [|? ? ? ? A1 F2]; subst. inversion F2 as [|? ? ? ? A2 _]; subst. cbn in *. destruct i as [|[|i]]; try exact I; [lra|exact A2].
  Qed.

  Lemma allowed_fine k : forall o i, inv k o -> Forall2 allowed (roles k) (values o) -> covered k i -> fine o i.
  Proof.
    induction k; intros o i H F Hc; destruct o; try (destruct c; contradiction); try contradiction; cbn -[Nat.ltb].
    - destruct H as (B & -> & _). exact (base_allowed _ _ _ _ B F).
    - destruct H as [H1 H2]. unfold ObjProofs.values in F. cbn in F. apply split_values in F as [F1 F2]; [|exact H1]. rewrite (inv_arity _ _ _ _ H1).
      destruct (Nat.ltb_spec i (arity k1)) as [L|L]; [apply IHk1|apply IHk2]; auto; [apply (covered_left k1 k2 (GAdd k1 k2))|apply (covered_right k1 k2 (GAdd k1 k2))]; auto.
    - destruct H as [H1 H2]. unfold ObjProofs.values in F. cbn in F. apply split_values in F as [F1 F2]; [|exact H1]. rewrite (inv_arity _ _ _ _ H1).
      destruct (Nat.ltb_spec i (arity k1)) as [L|L]; [apply IHk1|apply IHk2]; auto; [apply (covered_left k1 k2 (GMul k1 k2))|apply (covered_right k1 k2 (GMul k1 k2))]; auto.
    - apply covered_change in Hc. destruct c; [|contradiction]. destruct H as (H1 & H2 & _). rewrite app_length, (inv_arity _ _ _ _ H1), (inv_arity _ _ _ _ H2). exact Hc.
    - apply covered_change in Hc. destruct c; [contradiction|]. destruct H as (H1 & H2 & _). rewrite app_length, (inv_arity _ _ _ _ H1), (inv_arity _ _ _ _ H2). exact Hc.
  Qed.
  Lemma covered_arity k i : covered k i -> (i < arity k)%nat.
  Proof. intros [H|(r & H & _)]. - rewrite <- operand_arity. apply nth_error_Some. congruence. - rewrite <- roles_arity. apply nth_error_Some. congruence. Qed.

  Theorem optimise_derivatives k o l o1 n x dL : new_object k = Ok o -> optimise o l = Ok o1 -> Forall2 allowed (roles k) (map pv (listed o1)) ->
    array dL n n (ent dL) -> symmetric n (ent dL) ->
    exists o2, update_gradients o1 dL (column n x) None = Ok o2 /\ map pv (listed o2) = map pv (listed o1) /\
      forall i, nth_error (in_operand k) i = Some true \/ (exists r, nth_error (roles k) i = Some r /\ of_change r = false) ->
        exists v g K, nth_error (map pv (listed o1)) i = Some v /\ nth_error (map pg (listed o2)) i = Some g
          /\ (forall q, exists oq, assign o1 (set_nth i q (map pv (listed o1))) = Ok oq /\ computes (kK (kernel_of oq) (column n x) None) n n (K q))
          /\ is_gradient n n (ent dL) K v g.
  Proof.
    intros N E F A Sy. pose proof (inv_optimise _ _ _ _ _ _ (inv_new _ _ _ _ N) E) as IV. pose proof (hid_optimise _ _ _ (hid_new _ _ N) E) as Hd.
    pose proof (allowed_valid _ _ IV Hd F) as V. destruct (obj_runs offset fixed _ V n x) as (K0 & _ & _ & T). destruct (T dL A Sy) as [o2 U]. exists o2. split; [exact U|].
    split; [exact (proj2 (update_values _ _ _ _ _ _ _ U))|]. intros i Hc. change (covered k i) in Hc.
    pose proof (covered_arity _ _ Hc) as L. rewrite <- (inv_arity _ _ _ _ IV) in L. apply nth_error_Some in L. destruct (nth_error (listed o1) i) as [p|] eqn:P; [|congruence].
    destruct (obj_gradients offset fixed o1 i p n x dL o2 V (inv_clear _ _ IV) (allowed_fine _ _ _ IV F Hc) P A Sy U) as (p' & K & P' & C & D).
    exists (pv p), (pg p'), K. split; [rewrite nth_error_map, P; reflexivity|]. split; [rewrite nth_error_map, P'; reflexivity|]. split; [|exact D].
    intros q. exists (put offset fixed o1 i q). split; [|apply C]. unfold ObjModel.assign. pose proof (assign_put offset fixed o1 i q []) as H. rewrite app_nil_r in H. unfold ObjProofs.values in H. rewrite H. reflexivity.
  Qed.
End Grad.
