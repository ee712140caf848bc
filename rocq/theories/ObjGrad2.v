(** Gradients stored in kernel objects (C55). *)
From Coq Require Import Reals List Bool Arith Lra Lia.
From Coquelicot Require Import Coquelicot.
From Verif Require Import Py KexModel KernModel KernSpec KernSig KernGrad KernGrad2 KernGrad3 KernBessel KernGrad4 KernPsd KernProper SemModel ObjModel ObjSpec ObjProofs ObjGrad.
Import ListNotations.
Local Open Scope R_scope.

Section Grad.
  Variables (offset fixed : bool).
  Notation listed := (listed offset fixed).
  Notation kernel_of := (kernel_of offset).
  Notation assign_from := (assign_from offset fixed).
  Notation update_gradients := (update_gradients offset fixed).
  Notation values := (values offset fixed).

  (** ** Setting one value *)
  Definition setp (p : param) (q : R) : param := {| pv := q; pg := pg p |}.
  Definition put_base (f : bool) (b : bobj) (i : nat) (q : R) : bobj :=
    match b with
    | OWN v => if f then match i with O => OWN (setp v q) | _ => b end else b
    | OC v => if f then match i with O => OC (setp v q) | _ => b end else b
    | OLIN v o => match (if f then i else S i) with O => OLIN (setp v q) o | S O => if offset then OLIN v (setp o q) else b | _ => b end
    | OSE v l => match (if f then i else S i) with O => OSE (setp v q) l | S O => OSE v (setp l q) | _ => b end
    | OPER v p l => match (if f then i else S i) with O => OPER (setp v q) p l | S O => OPER v (setp p q) l | S (S O) => OPER v p (setp l q) | _ => b end
    end.
  Fixpoint put (o : kobj) (i : nat) (q : R) : kobj :=
    match o with
    | OBase b f => OBase (put_base f b i q) f
    | OAdd k1 k2 => if Nat.ltb i (length (listed k1)) then OAdd (put k1 i q) k2 else OAdd k1 (put k2 (i - length (listed k1)) q)
    | OMul k1 k2 => if Nat.ltb i (length (listed k1)) then OMul (put k1 i q) k2 else OMul k1 (put k2 (i - length (listed k1)) q)
    | OCP l1 l2 f s loc sl =>
        if Nat.ltb i (length (listed l1)) then OCP (put l1 i q) l2 f s loc sl
        else if Nat.ltb i (length (listed l1 ++ listed l2)) then OCP l1 (put l2 (i - length (listed l1)) q) f s loc sl
        else match (if fixed then S (i - length (listed l1 ++ listed l2)) else (i - length (listed l1 ++ listed l2))%nat) with
             | O => OCP l1 l2 f s loc (setp sl q) | S O => OCP l1 l2 f s (setp loc q) sl | _ => o end
    | OCW l1 l2 f s loc sl w =>
        if Nat.ltb i (length (listed l1)) then OCW (put l1 i q) l2 f s loc sl w
        else if Nat.ltb i (length (listed l1 ++ listed l2)) then OCW l1 (put l2 (i - length (listed l1)) q) f s loc sl w
        else match (if fixed then S (i - length (listed l1 ++ listed l2)) else (i - length (listed l1 ++ listed l2))%nat) with
             | O => OCW l1 l2 f s loc (setp sl q) w | S O => OCW l1 l2 f s (setp loc q) sl w | S (S O) => OCW l1 l2 f s loc sl (setp w q) | _ => o end
    end.

  Lemma eta_p p : {| pv := pv p; pg := pg p |} = p.
  Proof. destruct p; reflexivity. Qed.
  Lemma take_same p rest : take p (pv p :: rest) = Ok (p, rest).
  Proof. cbn. rewrite eta_p. reflexivity. Qed.
  Lemma set_nth_app i q u v : set_nth i q (u ++ v) = if Nat.ltb i (length u) then set_nth i q u ++ v else u ++ set_nth (i - length u) q v.
  Proof.
    revert i. induction u as [|a u IH]; intros i.
    - cbn. rewrite Nat.sub_0_r. reflexivity.
    - destruct i as [|i]; [reflexivity|]. specialize (IH i). change (set_nth (S i) q ((a :: u) ++ v)) with (a :: set_nth i q (u ++ v)). rewrite IH.
      change (S i <? length (a :: u))%nat with (i <? length u)%nat. destruct (i <? length u)%nat; reflexivity.
  Qed.

  Lemma assign_base_same f b rest : assign_base offset f b (map pv (listed_base offset f b) ++ rest) = Ok (b, rest).
  Proof. destruct b; cbn; destruct f, offset; cbn; rewrite ?eta_p; reflexivity. Qed.
  Lemma assign_same o rest : assign_from o (values o ++ rest) = Ok (o, rest).
  Proof.
    revert rest. induction o; intros rest; unfold ObjProofs.values in *; cbn.
    - rewrite assign_base_same. reflexivity.
    - rewrite map_app, <- app_assoc, IHo1. cbn. rewrite IHo2. reflexivity.
    - rewrite map_app, <- app_assoc, IHo1. cbn. rewrite IHo2. reflexivity.
    - rewrite !map_app, <- !app_assoc, IHo1. cbn. rewrite IHo2. cbn. unfold slope_of, take_if. destruct fixed; cbn; rewrite !eta_p; reflexivity.
    - rewrite !map_app, <- !app_assoc, IHo1. cbn. rewrite IHo2. cbn. unfold slope_of, take_if. destruct fixed; cbn; rewrite !eta_p; reflexivity.
  Qed.
  Lemma assign_base_put f b i q rest : assign_base offset f b (set_nth i q (map pv (listed_base offset f b)) ++ rest) = Ok (put_base f b i q, rest).
  Proof. unfold put_base; destruct b; destruct f, offset; destruct i as [|[|[|[|i]]]]; cbn; rewrite ?eta_p; reflexivity. Qed.
  Lemma assign_put o : forall i q rest, assign_from o (set_nth i q (values o) ++ rest) = Ok (put o i q, rest).
  Proof.
    induction o; intros i q rest.
    - unfold ObjProofs.values; cbn. rewrite assign_base_put. reflexivity.
    - unfold ObjProofs.values. cbn -[Nat.ltb]. rewrite map_app, set_nth_app, map_length. destruct (Nat.ltb i (length (listed o1))).
      + rewrite <- app_assoc, IHo1. cbn. rewrite assign_same. reflexivity.
      + rewrite <- app_assoc, assign_same. cbn. rewrite IHo2. reflexivity.
    - unfold ObjProofs.values. cbn -[Nat.ltb]. rewrite map_app, set_nth_app, map_length. destruct (Nat.ltb i (length (listed o1))).
      + rewrite <- app_assoc, IHo1. cbn. rewrite assign_same. reflexivity.
      + rewrite <- app_assoc, assign_same. cbn. rewrite IHo2. reflexivity.
    - unfold ObjProofs.values. cbn -[Nat.ltb]. rewrite map_app, set_nth_app, map_length. destruct (Nat.ltb_spec i (length (listed o1 ++ listed o2))) as [L|L].
      + rewrite map_app, set_nth_app, map_length. destruct (Nat.ltb_spec i (length (listed o1))) as [L1|L1].
        * rewrite <- !app_assoc, IHo1. cbn. rewrite assign_same. cbn. unfold slope_of, take_if. destruct fixed; cbn; rewrite !eta_p; reflexivity.
        * rewrite <- !app_assoc, assign_same. cbn. rewrite IHo2. cbn. unfold slope_of, take_if. destruct fixed; cbn; rewrite !eta_p; reflexivity.
      + destruct (Nat.ltb_spec i (length (listed o1))) as [L1|L1]; [rewrite app_length in L; lia|].
        rewrite map_app, <- !app_assoc, assign_same. cbn. rewrite assign_same. cbn. unfold slope_of, take_if.
        generalize (i - length (listed o1 ++ listed o2))%nat; intros j; destruct fixed; cbn; destruct j as [|[|[|j]]]; cbn; rewrite ?eta_p; reflexivity.
    - unfold ObjProofs.values. cbn -[Nat.ltb]. rewrite map_app, set_nth_app, map_length. destruct (Nat.ltb_spec i (length (listed o1 ++ listed o2))) as [L|L].
      + rewrite map_app, set_nth_app, map_length. destruct (Nat.ltb_spec i (length (listed o1))) as [L1|L1].
        * rewrite <- !app_assoc, IHo1. cbn. rewrite assign_same. cbn. unfold slope_of, take_if. destruct fixed; cbn; rewrite !eta_p; reflexivity.
        * rewrite <- !app_assoc, assign_same. cbn. rewrite IHo2. cbn. unfold slope_of, take_if. destruct fixed; cbn; rewrite !eta_p; reflexivity.
      + destruct (Nat.ltb_spec i (length (listed o1))) as [L1|L1]; [rewrite app_length in L; lia|].
        rewrite map_app, <- !app_assoc, assign_same. cbn. rewrite assign_same. cbn. unfold slope_of, take_if.
        generalize (i - length (listed o1 ++ listed o2))%nat; intros j; destruct fixed; cbn; destruct j as [|[|[|[|j]]]]; cbn; rewrite ?eta_p; reflexivity.
  Qed.

  (** ** Gradients can be computed *)
  Fixpoint valid (o : kobj) : Prop :=
    match o with
    | OBase _ _ => True
    | OAdd k1 k2 | OMul k1 k2 => valid k1 /\ valid k2
    | OCP _ _ f s _ sl => pv sl <> 0 /\ valid f /\ valid s
    | OCW _ _ f s _ sl w => (0 < pv sl /\ 0 < pv w) /\ valid f /\ valid s
    end.
  Definition runs (o : kobj) (n : nat) (x : nat -> R) (K : nat -> nat -> R) : Prop :=
    symmetric n K /\ computes (kK (kernel_of o) (column n x) None) n n K
    /\ forall dL, array dL n n (ent dL) -> symmetric n (ent dL) -> exists o', update_gradients o dL (column n x) None = Ok o'.

  Lemma bind_len {A} (m : res A) (f : A -> list R) (r : list R) : (do g <- m; Ok (f g)) = Ok r -> exists a, m = Ok a /\ r = f a.
  Proof. destruct m; cbn; intros E; inversion E; eauto. Qed.

  Lemma base_works b : works (base_kernel offset b).
  Proof.
    destruct b; cbn [base_kernel].
    - intros n x. eexists. split; [|split; [eexists; split; [reflexivity|repeat split]|]]. { intros i j _ _. cbn. rewrite Nat.eqb_sym. reflexivity. } intros. eexists. reflexivity.
    - intros n x. eexists. split; [|split; [eexists; split; [reflexivity|repeat split]|]]. { intros i j _ _. reflexivity. } intros. eexists. reflexivity.
    - destruct offset; [apply lin_works|]. intros n x. pose proof (lin0_entries (pv v) n x None) as HE. simpl in HE. eexists. split; [|split; [exact HE|]]. { intros i j _ _. ring. }
      intros dL HdL Hs. destruct (everywhere_right _ _ _ _ (lin0_gradient (pv v)) n x dL HdL Hs) as (g & _ & _ & E & _). eauto.
    - intros n x. eexists. split; [|split; [apply rbf_entries|]]. { intros i j _ _. unfold rbf_entry. replace ((x i - x j) ^ 2) with ((x j - x i) ^ 2) by ring. reflexivity. }
      intros dL HdL _. rewrite (rbf_run _ _ n x dL HdL). eauto.
    - apply per_works.
  Qed.
  Lemma base_store b dL X X2 g : kgrad (base_kernel offset b) dL X X2 = Ok g -> exists b', store_base b g = Ok b'.
  Proof.
    destruct b; cbn [base_kernel].
    - cbn. destruct X2; intros E; injection E as <-; eexists; reflexivity.
    - cbn. intros E; injection E as <-; eexists; reflexivity.
    - destruct offset; cbn [lin_kernel lin0_kernel kgrad]; intros E; apply bind_ok in E; destruct E as [a [_ E]]; injection E as <-; eexists; reflexivity.
    - cbn. intros E. oks. injection E as <-. eexists; reflexivity.
    - cbn [per_kernel kgrad]; intros E; apply bind_ok in E; destruct E as [a [_ E]]; injection E as <-; eexists; reflexivity.
  Qed.

  Lemma sig_grad_len c rev n x dL : valid_change c -> array dL n n (ent dL) -> symmetric n (ent dL) ->
    match c with ChangePoint _ _ => exists a b, sig_grad c rev dL (column n x) None = Ok [a; b] | ChangeWindow _ _ _ => exists a b d, sig_grad c rev dL (column n x) None = Ok [a; b; d] end.
  Proof.
    intros V A S. destruct (sig_grad_total c rev n x dL V A S) as [g E]. destruct c; cbn [sig_grad] in *; apply bind_ok in E; destruct E as [a [-> E]]; cbn; eauto.
  Qed.

  Lemma mmul_array A B n a b : array A n n a -> array B n n b -> exists M, mmul A B = Ok M /\ array M n n (fun i j => a i j * b i j).
  Proof. intros HA HB. destruct (array_ew Rmult A B n n _ _ HA HB) as (M & E & H). exists M. auto. Qed.
  Lemma sym_prod n a b M : symmetric n a -> symmetric n b -> array M n n (fun i j => a i j * b i j) -> symmetric n (ent M).
  Proof. intros Sa Sb H. apply (symmetrise _ _ _ H). intros i j Hi Hj. rewrite (Sa i j), (Sb i j) by assumption. reflexivity. Qed.
  Lemma sym_sig n c rev x : symmetric n (fun i j => 1 * (change_phi c rev (x i) * change_phi c rev (x j))).
  Proof. intros i j _ _. ring. Qed.

  Lemma obj_runs o : valid o -> forall n x, exists K, runs o n x K.
  Proof.
    induction o; intros V n x.
    - destruct (base_works b n x) as (K & S & C & T). exists K. split; [exact S|]. split; [exact C|]. intros dL A Sy. destruct (T dL A Sy) as [g E]. cbn. rewrite E. cbn.
      destruct (base_store _ _ _ _ _ E) as [b' ->]. cbn. eauto.
    - destruct V as [V1 V2]. destruct (IHo1 V1 n x) as (K1 & S1 & C1 & T1), (IHo2 V2 n x) as (K2 & S2 & C2 & T2). eexists. split; [|split; [apply (add_entries _ _ _ _ _ _ C1 C2)|]].
      { intros i j Hi Hj. rewrite (S1 i j), (S2 i j) by assumption. reflexivity. }
      intros dL A Sy. cbn. destruct (T1 dL A Sy) as [a ->], (T2 dL A Sy) as [b ->]. cbn. eauto.
    - destruct V as [V1 V2]. destruct (IHo1 V1 n x) as (K1 & S1 & C1 & T1), (IHo2 V2 n x) as (K2 & S2 & C2 & T2). eexists. split; [|split; [apply (prod_entries _ _ _ _ _ _ C1 C2)|]].
      { intros i j Hi Hj. rewrite (S1 i j), (S2 i j) by assumption. reflexivity. }
      intros dL A Sy. cbn. destruct C1 as (A1 & -> & H1), C2 as (A2 & -> & H2). cbn.
      destruct (mmul_array dL A2 n _ _ A H2) as (M1 & -> & J1), (mmul_array dL A1 n _ _ A H1) as (M2 & -> & J2). cbn.
      destruct (T1 M1 (array_self _ _ _ _ J1) (sym_prod _ _ _ _ Sy S2 J1)) as [a ->]. cbn. destruct (T2 M2 (array_self _ _ _ _ J2) (sym_prod _ _ _ _ Sy S1 J2)) as [b ->]. cbn. eauto.
    - destruct V as (Vs & V1 & V2). destruct (IHo3 V1 n x) as (K1 & S1 & C1 & T1), (IHo4 V2 n x) as (K2 & S2 & C2 & T2). eexists. split; [|split; [apply (change_entries (ChangePoint (pv location) (pv slope)) _ _ _ _ _ _ C1 C2)|]].
      { intros i j Hi Hj. unfold change_entry. rewrite (S1 i j), (S2 i j) by assumption. ring. }
      intros dL A Sy. cbn [ObjModel.update_gradients]. set (c := ChangePoint (pv location) (pv slope)) in *. assert (Vc : valid_change c) by exact Vs.
      destruct (sig_entries c true n x) as (B1 & F1 & G1), (sig_entries c false n x) as (B2 & F2 & G2). destruct C2 as (A2 & E2 & H2). rewrite F2, F1, E2. cbn.
      destruct (mmul_array dL B2 n _ _ A G2) as (D2 & -> & J2). cbn. destruct (T2 D2 (array_self _ _ _ _ J2) (sym_prod _ _ _ _ Sy (sym_sig n c false x) J2)) as [s' ->]. cbn.
      destruct (mmul_array dL A2 n _ _ A H2) as (Ds & -> & Js). cbn. destruct (sig_grad_len c false n x Ds Vc (array_self _ _ _ _ Js) (sym_prod _ _ _ _ Sy S2 Js)) as (ga & gb & E). cbn in E. rewrite E. cbn.
      destruct (mmul_array dL B1 n _ _ A G1) as (D1 & -> & J1). cbn. destruct (T1 D1 (array_self _ _ _ _ J1) (sym_prod _ _ _ _ Sy (sym_sig n c true x) J1)) as [f' ->]. cbn. eauto.
    - destruct V as (Vs & V1 & V2). destruct (IHo3 V1 n x) as (K1 & S1 & C1 & T1), (IHo4 V2 n x) as (K2 & S2 & C2 & T2). eexists. split; [|split; [apply (change_entries (ChangeWindow (pv location) (pv slope) (pv width)) _ _ _ _ _ _ C1 C2)|]].
      { intros i j Hi Hj. unfold change_entry. rewrite (S1 i j), (S2 i j) by assumption. ring. }
      intros dL A Sy. cbn [ObjModel.update_gradients]. set (c := ChangeWindow (pv location) (pv slope) (pv width)) in *. assert (Vc : valid_change c) by exact Vs.
      destruct (sig_entries c true n x) as (B1 & F1 & G1), (sig_entries c false n x) as (B2 & F2 & G2). destruct C2 as (A2 & E2 & H2). rewrite F2, F1, E2. cbn.
      destruct (mmul_array dL B2 n _ _ A G2) as (D2 & -> & J2). cbn. destruct (T2 D2 (array_self _ _ _ _ J2) (sym_prod _ _ _ _ Sy (sym_sig n c false x) J2)) as [s' ->]. cbn.
      destruct (mmul_array dL A2 n _ _ A H2) as (Ds & -> & Js). cbn. destruct (sig_grad_len c false n x Ds Vc (array_self _ _ _ _ Js) (sym_prod _ _ _ _ Sy S2 Js)) as (ga & gb & gw & E). cbn in E. rewrite E. cbn.
      destruct (mmul_array dL B1 n _ _ A G1) as (D1 & -> & J1). cbn. destruct (T1 D1 (array_self _ _ _ _ J1) (sym_prod _ _ _ _ Sy (sym_sig n c true x) J1)) as [f' ->]. cbn. eauto.
  Qed.

  (** ** The gradients stored *)
  Definition base_fine (f : bool) (b : bobj) (i : nat) : Prop :=
    match b with
    | OSE v l => match (if f then i else S i) with 1%nat => pv l <> 0 | _ => True end
    | OPER v p l => match (if f then i else S i) with 1%nat => pv p <> 0 | 2%nat => 0 < pv l < 10000 /\ 1 / pv l ^ 2 < 3.75 | _ => True end
    | _ => True
    end.
  Fixpoint fine (o : kobj) (i : nat) : Prop :=
    match o with
    | OBase b f => base_fine f b i
    | OAdd k1 k2 | OMul k1 k2 => if Nat.ltb i (length (listed k1)) then fine k1 i else fine k2 (i - length (listed k1))
    | OCP l1 l2 _ _ _ _ | OCW l1 l2 _ _ _ _ _ => (i < length (listed l1 ++ listed l2))%nat
    end.
  (** The linked copies inside changes hold no gradient. *)
  Fixpoint clear (o : kobj) : Prop :=
    match o with
    | OBase _ _ => True
    | OAdd k1 k2 | OMul k1 k2 => clear k1 /\ clear k2
    | OCP l1 l2 _ _ _ _ | OCW l1 l2 _ _ _ _ _ => forall p, In p (listed l1 ++ listed l2) -> pg p = 0
    end.

  Lemma base_gradients b f i p n x dL b' g : base_fine f b i -> nth_error (listed_base offset f b) i = Some p ->
    array dL n n (ent dL) -> symmetric n (ent dL) -> kgrad (base_kernel offset b) dL (column n x) None = Ok g -> store_base b g = Ok b' ->
    exists p' K, nth_error (listed_base offset f b') i = Some p' /\ (forall q, computes (kK (base_kernel offset (put_base f b i q)) (column n x) None) n n (K q)) /\ is_gradient n n (ent dL) K (pv p) (pg p').
  Proof.
    intros F Hp A Sy E St.
    assert (G : forall ker pv0 k, gradient_right ker (kgrad (base_kernel offset b)) pv0 k ->
      exists gk K, nth_error g k = Some gk /\ (forall q, computes (kK (ker q) (column n x) None) n n (K q)) /\ is_gradient n n (ent dL) K pv0 gk).
    { intros ker pv0 k H. destruct (H n x dL A Sy) as (g0 & gk & K & E0 & N & C & D). rewrite E in E0. injection E0 as <-. exists gk, K. auto. }
    unfold put_base. destruct b; cbn [base_kernel] in *.
    - destruct g as [|g1 [|g2 g]]; try discriminate. injection St as <-. destruct f; [|destruct i; discriminate]. destruct i as [|i]; [|destruct i; discriminate]. injection Hp as <-.
      destruct (G _ _ _ (white_gradient (pv v))) as (gk & K & N & C & D). injection N as <-. eexists _, K. split; [reflexivity|]. split; [exact C|exact D].
    - destruct g as [|g1 [|g2 g]]; try discriminate. injection St as <-. destruct f; [|destruct i; discriminate]. destruct i as [|i]; [|destruct i; discriminate]. injection Hp as <-.
      destruct (G _ _ _ (bias_gradient (pv v))) as (gk & K & N & C & D). injection N as <-. eexists _, K. split; [reflexivity|]. split; [exact C|exact D].
    - destruct offset eqn:O.
      + destruct g as [|g1 [|g2 [|g3 g]]]; try discriminate.
        { cbn in E. apply bind_ok in E. destruct E as [? [_ E]]. discriminate E. }
        injection St as <-.
        destruct (G _ _ _ (lin_gradient_1 (pv v) (pv o))) as (gk & K & N & C & D). injection N as <-. destruct (G _ _ _ (lin_gradient_2 (pv v) (pv o))) as (gk & K' & N & C' & D'). injection N as <-.
        destruct f; cbn in Hp.
        * destruct i as [|[|i]]; cbn in Hp; [injection Hp as <-|injection Hp as <-|destruct i; discriminate]; [exists (store v g1), K|exists (store o g2), K']; (split; [reflexivity|]); split; assumption.
        * destruct i as [|i]; cbn in Hp; [injection Hp as <-|destruct i; discriminate]. exists (store o g2), K'. split; [reflexivity|]. split; assumption.
      + destruct f; [|destruct i; discriminate]. destruct i as [|i]; [|destruct i; discriminate]. injection Hp as <-.
        destruct g as [|g1 [|g2 [|g3 g]]]; try discriminate.
        2: { cbn in E. apply bind_ok in E. destruct E as [? [_ E]]. discriminate E. }
        injection St as <-. destruct (G _ _ _ (everywhere_right _ _ _ _ (lin0_gradient (pv v)))) as (gk & K & N & C & D). injection N as <-. exists (store v g1), K. split; [reflexivity|]. split; assumption.
    - destruct g as [|g1 [|g2 [|g3 g]]]; try discriminate. injection St as <-.
      destruct (G _ _ _ (rbf_gradient_1 (pv v) (pv l))) as (gk & K & N & C & D). injection N as <-.
      assert (G2 : pv l <> 0 -> exists K', (forall q, computes (kK (rbf_kernel (pv v) q) (column n x) None) n n (K' q)) /\ is_gradient n n (ent dL) K' (pv l) g2).
      { intros L. destruct (G _ _ _ (rbf_gradient_2 (pv v) (pv l) L)) as (gk & K' & N & C' & D'). injection N as <-. exists K'. auto. }
      destruct f; cbn in Hp, F.
      * destruct i as [|[|i]]; cbn in Hp; [injection Hp as <-|injection Hp as <-|destruct i; discriminate].
        { exists (store v g1), K. split; [reflexivity|]. split; assumption. }
        destruct (G2 F) as [K' [C' D']]. exists (store l g2), K'. split; [reflexivity|]. split; assumption.
      * destruct i as [|i]; cbn in Hp; [injection Hp as <-|destruct i; discriminate]. destruct (G2 F) as [K' [C' D']]. exists (store l g2), K'. split; [reflexivity|]. split; assumption.
    - destruct g as [|g1 [|g2 [|g3 [|g4 g]]]]; try discriminate. injection St as <-.
      destruct (G _ _ _ (everywhere_right _ _ _ _ (per_gradient_1 bessel0 bessel1 (pv v) (pv p0) (pv l)))) as (gk & K & N & C & D). injection N as <-.
      assert (G2 : pv p0 <> 0 -> exists K', (forall q, computes (kK (per_kernel bessel0 bessel1 (pv v) q (pv l)) (column n x) None) n n (K' q)) /\ is_gradient n n (ent dL) K' (pv p0) g2).
      { intros L. destruct (G _ _ _ (everywhere_right _ _ _ _ (per_gradient_2 bessel0 bessel1 (pv v) (pv p0) (pv l) L))) as (gk & K' & N & C' & D'). injection N as <-. exists K'. auto. }
      assert (G3 : 0 < pv l < 10000 /\ 1 / pv l ^ 2 < 3.75 -> exists K', (forall q, computes (kK (per_kernel bessel0 bessel1 (pv v) (pv p0) q) (column n x) None) n n (K' q)) /\ is_gradient n n (ent dL) K' (pv l) g3).
      { intros [L L']. destruct (G _ _ _ (everywhere_right _ _ _ _ (per_gradient_3 (pv v) (pv p0) (pv l) L L'))) as (gk & K' & N & C' & D'). injection N as <-. exists K'. auto. }
      destruct f; cbn in Hp, F.
      * destruct i as [|[|[|i]]]; cbn in Hp; [injection Hp as <-|injection Hp as <-|injection Hp as <-|destruct i; discriminate].
        { exists (store v g1), K. split; [reflexivity|]. split; assumption. }
        { destruct (G2 F) as [K' [C' D']]. exists (store p0 g2), K'. split; [reflexivity|]. split; assumption. }
        destruct (G3 F) as [K' [C' D']]. exists (store l g3), K'. split; [reflexivity|]. split; assumption.
      * destruct i as [|[|i]]; cbn in Hp; [injection Hp as <-|injection Hp as <-|destruct i; discriminate].
        { destruct (G2 F) as [K' [C' D']]. exists (store p0 g2), K'. split; [reflexivity|]. split; assumption. }
        destruct (G3 F) as [K' [C' D']]. exists (store l g3), K'. split; [reflexivity|]. split; assumption.
  Qed.

  Lemma update_length o dL X X2 o' : update_gradients o dL X X2 = Ok o' -> length (listed o') = length (listed o).
  Proof. intros E. rewrite <- !(map_length pv). fold (values o') (values o). rewrite (proj2 (update_values _ _ _ _ _ _ _ E)). reflexivity. Qed.

  Theorem obj_gradients o : forall i p n x dL o', valid o -> clear o -> fine o i -> nth_error (listed o) i = Some p ->
    array dL n n (ent dL) -> symmetric n (ent dL) -> update_gradients o dL (column n x) None = Ok o' ->
    exists p' K, nth_error (listed o') i = Some p' /\ (forall q, computes (kK (kernel_of (put o i q)) (column n x) None) n n (K q)) /\ is_gradient n n (ent dL) K (pv p) (pg p').
  Proof.
    induction o; intros i p n x dL o' V Cl F Hp A Sy E.
    - cbn in E. oks. injection E as <-. cbn. apply (base_gradients b free i p n x dL r0 r F Hp A Sy E0 E1).
    - cbn in E. oks. injection E as <-. destruct V as [V1 V2], Cl as [Cl1 Cl2]. pose proof (update_length _ _ _ _ _ E0) as Len.
      destruct (obj_runs _ V1 n x) as (K1 & _ & C1 & _), (obj_runs _ V2 n x) as (K2 & _ & C2 & _). cbn -[Nat.ltb] in F, Hp |- *. destruct (Nat.ltb_spec i (length (listed o1))) as [L|L].
      + rewrite nth_error_app1 in Hp by exact L. destruct (IHo1 i p n x dL r V1 Cl1 F Hp A Sy E0) as (p' & K & N & C & D).
        exists p', (fun q i j => K q i j + K2 i j). split; [rewrite nth_error_app1 by lia; exact N|]. split; [intros q; cbn [ObjModel.kernel_of]; apply add_entries; auto|].
        apply (gradient_weights n (ent dL) (ent dL) (fun _ _ => 1) K); [intros; ring|intros; ring|exact D].
      + rewrite nth_error_app2 in Hp by exact L. destruct (IHo2 _ p n x dL r0 V2 Cl2 F Hp A Sy E1) as (p' & K & N & C & D).
        exists p', (fun q i j => K1 i j + K q i j). split; [rewrite nth_error_app2 by lia; rewrite Len; exact N|]. split; [intros q; cbn [ObjModel.kernel_of]; apply add_entries; auto|].
        apply (gradient_weights n (ent dL) (ent dL) (fun _ _ => 1) K); [intros; ring|intros; ring|exact D].
    - cbn in E. oks. injection E as <-. destruct V as [V1 V2], Cl as [Cl1 Cl2]. pose proof (update_length _ _ _ _ _ E2) as Len.
      destruct (obj_runs _ V1 n x) as (K1 & S1 & C1 & _), (obj_runs _ V2 n x) as (K2 & S2 & C2 & _).
      destruct C1 as (A1 & F1 & H1). rewrite F1 in E3. injection E3 as <-. destruct C2 as (A2 & F2 & H2). rewrite F2 in E0. injection E0 as <-.
      destruct (mmul_array dL A2 n _ _ A H2) as (M1 & Em1 & J1). rewrite Em1 in E1. injection E1 as <-. destruct (mmul_array dL A1 n _ _ A H1) as (M2 & Em2 & J2). rewrite Em2 in E4. injection E4 as <-.
      assert (C1 : computes (kK (kernel_of o1) (column n x) None) n n K1) by (exists A1; auto). assert (C2 : computes (kK (kernel_of o2) (column n x) None) n n K2) by (exists A2; auto).
      cbn -[Nat.ltb] in F, Hp |- *. destruct (Nat.ltb_spec i (length (listed o1))) as [L|L].
      + rewrite nth_error_app1 in Hp by exact L. destruct (IHo1 i p n x M1 r1 V1 Cl1 F Hp (array_self _ _ _ _ J1) (sym_prod _ _ _ _ Sy S2 J1) E2) as (p' & K & N & C & D).
        exists p', (fun q i j => K q i j * K2 i j). split; [rewrite nth_error_app1 by lia; exact N|]. split; [intros q; cbn [ObjModel.kernel_of]; apply prod_entries; auto|].
        apply (gradient_weights n (ent dL) (ent M1) K2 K); [intros a b Ha Hb; apply (array_value _ _ _ _ _ _ J1 Ha Hb)|intros; ring|exact D].
      + rewrite nth_error_app2 in Hp by exact L. destruct (IHo2 _ p n x M2 r4 V2 Cl2 F Hp (array_self _ _ _ _ J2) (sym_prod _ _ _ _ Sy S1 J2) E5) as (p' & K & N & C & D).
        exists p', (fun q i j => K1 i j * K q i j). split; [rewrite nth_error_app2 by lia; rewrite Len; exact N|]. split; [intros q; cbn [ObjModel.kernel_of]; apply prod_entries; auto|].
        apply (gradient_weights n (ent dL) (ent M2) K1 K); [intros a b Ha Hb; apply (array_value _ _ _ _ _ _ J2 Ha Hb)|intros; ring|exact D].
    - destruct (obj_runs _ V n x) as (K0 & _ & C0 & _). cbn in E. oks. match type of E with match ?g with _ => _ end = _ => destruct g as [|gl [|gsl [|? ?]]] end; try discriminate. injection E as <-. cbn -[Nat.ltb] in F, Hp |- *.
      rewrite nth_error_app1 in Hp by exact F. exists p, (fun _ => K0). split; [rewrite nth_error_app1 by exact F; exact Hp|]. split.
      + intros q. destruct (Nat.ltb_spec i (length (listed o1))) as [L1|L1]; [exact C0|]. apply Nat.ltb_lt in F. rewrite F. exact C0.
      + rewrite (Cl p (nth_error_In _ _ Hp)). apply gradient_const.
    - destruct (obj_runs _ V n x) as (K0 & _ & C0 & _). cbn in E. oks. match type of E with match ?g with _ => _ end = _ => destruct g as [|gl [|gsl [|? [|? ?]]]] end; try discriminate. injection E as <-. cbn -[Nat.ltb] in F, Hp |- *.
      rewrite nth_error_app1 in Hp by exact F. exists p, (fun _ => K0). split; [rewrite nth_error_app1 by exact F; exact Hp|]. split.
      + intros q. destruct (Nat.ltb_spec i (length (listed o1))) as [L1|L1]; [exact C0|]. apply Nat.ltb_lt in F. rewrite F. exact C0.
      + rewrite (Cl p (nth_error_In _ _ Hp)). apply gradient_const.
  Qed.
End Grad.
