(** The monomials of an expression: their covariance functions add up to that of the kernel object, and their factors are those of the distributed expression (C32-C34). *)
From Coq Require Import Reals Lra List Bool Arith ZArith Lia Permutation.
From Verif Require Import Py KexModel KexSpec KexProofs KexSimp KexMore KernModel KernSpec SemModel SemSpec SemProofs SemSimp SemKernel IvModel IvSpec IvProofs ParModel ParSpec ParMatch ParMatch2 ParCov ParInv ParInv2 ParInv3 ParComp ParSop.
Import ListNotations.
Local Open Scope list_scope.

Section Vals.
  Context (offset fixed : bool).

  (** ** Values of kernel objects *)
  Fixpoint kvals (k : vkern) : Prop :=
    match k with
    | VBase b q => is_sigmoid b = false /\ exists f, base_values offset b f q
    | VAdd l | VMul l => fold_right (fun k P => kvals k /\ P) True l
    | VChange c a b q => kvals a /\ kvals b /\ change_values fixed c q
    end.
  Lemma kvals_all l : fold_right (fun k P => kvals k /\ P) True l <-> Forall kvals l.
  Proof. induction l as [|k l IH]; cbn; [split; constructor|]. rewrite IH. split; [intros [A B]; constructor; assumption|intros F; inversion F; subst; split; assumption]. Qed.
  Lemma kvals_add k : kvals k -> Forall kvals (add_parts k).
  Proof. destruct k; cbn [add_parts]; intros H; try (constructor; [exact H|constructor]). now apply kvals_all. Qed.
  Lemma kvals_mul k : kvals k -> Forall kvals (mul_parts k).
  Proof. destruct k; cbn [mul_parts]; intros H; try (constructor; [exact H|constructor]). now apply kvals_all. Qed.
  Lemma fitted_kvals g k : actual g -> fitted offset fixed g k -> kvals k.
  Proof.
    intros A F. revert A. induction F as [b f q V|g1 g2 k1 k2 F1 IH1 F2 IH2|g1 g2 k1 k2 F1 IH1 F2 IH2|c g1 g2 k1 k2 q F1 IH1 F2 IH2 V]; intros A.
    - split; [exact A|exists f; exact V].
    - destruct A as [A1 A2]. cbn [vadd kvals]. apply kvals_all, Forall_app. split; apply kvals_add; auto.
    - destruct A as [A1 A2]. cbn [vmul kvals]. apply kvals_all, Forall_app. split; apply kvals_mul; auto.
    - destruct A as [A1 A2]. cbn [kvals]. auto.
  Qed.
  Lemma parts_kvals k K l : parts_of k K l -> kvals K -> Forall kvals l.
  Proof. intros P V. inversion P; subst; [constructor; [exact V|constructor]|now apply kvals_all|now apply kvals_all]. Qed.

  (** ** Base terms *)
  Definition base_vals (k : vkern) : Prop := exists b q, k = VBase b q /\ is_sigmoid b = false /\ exists f, base_values offset b f q.
  Lemma bases_vals bks : Forall is_base bks -> Forall kvals bks -> Forall base_vals bks.
  Proof. induction 1 as [|k bks B F IH]; intros V; [constructor|]. inversion V as [|? ? Vk Vs]; subst. constructor; [|apply IH, Vs]. destruct k as [b q| | |]; try contradiction. exists b, q. split; [reflexivity|exact Vk]. Qed.
  Lemma values_nil_absurd b bks q : In (VBase b q) bks -> values_of b bks <> [].
  Proof. induction bks as [|k bks IH]; intros I; [destruct I|]. unfold values_of. cbn. destruct I as [->|I]; [rewrite base_eqb_refl; discriminate|]. intros E. apply app_eq_nil in E as [_ E]. now apply IH. Qed.
  Lemma values_vals bks b q : Forall base_vals bks -> In q (values_of b bks) -> is_sigmoid b = false /\ exists f, base_values offset b f q.
  Proof. intros F I. apply (values_in b q) in I. rewrite Forall_forall in F. destruct (F _ I) as (b' & q' & E & H). injection E as <- <-. exact H. Qed.

  Lemma term_keys k bts ps bks key : term_params k bts ps bks -> In key (map fst ps) -> (key = KProduct /\ bks <> [] /\ k = KProd) \/ exists b, key = KBase b /\ (0 < cget bts b)%Z.
  Proof. intros (_ & _ & H) I. destruct k; [right; apply H, I|]. destruct H as (_ & H & _). destruct (H key I) as [[-> N]|H']; [left; auto|right; exact H']. Qed.
  Lemma term_some k bts ps bks : term_params k bts ps bks -> Forall base_vals bks -> (no_parameters ps = false <-> exists b, (0 < cget bts b)%Z).
  Proof.
    intros T F. split.
    - destruct ps as [|[key l] ps]; [discriminate|]. intros _. destruct (term_keys k bts _ bks key T (or_introl eq_refl)) as [(_ & N & _)|(b & _ & H)]; [|exists b; exact H].
      destruct bks as [|x bks]; [contradiction|]. inversion F as [|? ? (b & q & -> & _) _]; subst. exists b. destruct T as (_ & L & _). rewrite <- L. unfold values_of. cbn. rewrite base_eqb_refl. cbn [app length]. lia.
    - intros (b & H). destruct T as (_ & L & T). rewrite <- L in H. assert (N : pars ps (KBase b) <> []).
      { destruct k; [destruct T as [E _]|destruct T as [E _]]; rewrite E; destruct (values_of b bks); cbn in *; [lia|discriminate|lia|discriminate]. }
      destruct ps; [now destruct N|reflexivity].
  Qed.

  Lemma sum_valid bts ps bks : wf_counter bts -> term_params KSum bts ps bks -> Forall base_vals bks -> valid_sum offset bts ps.
  Proof.
    intros W (ND & L & E & K) F. split; [exact W|]. split; [exact ND|]. split; [|intros b; rewrite E; apply L].
    intros key I. destruct (K key I) as (b & -> & P). exists b. split; [reflexivity|]. rewrite E. rewrite <- L in P.
    destruct (values_of b bks) as [|q0 t] eqn:V; [cbn in P; lia|]. assert (Iq : forall q, In q (q0 :: t) -> is_sigmoid b = false /\ exists f, base_values offset b f q) by (intros q J; rewrite <- V in J; exact (values_vals bks b q F J)).
    split; [apply (Iq q0 (or_introl eq_refl))|]. split; [discriminate|]. apply Forall_forall. intros q J. apply Iq, J.
  Qed.
  Lemma product_valid bts ps bks n : wf_counter bts -> cardinality offset KProd bts n -> term_params KProd bts ps bks -> Forall base_vals bks -> valid_prod offset fixed bts ps n.
  Proof.
    intros W C (ND & L & E & K & V) F. assert (LE : forall b, Z.of_nat (length (pars ps (KBase b))) = cget bts b) by (intros b; rewrite E, map_length; apply L).
    destruct bks as [|k0 bks'] eqn:B.
    - left. split; [|intros b; rewrite <- L; reflexivity]. destruct ps as [|[key l] ps]; [reflexivity|]. exfalso. destruct (K key (or_introl eq_refl)) as [[_ N]|(b & _ & P)]; [now apply N|]. rewrite <- L in P. cbn in P. lia.
    - right. rewrite <- B in *. assert (NB : bks <> []) by (rewrite B; discriminate). destruct (V NB) as (v & _ & Pv). split; [|split; [|split; [exact C|exact LE]]].
      + split; [exact W|]. split; [exact ND|]. split; [exists v; exact Pv|]. split; [|split].
        * intros key I. destruct (K key I) as [[-> _]|(b & -> & P)]; [left; reflexivity|right]. exists b. split; [reflexivity|]. rewrite E. rewrite <- L in P |- *.
          split; [destruct (values_of b bks); [cbn in P; lia|discriminate]|]. split; [|exact P]. apply Forall_forall. intros q J. apply in_map_iff in J as (q0 & <- & J).
          destruct (values_vals bks b q0 F J) as (S & f & Hq). unfold stored. rewrite S. apply (without_values offset b f), Hq.
        * intros P. apply pars_key. rewrite <- LE in P. destruct (pars ps (KBase bWN)); [cbn in P; lia|discriminate].
        * intros _ b _. apply LE.
      + rewrite B in F. inversion F as [|? ? (b & q & -> & S & _) _]; subst. exists b. split; [exact S|]. rewrite <- L. unfold values_of. cbn. rewrite base_eqb_refl. cbn [app length]. lia.
  Qed.

  Lemma leaf_ok (left : bool) c ps l r b q : NoDup (map fst ps) ->
    (forall key, In key (map fst ps) -> key = KChange c \/ (exists b, l = inl b /\ key = KLeaf true b) \/ (exists b, r = inl b /\ key = KLeaf false b)) ->
    (if left then l else r) = @inl base pkex b -> pars ps (KLeaf left b) = [q] -> leaf_params ps left = Ok q.
  Proof.
    intros ND K E P. unfold leaf_params. assert (I : In (KLeaf left b) (map fst ps)) by (apply pars_key; rewrite P; discriminate).
    assert (U : forall b', In (KLeaf left b') (map fst ps) -> b' = b).
    { intros b' I'. destruct (K _ I') as [D|[(b2 & E2 & D)|(b2 & E2 & D)]]; [discriminate D| |]; injection D as -> ->; cbn in E; congruence. }
    clear K E. induction ps as [|[key vs] ps IH]; [destruct I|]. inversion ND as [|? ? NI ND']; subst. unfold pars in P. cbn [dict_get] in P. cbn [filter fst]. destruct (pkey_eqb key (KLeaf left b)) eqn:Q.
    - apply pkey_eqb_eq in Q. subst key. rewrite Bool.eqb_reflx. rewrite P. reflexivity.
    - assert (J : In (KLeaf left b) (map fst ps)) by (destruct I as [I|I]; [cbn in I; subst; rewrite pkey_eqb_same in Q; discriminate Q|exact I]).
      assert (X : match key with KLeaf l0 _ => Bool.eqb l0 left | _ => false end = false).
      { destruct key as [| | |l0 b0]; try reflexivity. destruct (Bool.eqb l0 left) eqn:D; [|reflexivity]. apply Bool.eqb_prop in D. subst l0. rewrite (U b0) in Q by (left; reflexivity). rewrite pkey_eqb_same in Q. discriminate Q. }
      rewrite X. apply IH; [exact ND'|exact P|exact J|]. intros b' I'. apply U. right. exact I'.
  Qed.

  Lemma assigned_valid p : forall K, assigned p K -> kvals K -> normal offset (erase p) -> valid offset fixed p /\ (full p = true <-> base_term_everywhere (erase p)).
  Proof.
    induction p as [k bts ps cts IH|c ps l r IHl IHr] using pkex_ind'; intros K A V N.
    - inversion A as [? ? ? ? ? bks cks P B T F|]; subst. pose proof (parts_kvals _ _ _ P V) as VP. apply Forall_app in VP as [Vb Vc]. pose proof (bases_vals bks B Vb) as BV.
      pose proof (N _ (node_self _)) as Hn. cbn [erase] in Hn. destruct Hn as (W & C & _). rewrite map_length in C.
      assert (G : forall c, In c cts -> valid offset fixed c /\ (full c = true <-> base_term_everywhere (erase c))).
      { intros c I. assert (X : exists kc, In kc cks /\ assigned c kc). { clear -F I. induction F as [|a b cts cks H F IHF]; [destruct I|]. destruct I as [<-|I]; [exists b; split; [left; reflexivity|exact H]|]. destruct (IHF I) as (kc & J & Ha). exists kc. split; [right; exact J|exact Ha]. }
        destruct X as (kc & Ic & Ac). apply (IH c I kc Ac).
        - rewrite Forall_forall in Vc. apply Vc, Ic.
        - intros n Hnode. apply N. cbn [erase]. eapply node_comm; [apply in_map, I|exact Hnode]. }
      split.
      + destruct k; cbn [valid]; (split; [|apply valid_all; intros c I; apply G, I]); [eapply sum_valid; eassumption|eapply product_valid; eassumption].
      + cbn [full]. rewrite andb_true_iff, negb_true_iff, (term_some _ _ _ _ T BV), forallb_forall. split.
        * intros [Hb Hc] k' bts' cts' Hnode. cbn [erase] in Hnode. inversion Hnode as [|? ? ? ? x Ix Hx| |]; subst; [exact Hb|]. apply in_map_iff in Ix as (c & <- & Ic). apply (proj1 (proj2 (G c Ic)) (Hc c Ic) k' bts' cts' Hx).
        * intros H. split; [apply (H k bts (map erase cts)); cbn [erase]; constructor|]. intros c I. apply (G c I). intros k' bts' cts' Hnode. apply (H k' bts' cts'). cbn [erase]. eapply node_comm; [apply in_map, I|exact Hnode].
    - inversion A as [|? ? ? ? K1 K2 q ND KS Eq BL BR]; subst. destruct V as (V1 & V2 & Vq).
      assert (GL : (match l with inl b => valid_leaf offset true ps b | inr x => valid offset fixed x end) /\ (match l with inl _ => true | inr x => full x end = true <-> forall x, l = inr x -> base_term_everywhere (erase x))).
      { inversion BL as [key ps' b q0 Eb|key ps' x K' Ax]; subst.
        - split; [|split; [intros _ x D; discriminate D|reflexivity]]. unfold valid_leaf, leaf_values. rewrite Eb. destruct V1 as [S Vf]. split; [exact S|]. split; [exact Vf|]. apply (leaf_ok true c ps (inl b) r b q0 ND KS eq_refl Eb).
        - destruct (IHl x eq_refl K1 Ax V1) as [Vx Fx]; [intros n Hnode; apply N; cbn [erase]; apply node_left, Hnode|]. split; [exact Vx|]. rewrite Fx. split; [intros H y [= <-]; exact H|intros H; apply H; reflexivity]. }
      assert (GR : (match r with inl b => valid_leaf offset false ps b | inr x => valid offset fixed x end) /\ (match r with inl _ => true | inr x => full x end = true <-> forall x, r = inr x -> base_term_everywhere (erase x))).
      { inversion BR as [key ps' b q0 Eb|key ps' x K' Ax]; subst.
        - split; [|split; [intros _ x D; discriminate D|reflexivity]]. unfold valid_leaf, leaf_values. rewrite Eb. destruct V2 as [S Vf]. split; [exact S|]. split; [exact Vf|]. apply (leaf_ok false c ps l (inl b) b q0 ND KS eq_refl Eb).
        - destruct (IHr x eq_refl K2 Ax V2) as [Vx Fx]; [intros n Hnode; apply N; cbn [erase]; apply node_right, Hnode|]. split; [exact Vx|]. rewrite Fx. split; [intros H y [= <-]; exact H|intros H; apply H; reflexivity]. }
      destruct GL as [VL FL]. destruct GR as [VR FR]. split.
      + cbn [valid]. split; [intros ->; discriminate Eq|]. unfold own_values. rewrite Eq. split; [reflexivity|]. split; [exact Vq|]. split; assumption.
      + cbn [full]. rewrite andb_true_iff, FL, FR. split.
        * intros [Hl Hr] k' bts' cts' Hnode. cbn [erase] in Hnode. destruct l as [bl|y], r as [br|z]; inversion Hnode; subst; try (eapply (Hl y eq_refl); eassumption); eapply (Hr z eq_refl); eassumption.
        * intros H. split; intros x -> k' bts' cts' Hnode; apply (H k' bts' cts'); cbn [erase]; [apply node_left|apply node_right]; exact Hnode.
  Qed.
End Vals.
