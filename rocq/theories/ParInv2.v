(** Products with parameters: the invariant of components (C32-C34). *)
From Coq Require Import Reals Lra List Bool Arith ZArith Lia Permutation.
From Verif Require Import Py KexModel KexSpec KexProofs KexSimp KexMore KernModel KernSpec SemModel SemSpec SemProofs SemSimp SemKernel IvModel IvSpec IvProofs ParModel ParSpec ParMatch ParCov ParInv.
Import ListNotations.
Local Open Scope list_scope.

Lemma wf_cset_pos c b n : wf_counter c -> (0 < n)%Z -> wf_counter (cset c b n).
Proof.
  intros [N P] H. split; [apply cset_nodup, N|]. intros b' n' I. unfold cset in I.
  assert (D : n' = n \/ In (b', n') c). { clear -I. induction c as [|[a m] c IH]; cbn in I; [destruct I as [[= _ ->]|[]]; auto|]. destruct (base_eqb a b); destruct I as [[= -> ->]|I]; cbn; auto. destruct (IH I); auto. }
  destruct D as [->|D]; [exact H|eapply P, D].
Qed.

Section Inv.
  Context (offset fixed : bool).

  Definition sigmoid_values (b : base) (p : pdict) : Prop := exists c left, b = change_sigmoid c left /\ change_values fixed c p.
  (** The stored values of a factor: those of a sigmoid, or those of a base kernel without its variance. *)
  Definition stored (b : base) (p : pdict) : Prop := if is_sigmoid b then sigmoid_values b p else base_values offset b false p.
  (** What is put on a product: a variance, the values of a sigmoid or those of a base kernel. *)
  Definition entry_ok (e : pkey * pdict) : Prop :=
    match fst e with
    | KProduct => exists v, snd e = [(pVariance, v)]
    | KBase b => if is_sigmoid b then sigmoid_values b (snd e) else exists f, base_values offset b f (snd e)
    | _ => False
    end.
  Definition agree_counts (bts : counter) (ps : params) : Prop :=
    (cget bts bWN <= 0 \/ cget bts bLIN <= 0)%Z -> forall b, b <> bWN -> Z.of_nat (length (pars ps (KBase b))) = cget bts b.
  Definition inv (bts : counter) (ps : params) : Prop :=
    wf_counter bts /\ NoDup (map fst ps) /\ (exists v, pars ps KProduct = [[(pVariance, v)]]) /\
    (forall k, In k (map fst ps) -> k = KProduct \/ exists b, k = KBase b /\ pars ps k <> [] /\ Forall (stored b) (pars ps k) /\ (0 < cget bts b)%Z) /\
    ((0 < cget bts bWN)%Z -> In (KBase bWN) (map fst ps)) /\ agree_counts bts ps.

  Lemma sigmoid_no_variance b p : sigmoid_values b p -> no_variance p.
  Proof. intros (c & l & _ & E & _). apply dict_get_absent. rewrite E. destruct c; cbn; destruct fixed; cbn; intuition discriminate. Qed.
  Lemma stored_no_variance b p : stored b p -> no_variance p.
  Proof. unfold stored. destruct (is_sigmoid b); [apply sigmoid_no_variance|apply fixed_variance]. Qed.
  Lemma without_values b f p : base_values offset b f p -> base_values offset b false (without_variance p).
  Proof.
    intros [E P]. split.
    - assert (M : forall q : pdict, map fst (without_variance q) = filter (fun n => negb (is_variance n)) (map fst q)).
      { unfold without_variance. induction q as [|[n v] q IH]; [reflexivity|]. cbn [map filter fst]. destruct (is_variance n); cbn [negb map fst]; [exact IH|f_equal; exact IH]. }
      rewrite M, E. clear. induction (base_params offset b) as [|n ns IH]; [reflexivity|]. cbn [filter]. destruct f; cbn [orb]; destruct (is_variance n) eqn:V; cbn [negb filter]; rewrite ?V; cbn [negb]; [exact IH|f_equal; exact IH|exact IH|f_equal; exact IH].
    - intros n v I. apply filter_In in I as [I _]. apply P with (1 := I).
  Qed.

  (** The variance of a base kernel is a factor. *)
  Lemma value_without p n d : n <> pVariance -> value (without_variance p) n d = value p n d.
  Proof.
    intros N. unfold value. induction p as [|[m v] p IH]; [reflexivity|]. cbn. unfold is_variance. destruct (pname_eqb m pVariance) eqn:V; cbn.
    - apply pname_eqb_spec in V. subst. destruct n; try contradiction; exact IH.
    - destruct (pname_eqb m n); [reflexivity|exact IH].
  Qed.
  Lemma value_without_variance p d : value (without_variance p) pVariance d = d.
  Proof.
    apply value_absent. intros I. apply in_map_iff in I as ([n v] & E & I). apply filter_In in I as [_ I]. cbn in E, I. subst. discriminate I.
  Qed.
  Lemma cov_variance b p x i j : is_sigmoid b = false -> base_cov b p x i j = (value p pVariance 1 * base_cov b (without_variance p) x i j)%R.
  Proof.
    intros S. unfold base_cov. rewrite value_without_variance, !value_without by discriminate. destruct b; try discriminate S.
    - destruct (Nat.eqb i j); ring.
    - ring.
    - ring.
    - ring.
    - rewrite (per_scale (value p pVariance 1)). ring.
  Qed.

  (** ** One turn of the loop *)
  Lemma prod_replace ps v0 v : pars ps KProduct = [[(pVariance, v0)]] -> NoDup (map fst ps) ->
    let ps' := dict_set pkey_eqb ps KProduct [[(pVariance, (v0 * v)%R)]] in
    NoDup (map fst ps') /\ (forall k, In k (map fst ps') <-> In k (map fst ps)) /\ (forall k, k <> KProduct -> pars ps' k = pars ps k)
    /\ pars ps' KProduct = [[(pVariance, (v0 * v)%R)]] /\ forall x i j, product_cov ps' x i j = (product_cov ps x i j * v)%R.
  Proof.
    intros E ND ps'. assert (I : In KProduct (map fst ps)) by (apply pars_key; rewrite E; discriminate). split; [apply set_nodup, ND|]. split; [|split; [|split]].
    - intros k. unfold ps'. rewrite set_keys. split; [intros [->|H]; assumption|auto].
    - intros k N. unfold ps'. rewrite pars_set. destruct (pkey_eqb KProduct k) eqn:K; [apply pkey_eqb_eq in K; subst; contradiction|reflexivity].
    - unfold ps'. rewrite pars_set. reflexivity.
    - intros x i j. unfold ps'. apply product_replace; [exact I|]. rewrite E. unfold key_cov, mono_cov. cbn. unfold entry_cov, value. cbn. ring.
  Qed.
  Lemma values_dict_get_variance (p : pdict) : dict_get pname_eqb p pVariance = None -> value p pVariance 1 = 1%R.
  Proof. intros E. unfold value. now rewrite E. Qed.

  Lemma step_ok bts ps e : inv bts ps -> entry_ok e -> exists bts' ps', new_base_with_parameters (bts, ps) e = Ok (bts', ps') /\ inv bts' ps'
    /\ (forall b, cget bts' b = cget bts b + Z.of_nat (occ [e] b))%Z
    /\ (forall b, length (pars ps' (KBase b)) = length (pars ps (KBase b)) + occ [e] b)%nat
    /\ forall x i j, product_cov ps' x i j = (product_cov ps x i j * entry_cov e x i j)%R.
  Proof.
    intros (W & ND & (v0 & EP) & KS & WN & AC) EO. destruct e as [k p]. unfold entry_ok in EO. cbn [fst snd] in EO.
    destruct k as [b| | |]; try contradiction.
    - (* a factor *)
      set (p' := without_variance p).
      assert (ST : stored b p'). { unfold stored, p'. destruct (is_sigmoid b); [rewrite without_variance_id; [exact EO|apply (sigmoid_no_variance b), EO]|]. destruct EO as (f & V). eapply without_values, V. }
      assert (R : exists ps1 had, (match dict_get pname_eqb p pVariance with
            | Some v =>
                match pars ps KProduct with
                | [] => Raise EIndexError
                | p0 :: rest =>
                    do v0 <- pget p0 pVariance;
                    Ok (dict_set pkey_eqb ps KProduct (dict_set pname_eqb p0 pVariance (v0 * v)%R :: rest), dict_del pname_eqb p pVariance, true)
                end
            | None => Ok (ps, p, false)
            end) = Ok (ps1, p', had) /\ NoDup (map fst ps1) /\ (forall k, In k (map fst ps1) <-> In k (map fst ps)) /\ (forall k, k <> KProduct -> pars ps1 k = pars ps k)
            /\ (exists v, pars ps1 KProduct = [[(pVariance, v)]])
            /\ forall x i j, product_cov ps1 x i j = (product_cov ps x i j * value p pVariance 1)%R).
      { destruct (dict_get pname_eqb p pVariance) as [v|] eqn:V.
        - rewrite EP. cbn [pget dict_get pname_eqb bind dict_set]. destruct (prod_replace ps v0 v EP ND) as (A & B & D & E & F). eexists _, true. split; [reflexivity|].
          split; [exact A|]. split; [exact B|]. split; [exact D|]. split; [eexists; exact E|]. intros x i j. rewrite F. unfold value. rewrite V. ring.
        - exists ps, false. split; [unfold p'; rewrite without_variance_id by exact V; reflexivity|]. split; [exact ND|]. split; [reflexivity|]. split; [reflexivity|]. split; [eexists; exact EP|].
          intros x i j. rewrite (values_dict_get_variance p V). ring. }
      destruct R as (ps1 & had & ER & ND1 & K1 & P1 & (v1 & EP1) & C1). unfold new_base_with_parameters. rewrite ER. cbn [bind].
      exists (cset bts b (cget bts b + 1)%Z), (pappend ps1 (KBase b) p'). split; [reflexivity|].
      assert (GC : forall b', cget (cset bts b (cget bts b + 1)%Z) b' = (cget bts b' + Z.of_nat (occ [(KBase b, p)] b'))%Z).
      { intros b'. rewrite cget_cset, occ_cons. cbn [fst pkey_eqb]. unfold occ. cbn [filter length]. destruct (base_eqb b b') eqn:B.
        - apply base_eqb_spec in B. subst. rewrite base_eqb_refl. lia.
        - destruct (base_eqb b' b) eqn:B'; [apply base_eqb_spec in B'; subst; rewrite base_eqb_refl in B; discriminate B|]. lia. }
      assert (GP : forall b', pars (pappend ps1 (KBase b) p') (KBase b') = if base_eqb b b' then pars ps (KBase b') ++ [p'] else pars ps (KBase b')).
      { intros b'. rewrite pars_append. cbn [pkey_eqb]. destruct (base_eqb b b') eqn:B; [apply base_eqb_spec in B; subst|]; rewrite P1 by discriminate; reflexivity. }
      assert (GL : forall b', length (pars (pappend ps1 (KBase b) p') (KBase b')) = (length (pars ps (KBase b')) + occ [(KBase b, p)] b')%nat).
      { intros b'. rewrite GP, occ_cons. cbn [fst pkey_eqb]. unfold occ. cbn [filter length]. destruct (base_eqb b b') eqn:B.
        - apply base_eqb_spec in B. subst. rewrite base_eqb_refl, app_length. cbn. lia.
        - destruct (base_eqb b' b) eqn:B'; [apply base_eqb_spec in B'; subst; rewrite base_eqb_refl in B; discriminate B|]. lia. }
      split; [|split; [exact GC|split; [exact GL|]]].
      + split; [apply wf_cset_pos; [exact W|]; pose proof (wf_nonneg _ b W); lia|]. split; [unfold pappend; apply set_nodup, ND1|]. split; [exists v1; rewrite pars_append; cbn [pkey_eqb]; exact EP1|]. split; [|split].
        * intros k I. unfold pappend in I. apply set_keys in I as [->|I].
          -- right. exists b. split; [reflexivity|]. rewrite GP, base_eqb_refl. split; [intros D; symmetry in D; now apply app_cons_not_nil in D|]. split.
             ++ apply Forall_app. split; [|constructor; [exact ST|constructor]]. destruct (pars ps (KBase b)) eqn:E; [constructor|]. rewrite <- E.
                destruct (KS (KBase b)) as [D|(b' & D & _ & F & _)]; [apply pars_key; rewrite E; discriminate|discriminate D|]. injection D as <-. exact F.
             ++ rewrite GC, occ_cons. cbn [fst pkey_eqb]. rewrite base_eqb_refl. pose proof (wf_nonneg _ b W). lia.
          -- apply K1 in I. destruct (KS k I) as [->|(b' & -> & N & F & P)]; [left; reflexivity|]. right. exists b'. split; [reflexivity|]. rewrite GP, GC.
             destruct (base_eqb b b') eqn:B; [apply base_eqb_spec in B; subst b'; split; [intros D; symmetry in D; now apply app_cons_not_nil in D|split; [apply Forall_app; split; [exact F|constructor; [exact ST|constructor]]|lia]]|].
             split; [exact N|]. split; [exact F|lia].
        * intros H. unfold pappend. apply set_keys. destruct (base_eq_dec b bWN) as [->|D]; [left; reflexivity|]. right. apply K1, WN. rewrite GC, occ_cons in H. cbn [fst pkey_eqb] in H. unfold occ in H. cbn [filter length] in H.
          destruct (base_eqb bWN b) eqn:B; [apply base_eqb_spec in B; congruence|]. lia.
        * intros H b' N. rewrite GL, GC. rewrite !GC in H. pose proof (AC ltac:(destruct H; [left|right]; lia) b' N). lia.
      + intros x i j. rewrite product_append, C1. unfold entry_cov. cbn [fst snd]. destruct (is_sigmoid b) eqn:S.
        * unfold p'. rewrite without_variance_id by (apply (sigmoid_no_variance b), EO). rewrite (values_dict_get_variance p); [ring|apply (sigmoid_no_variance b), EO].
        * rewrite (cov_variance b p x i j S). unfold p'. ring.
    - (* a variance *)
      destruct EO as (v & ->). unfold new_base_with_parameters. cbn [dict_get pname_eqb]. rewrite EP. cbn [pget dict_get pname_eqb bind dict_set dict_del filter fst negb].
      destruct (prod_replace ps v0 v EP ND) as (A & B & D & E & F). eexists bts, _. split; [reflexivity|].
      assert (O : forall b, occ [(KProduct, [(pVariance, v)])] b = 0%nat) by reflexivity.
      split; [|split; [intros b; rewrite O; lia|split; [intros b; rewrite O, D by discriminate; lia|intros x i j; rewrite F; reflexivity]]].
      split; [exact W|]. split; [exact A|]. split; [eexists; exact E|]. split; [|split].
      + intros k I. apply B in I. destruct (KS k I) as [->|(b & -> & N & Fb & P)]; [left; reflexivity|]. right. exists b. rewrite D by discriminate. auto.
      + intros H. apply B, WN, H.
      + intros H b N. rewrite D by discriminate. now apply AC.
  Qed.

  Lemma steps_ok es : forall bts ps, inv bts ps -> Forall entry_ok es -> exists bts' ps', foldM new_base_with_parameters es (bts, ps) = Ok (bts', ps') /\ inv bts' ps'
    /\ (forall b, cget bts' b = cget bts b + Z.of_nat (occ es b))%Z
    /\ (forall b, length (pars ps' (KBase b)) = length (pars ps (KBase b)) + occ es b)%nat
    /\ forall x i j, product_cov ps' x i j = (product_cov ps x i j * mono_cov es x i j)%R.
  Proof.
    induction es as [|e es IH]; intros bts ps V F.
    - exists bts, ps. split; [reflexivity|]. split; [exact V|]. split; [intros; cbn; lia|]. split; [intros; cbn; lia|]. intros. unfold mono_cov. cbn. ring.
    - inversion F as [|? ? Fe Fes]; subst. destruct (step_ok bts ps e V Fe) as (b1 & p1 & E1 & V1 & C1 & L1 & P1).
      destruct (IH b1 p1 V1 Fes) as (b2 & p2 & E2 & V2 & C2 & L2 & P2). exists b2, p2. cbn [foldM]. rewrite E1. cbn [bind]. split; [exact E2|]. split; [exact V2|].
      assert (OC : forall b, occ (e :: es) b = (occ [e] b + occ es b)%nat) by (intros b; change (e :: es) with ([e] ++ es); apply occ_app). split; [|split].
      + intros b. rewrite C2, C1, OC. lia.
      + intros b. rewrite L2, L1, OC. lia.
      + intros x i j. rewrite P2, P1, mono_cov_cons. ring.
  Qed.
End Inv.
