(** Matching the fitted values to the terms of an expression: proofs for C31. *)
From Coq Require Import String Ascii Reals List Bool Arith ZArith Lia Permutation.
From Verif Require Import Py KexModel KexSpec KexProofs KexSimp KexMore SemModel SemSpec SemProofs SemSimp SemKernel IvModel IvProofs ParModel ParSpec ParNames.
Import ListNotations.
Local Open Scope list_scope.
Notation length := Datatypes.length.

Lemma pname_eqb_spec a b : pname_eqb a b = true <-> a = b.
Proof. destruct a, b; cbn; split; intros H; try reflexivity; try discriminate H. Qed.
Lemma pkey_eqb_eq a b : pkey_eqb a b = true <-> a = b.
Proof.
  destruct a as [x| |x|l x], b as [y| |y|l' y]; cbn; split; intros H; try reflexivity; try discriminate H.
  - apply base_eqb_spec in H. now subst.
  - injection H as ->. apply base_eqb_refl.
  - apply cpcw_eqb_spec in H. now subst.
  - injection H as ->. now apply cpcw_eqb_spec.
  - apply andb_true_iff in H as [A B]. apply base_eqb_spec in B. apply eqb_prop in A. now subst.
  - injection H as -> ->. rewrite eqb_reflx, base_eqb_refl. reflexivity.
Qed.
Lemma pkey_eqb_same k : pkey_eqb k k = true.
Proof. now apply pkey_eqb_eq. Qed.
Lemma pkey_eq_dec (a b : pkey) : {a = b} + {a <> b}.
Proof. destruct (pkey_eqb a b) eqn:E; [left; now apply pkey_eqb_eq|right; intros H; apply pkey_eqb_eq in H; congruence]. Qed.

Lemma Forall2_len {A B} (P : A -> B -> Prop) l m : Forall2 P l m -> length l = length m.
Proof. induction 1; cbn; congruence. Qed.

(** ** Parameter dictionaries *)
Lemma pars_set d k l k' : pars (dict_set pkey_eqb d k l) k' = if pkey_eqb k k' then l else pars d k'.
Proof.
  unfold pars. assert (E : dict_get pkey_eqb (dict_set pkey_eqb d k l) k' = if pkey_eqb k k' then Some l else dict_get pkey_eqb d k').
  { induction d as [|[a v] d IH]; cbn; [reflexivity|]. destruct (pkey_eqb a k) eqn:A; cbn.
    - apply pkey_eqb_eq in A. subst. destruct (pkey_eqb k k'); reflexivity.
    - rewrite IH. destruct (pkey_eqb a k') eqn:B, (pkey_eqb k k') eqn:C; try reflexivity.
      apply pkey_eqb_eq in B, C. subst. rewrite pkey_eqb_same in A. discriminate A. }
  rewrite E. destruct (pkey_eqb k k'); reflexivity.
Qed.
Lemma set_keys d k (l : list pdict) x : In x (map fst (dict_set pkey_eqb d k l)) <-> x = k \/ In x (map fst d).
Proof.
  induction d as [|[a v] d IH]; cbn; [intuition congruence|]. destruct (pkey_eqb a k) eqn:A; cbn.
  - apply pkey_eqb_eq in A. subst. intuition.
  - rewrite IH. intuition.
Qed.
Lemma set_nodup d k (l : list pdict) : NoDup (map fst d) -> NoDup (map fst (dict_set pkey_eqb d k l)).
Proof.
  induction d as [|[a v] d IH]; cbn; intros N; [repeat constructor; auto|]. inversion N as [|? ? NI ND]; subst. destruct (pkey_eqb a k) eqn:A; cbn; [constructor; auto|].
  constructor; [|auto]. rewrite set_keys. intros [E|I]; [|auto]. subst. rewrite pkey_eqb_same in A. discriminate A.
Qed.
Lemma pars_append d k p k' : pars (pappend d k p) k' = if pkey_eqb k k' then pars d k ++ [p] else pars d k'.
Proof. apply pars_set. Qed.

Section Match.
  Context (offset fixed : bool).
  Definition agrees (d : list (string * R)) (pre : string) (k : vkern) : Prop :=
    forall s, dict_get String.eqb d (pre ++ s)%string = look (flat_names offset "" k) s.

  (** ** Reading the parameters of one object *)
  Lemma dict_get_absent (q : pdict) n : ~ In n (map fst q) -> dict_get pname_eqb q n = None.
  Proof.
    induction q as [|[m v] q IH]; cbn; intros H; [reflexivity|]. destruct (pname_eqb m n) eqn:E; [apply pname_eqb_spec in E; subst; exfalso; auto|auto].
  Qed.
  Lemma read_params_ok d skip pre f : skip = true \/ f = true -> forall ns q, NoDup ns ->
    map fst q = filter (fun n => f || negb (is_variance n)) ns ->
    (forall n, In n ns -> dict_get String.eqb d (pre ++ pname_str n)%string = dict_get pname_eqb q n) -> read_params d skip pre ns = Ok q.
  Proof.
    intros SF. induction ns as [|n ns IH]; intros q ND E L.
    - cbn in E. destruct q; [reflexivity|discriminate E].
    - inversion ND as [|? ? NI ND']; subst. cbn [filter] in E. cbn [read_params]. specialize (L n (or_introl eq_refl)) as Ln.
      destruct (f || negb (is_variance n)) eqn:K.
      + destruct q as [|[m v] q]; [discriminate E|]. cbn [map fst] in E. injection E as -> E. cbn [dict_get] in Ln.
        replace (pname_eqb n n) with true in Ln by (symmetry; now apply pname_eqb_spec).
        unfold dict_has. rewrite Ln. cbn [negb]. rewrite andb_false_r. unfold lookup. rewrite Ln. cbn [bind].
        rewrite (IH q); [reflexivity|exact ND'|exact E|]. intros m I. rewrite (L m (or_intror I)). cbn [dict_get].
        destruct (pname_eqb n m) eqn:D; [|reflexivity]. apply pname_eqb_spec in D. subst. contradiction.
      + apply orb_false_iff in K as [-> K]. apply negb_false_iff in K. destruct SF as [->|SF]; [|discriminate SF].
        rewrite dict_get_absent in Ln; [|rewrite E; intros I; apply filter_In in I as [I _]; contradiction].
        unfold dict_has. rewrite Ln, K. cbn. apply IH; auto. intros m I. apply L. right. exact I.
  Qed.
  Lemma base_params_nodup b : NoDup (base_params offset b).
  Proof. destruct b; cbn; try destruct offset; repeat constructor; cbn; intuition discriminate. Qed.
  Lemma change_params_nodup c : NoDup (change_params fixed c).
  Proof. destruct c; cbn; destruct fixed; repeat constructor; cbn; intuition discriminate. Qed.
  Lemma base_values_nodup b f q : base_values offset b f q -> NoDup (map fst q).
  Proof. intros [E _]. rewrite E. apply NoDup_filter, base_params_nodup. Qed.
  Lemma read_base_ok d skip pre b f q post : is_sigmoid b = false -> base_values offset b f q -> skip = true \/ f = true ->
    agrees d (pre ++ base_name offset b ++ post) (VBase b q) -> read_base offset d skip pre b post = Ok q.
  Proof.
    intros S V SF A. unfold read_base. rewrite S. apply (read_params_ok d skip _ f SF); [apply base_params_nodup|apply V|].
    intros n I. rewrite A. cbn [flat_names]. apply look_params. eapply base_values_nodup, V.
  Qed.

  (** ** Reading the base terms of a Sum or Product *)
  Definition agrees_parts (d : list (string * R)) (pre : string) (parts : list vkern) : Prop :=
    forall l1 k l2, parts = l1 ++ k :: l2 -> agrees d (pre ++ component_name (rev (names_of offset l1)) (vkern_name offset k))%string k.
  Definition base_part (b : base) (k : vkern) : Prop := exists f q, k = VBase b q /\ base_values offset b f q.

  Lemma values_of_app b l m : values_of b (l ++ m) = values_of b l ++ values_of b m.
  Proof. unfold values_of. now rewrite map_app, concat_app. Qed.
  Lemma values_of_split b l j q : nth_error (values_of b l) j = Some q -> exists l1 l2, l = l1 ++ VBase b q :: l2 /\ length (values_of b l1) = j.
  Proof.
    revert j. induction l as [|k l IH]; intros j H; [destruct j; discriminate H|].
    change (k :: l) with ([k] ++ l) in H. rewrite values_of_app in H.
    assert (C : (exists q', k = VBase b q') \/ values_of b [k] = []).
    { destruct k as [b' q'| | |]; try (right; reflexivity). unfold values_of; cbn. destruct (base_eqb b b') eqn:E; [left|right; reflexivity].
      apply base_eqb_spec in E. subst. now exists q'. }
    destruct C as [(q' & ->)|C].
    - assert (V : values_of b [VBase b q'] = [q']) by (unfold values_of; cbn; rewrite base_eqb_refl; reflexivity).
      rewrite V in H. destruct j as [|j]; cbn in H.
      + injection H as ->. exists [], l. split; reflexivity.
      + destruct (IH j H) as (l1 & l2 & -> & L). exists (VBase b q' :: l1), l2. split; [reflexivity|]. change (VBase b q' :: l1) with ([VBase b q'] ++ l1). rewrite values_of_app, app_length, V. cbn. lia.
    - rewrite C in H. destruct (IH j H) as (l1 & l2 & -> & L). exists (k :: l1), l2. split; [reflexivity|]. change (k :: l1) with ([k] ++ l1). rewrite values_of_app, C. exact L.
  Qed.
  Lemma count_names bs bks b : Forall2 base_part bs bks -> Forall (fun x => is_sigmoid x = false) bs -> is_sigmoid b = false ->
    count_str (names_of offset bks) (base_name offset b) = length (values_of b bks).
  Proof.
    intros F S Sb. induction F as [|x k bs bks H F IH]; [reflexivity|]. inversion S as [|? ? Sx Ss]; subst. destruct H as (f & q & -> & _).
    change (VBase x q :: bks) with ([VBase x q] ++ bks). rewrite values_of_app, app_length, <- IH by assumption. unfold count_str, names_of. cbn.
    destruct (String.eqb_spec (base_name offset b) (base_name offset x)) as [E|E].
    - apply base_name_inj in E; [|assumption|assumption]. subst. unfold values_of; cbn. rewrite base_eqb_refl. reflexivity.
    - unfold values_of; cbn. destruct (base_eqb b x) eqn:B; [apply base_eqb_spec in B; subst; contradiction|reflexivity].
  Qed.
  Lemma count_rev l n : count_str (rev l) n = count_str l n.
  Proof.
    unfold count_str. induction l as [|x l IH]; [reflexivity|]. cbn [rev]. rewrite filter_app, app_length, IH. cbn. destruct (String.eqb n x); cbn; lia.
  Qed.
  Lemma values_count bs bks b : Forall2 base_part bs bks -> length (values_of b bks) = count_occ base_eq_dec bs b.
  Proof.
    induction 1 as [|x k bs bks H F IH]; [reflexivity|]. destruct H as (f & q & -> & _). change (VBase x q :: bks) with ([VBase x q] ++ bks).
    rewrite values_of_app, app_length, IH. cbn [count_occ]. unfold values_of; cbn. destruct (base_eqb b x) eqn:B, (base_eq_dec x b) as [E|E]; cbn.
    - reflexivity. - apply base_eqb_spec in B. congruence. - subst. rewrite base_eqb_refl in B. discriminate B. - reflexivity.
  Qed.
  Lemma values_in b q bks : In q (values_of b bks) -> In (VBase b q) bks.
  Proof.
    unfold values_of. rewrite in_concat. intros (l & I & Hq). apply in_map_iff in I as (k & <- & I). destruct k as [b' q'| | |]; try destruct Hq.
    destruct (base_eqb b b') eqn:E; [|destruct Hq]. apply base_eqb_spec in E. destruct Hq as [->|[]]. now subst.
  Qed.
  Lemma Forall2_in_r {A B} (P : A -> B -> Prop) l m y : Forall2 P l m -> In y m -> exists x, In x l /\ P x y.
  Proof. induction 1 as [|a b l m H F IH]; intros []; [subst; exists a; split; [left; reflexivity|assumption]|]. destruct (IH H0) as (x & I & Hx). exists x. split; [right; exact I|exact Hx]. Qed.

  Lemma read_term d pre bs bks cks b j q : Forall2 base_part bs bks -> Forall (fun x => is_sigmoid x = false) bs ->
    agrees_parts d pre (bks ++ cks) -> nth_error (values_of b bks) j = Some q -> read_base offset d true pre b (postfix j ++ ".") = Ok q.
  Proof.
    intros F S A N. destruct (values_of_split _ _ _ _ N) as (l1 & l2 & E & L).
    assert (Hin : In (VBase b q) bks) by (rewrite E; apply in_or_app; right; left; reflexivity).
    destruct (Forall2_in_r _ _ _ _ F Hin) as (x & Ix & f & q' & Ek & V). injection Ek as <- <-.
    assert (Sb : is_sigmoid b = false) by (rewrite Forall_forall in S; auto).
    apply (read_base_ok d true pre b f q); [exact Sb|exact V|left; reflexivity|].
    specialize (A l1 (VBase b q) (l2 ++ cks)). rewrite E, <- app_assoc in A. specialize (A eq_refl). cbn [vkern_name] in A. unfold component_name in A.
    replace (count_str (rev (names_of offset l1)) (base_name offset b)) with j in A; [exact A|].
    rewrite count_rev. rewrite E in F. apply Forall2_app_inv_r in F as (bs1 & bs2 & F1 & F2 & ->). apply Forall_app in S as [S1 _]. rewrite (count_names bs1 l1 b F1 S1 Sb). symmetry. exact L.
  Qed.
  Lemma count_base_cons x seen b : count_base (x :: seen) b = ((if base_eqb b x then 1 else 0) + count_base seen b)%nat.
  Proof. unfold count_base. cbn. destruct (base_eqb b x); reflexivity. Qed.
  Lemma match_bases_ok d pre (Q : base -> nat -> pdict) : forall bs seen ps,
    (forall b j, In b bs -> (count_base seen b <= j < count_base seen b + count_occ base_eq_dec bs b)%nat -> read_base offset d true pre b (postfix j ++ ".") = Ok (Q b j)) ->
    exists ps', match_bases offset d pre seen bs ps = Ok ps'
      /\ (forall b, pars ps' (KBase b) = pars ps (KBase b) ++ map (Q b) (seq (count_base seen b) (count_occ base_eq_dec bs b)))
      /\ (forall k, In k (map fst ps') <-> In k (map fst ps) \/ exists b, k = KBase b /\ In b bs)
      /\ (NoDup (map fst ps) -> NoDup (map fst ps')).
  Proof.
    induction bs as [|b bs IH]; intros seen ps R.
    - exists ps. cbn. split; [reflexivity|]. split; [intros; now rewrite app_nil_r|]. split; [|auto]. intros k. split; [auto|]. intros [I|(b & _ & [])]; exact I.
    - cbn [match_bases]. rewrite (R b (count_base seen b)); [|left; reflexivity|cbn [count_occ]; destruct (base_eq_dec b b); [lia|contradiction]]. cbn [bind].
      destruct (IH (b :: seen) (pappend ps (KBase b) (Q b (count_base seen b)))) as (ps' & E & P & K & N).
      { intros x j I J. apply R; [right; exact I|]. rewrite count_base_cons in J. cbn [count_occ]. destruct (base_eqb x b) eqn:B, (base_eq_dec b x) as [D|D]; try lia.
        apply base_eqb_spec in B. congruence. }
      exists ps'. split; [exact E|]. split; [|split].
      + intros x. rewrite P, pars_append, count_base_cons. cbn [count_occ pkey_eqb]. destruct (base_eqb b x) eqn:B.
        * apply base_eqb_spec in B. subst x. rewrite base_eqb_refl. destruct (base_eq_dec b b) as [_|D]; [|contradiction]. cbn [seq map]. rewrite <- app_assoc. reflexivity.
        * destruct (base_eqb x b) eqn:B'; [apply base_eqb_spec in B'; subst; rewrite base_eqb_refl in B; discriminate B|]. destruct (base_eq_dec b x) as [D|D]; [subst; rewrite base_eqb_refl in B; discriminate B|]. reflexivity.
      + intros k. rewrite K. unfold pappend. rewrite set_keys. split.
        * intros [[->|I]|(x & -> & I)]; [right; exists b; split; [reflexivity|left; reflexivity]|left; exact I|right; exists x; split; [reflexivity|right; exact I]].
        * intros [I|(x & -> & [->|I])]; [left; right; exact I|left; left; reflexivity|right; exists x; auto].
      + intros ND. apply N. unfold pappend. apply set_nodup, ND.
  Qed.
  Lemma map_nth_values (l : list pdict) : map (fun j => nth j l []) (seq 0 (length l)) = l.
  Proof.
    induction l as [|x l IH] using rev_ind; [reflexivity|]. rewrite app_length. cbn [length]. rewrite Nat.add_1_r, seq_S, map_app. cbn [map Nat.add]. f_equal.
    - rewrite <- IH at 2. apply map_ext_in. intros j I. apply in_seq in I. rewrite app_nth1 by lia. reflexivity.
    - rewrite app_nth2 by lia. rewrite Nat.sub_diag. reflexivity.
  Qed.

  Lemma bases_read d pre bs obs bks cks : Permutation bs obs -> Forall2 base_part obs bks -> Forall (fun x => is_sigmoid x = false) obs -> agrees_parts d pre (bks ++ cks) ->
    exists ps, match_bases offset d pre [] bs [] = Ok ps /\ (forall b, pars ps (KBase b) = values_of b bks)
      /\ (forall k, In k (map fst ps) <-> exists b, k = KBase b /\ In b bs) /\ NoDup (map fst ps).
  Proof.
    intros Pm F S A. destruct (match_bases_ok d pre (fun b j => nth j (values_of b bks) []) bs [] []) as (ps & E & P & K & N).
    { intros b j I J. destruct (nth_error (values_of b bks) j) as [q|] eqn:Q.
      - rewrite (read_term d pre obs bks cks b j q F S A Q). erewrite nth_error_nth; [reflexivity|exact Q].
      - apply nth_error_None in Q. rewrite (values_count obs bks b F) in Q. rewrite (Permutation_count_occ base_eq_dec) in Pm. rewrite <- Pm in Q. unfold count_base in J; cbn in J. lia. }
    exists ps. split; [exact E|]. split; [|split].
    - intros b. rewrite P. cbn [count_base filter length]. unfold pars at 1; cbn [dict_get app].
      replace (count_occ base_eq_dec bs b) with (length (values_of b bks)); [apply map_nth_values|].
      rewrite (values_count obs bks b F). symmetry. now apply Permutation_count_occ.
    - intros k. rewrite K. cbn. intuition.
    - apply N. constructor.
  Qed.

  (** ** The variance of a product *)
  Definition no_variance (p : pdict) : Prop := dict_get pname_eqb p pVariance = None.
  Lemma take_variance_none l : Forall no_variance l -> take_variance l = None.
  Proof. induction 1 as [|p l H F IH]; [reflexivity|]. cbn. now rewrite H, IH. Qed.
  Lemma without_variance_id p : no_variance p -> without_variance p = p.
  Proof.
    unfold no_variance. induction p as [|[n v] p IH]; cbn; intros H; [reflexivity|]. unfold is_variance. destruct (pname_eqb n pVariance); [discriminate H|]. cbn [negb]. f_equal. exact (IH H).
  Qed.
  Lemma dict_del_variance p : dict_del pname_eqb p pVariance = without_variance p.
  Proof. reflexivity. Qed.
  Lemma map_without l : Forall no_variance l -> map without_variance l = l.
  Proof. induction 1 as [|p l H F IH]; [reflexivity|]. cbn. now rewrite IH, without_variance_id. Qed.
  Lemma take_single_ok b0 q0 v rest : dict_get pname_eqb q0 pVariance = Some v -> Forall no_variance rest -> forall ps,
    NoDup (map fst ps) -> In (KBase b0) (map fst ps) -> pars ps (KBase b0) = q0 :: rest ->
    (forall k, In k (map fst ps) -> k <> KBase b0 -> Forall no_variance (pars ps k)) ->
    exists ps', take_single_variance ps = Some (v, ps') /\ map fst ps' = map fst ps /\ forall k, pars ps' k = map without_variance (pars ps k).
  Proof.
    intros Hv Hr. induction ps as [|[k l] ps IH]; intros ND I P O; [destruct I|].
    cbn [map fst] in ND. inversion ND as [|? ? NI ND']; subst. cbn [take_single_variance].
    destruct (pkey_eq_dec k (KBase b0)) as [->|D].
    - assert (El : l = q0 :: rest) by (unfold pars in P; cbn in P; rewrite base_eqb_refl in P; exact P). subst l. cbn [take_variance]. rewrite Hv.
      exists ((KBase b0, dict_del pname_eqb q0 pVariance :: rest) :: ps). split; [reflexivity|]. split; [reflexivity|]. intros k. unfold pars. cbn [dict_get].
      destruct (pkey_eqb (KBase b0) k) eqn:E; [cbn [map]; rewrite dict_del_variance, (map_without rest Hr); reflexivity|].
      destruct (dict_get pkey_eqb ps k) as [l|] eqn:G; [|reflexivity]. symmetry. apply map_without. specialize (O k). unfold pars in O. cbn [dict_get] in O. rewrite E, G in O.
      apply O; [|intros ->; rewrite pkey_eqb_same in E; discriminate E]. right. clear -G. induction ps as [|[a w] ps IH]; [discriminate G|]. cbn in G. destruct (pkey_eqb a k) eqn:E; [left; now apply pkey_eqb_eq|right; auto].
    - assert (Nl : Forall no_variance l). { specialize (O k (or_introl eq_refl) D). unfold pars in O. cbn in O. rewrite pkey_eqb_same in O. exact O. }
      rewrite take_variance_none by exact Nl.
      assert (E0 : pkey_eqb k (KBase b0) = false) by (destruct (pkey_eqb k (KBase b0)) eqn:E; [apply pkey_eqb_eq in E; contradiction|reflexivity]).
      destruct IH as (ps' & E & M & W); [exact ND'|destruct I as [I|I]; [contradiction|exact I]|unfold pars in P; cbn in P; rewrite E0 in P; exact P| |].
      { intros k' I' D'. specialize (O k' (or_intror I') D'). unfold pars in O. cbn in O. destruct (pkey_eqb k k') eqn:E; [apply pkey_eqb_eq in E; subst; contradiction|exact O]. }
      rewrite E. exists ((k, l) :: ps'). split; [reflexivity|]. split; [cbn; now rewrite M|]. intros k'. unfold pars. cbn [dict_get]. destruct (pkey_eqb k k'); [symmetry; apply map_without, Nl|apply W].
  Qed.

  (** ** Fitted kernels of sums and products *)
  Definition vop (k : kind) : vkern -> vkern -> vkern := match k with KSum => vadd | KProd => vmul end.
  Definition vnode (k : kind) : list vkern -> vkern := match k with KSum => VAdd | KProd => VMul end.
  Definition vparts (k : kind) (v : vkern) : list vkern := match k with KSum => add_parts v | KProd => mul_parts v end.
  Lemma fitted_op k g1 g2 K : fitted offset fixed (gop k g1 g2) K -> exists k1 k2, fitted offset fixed g1 k1 /\ fitted offset fixed g2 k2 /\ K = vop k k1 k2.
  Proof. destruct k; cbn; intros H; inversion H; subst; eauto. Qed.
  Lemma fitted_fold k t : forall x K, fitted offset fixed (fold_left (gop k) t x) K ->
    exists k0 ks, fitted offset fixed x k0 /\ Forall2 (fitted offset fixed) t ks /\ K = fold_left (vop k) ks k0.
  Proof.
    induction t as [|y t IH]; intros x K H; cbn in H.
    - exists K, []. split; [exact H|]. split; constructor.
    - destruct (IH _ _ H) as (k0 & ks & F & Fs & ->). apply fitted_op in F as (k1 & k2 & F1 & F2 & ->). exists k1, (k2 :: ks). split; [exact F1|]. split; [constructor; assumption|reflexivity].
  Qed.
  Lemma fold_vop k ks : (forall x, In x ks -> vparts k x = [x]) -> forall l, fold_left (vop k) ks (vnode k l) = vnode k (l ++ ks).
  Proof.
    induction ks as [|x ks IH]; intros H l; [cbn; now rewrite app_nil_r|]. cbn [fold_left].
    assert (E : vop k (vnode k l) x = vnode k (l ++ [x])). { specialize (H x (or_introl eq_refl)). destruct k; cbn in *; unfold vadd, vmul; cbn; now rewrite H. }
    rewrite E, IH by (intros y I; apply H; right; exact I). rewrite <- app_assoc. reflexivity.
  Qed.
  Lemma fold_parts k k0 ks : (forall x, In x (k0 :: ks) -> vparts k x = [x]) -> parts_of k (fold_left (vop k) ks k0) (k0 :: ks).
  Proof.
    intros H. destruct ks as [|x ks]; [constructor|]. cbn [fold_left].
    assert (E : vop k k0 x = vnode k [k0; x]). { pose proof (H k0 (or_introl eq_refl)). pose proof (H x (or_intror (or_introl eq_refl))). destruct k; cbn in *; unfold vadd, vmul; now rewrite H0, H1. }
    rewrite E, fold_vop by (intros y I; apply H; right; right; exact I). destruct k; cbn; constructor; cbn; lia.
  Qed.
  Lemma parts_name k K l : parts_of k K l -> (2 <= length l)%nat -> K = vnode k l.
  Proof. destruct 1; cbn; intros L; [lia|reflexivity|reflexivity]. Qed.
  Lemma fitted_bases gs ks : Forall2 (fitted offset fixed) gs ks -> forall bs, map (fun g => match g with GBase b _ => b | _ => bWN end) gs = bs ->
    Forall (fun g => match g with GBase _ _ => True | _ => False end) gs -> Forall2 base_part bs ks.
  Proof.
    induction 1 as [|g k gs ks H F IH]; intros bs <- A; [constructor|]. inversion A as [|? ? Ag As]; subst. cbn. constructor; [|apply IH; [reflexivity|exact As]].
    destruct g; try contradiction. inversion H; subst. exists variance, ps. split; [reflexivity|assumption].
  Qed.

  Definition found (e : kex) (K : vkern) : Prop :=
    vkern_name offset K = kex_name e /\
    forall d pre, String.eqb pre "" = false -> agrees d pre K -> exists p, match_up offset fixed d false pre e = Ok p /\ erase p = e /\ assigned p K.

  Lemma go_ok d pre bks cks cts : String.eqb pre "" = false \/ True ->
    Forall2 found cts cks -> agrees_parts d pre (bks ++ cks) -> Forall (fun k => exists b, is_sigmoid b = false /\ vkern_name offset k = base_name offset b) bks ->
    forall c1 k1, Forall2 (fun c k => vkern_name offset k = kex_name c) c1 k1 -> forall c2 k2, Forall2 found c2 k2 -> cks = k1 ++ k2 -> cts = c1 ++ c2 ->
    exists ps, (fix go (seen : list string) (l : list kex) : res (list pkex) :=
                      match l with
                      | [] => Ok []
                      | c :: t =>
                          do pc <- match_up offset fixed d false (pre ++ component_name seen (kex_name c)) c;
                          do pt <- go (kex_name c :: seen) t;
                          Ok (pc :: pt)
                      end) (rev (map kex_name c1)) c2 = Ok ps /\ map erase ps = c2 /\ Forall2 assigned ps k2.
  Proof.
    intros _ F A B c1 k1 N c2. revert c1 k1 N. induction c2 as [|c c2 IH]; intros c1 k1 N k2 F2 Ek Ec.
    - inversion F2; subst. exists []. split; [reflexivity|]. split; [reflexivity|constructor].
    - inversion F2 as [|? k ? k2' Hc F2']; subst. destruct Hc as [Nm Hc].
      destruct (Hc d (pre ++ component_name (rev (map kex_name c1)) (kex_name c))%string) as (pc & Ep & Er & As).
      { unfold component_name. destruct (String.eqb_spec (pre ++ kex_name c ++ postfix (count_str (rev (map kex_name c1)) (kex_name c)) ++ ".") "") as [E|E]; [exfalso|reflexivity].
        destruct pre; [|discriminate E]. destruct c as [[|] ? ?|[|] ? ?]; cbn in E; discriminate E. }
      { specialize (A (bks ++ k1) k k2'). rewrite <- app_assoc in A. specialize (A eq_refl). rewrite Nm in A. unfold component_name in *. unfold names_of in A. rewrite map_app, rev_app_distr in A.
        replace (count_str (rev (map (vkern_name offset) k1) ++ rev (map (vkern_name offset) bks)) (kex_name c)) with (count_str (rev (map kex_name c1)) (kex_name c)) in A; [exact A|].
        assert (E1 : map (vkern_name offset) k1 = map kex_name c1) by (clear -N; induction N as [|? ? ? ? H N IH]; cbn; [reflexivity|now rewrite H, IH]).
        rewrite E1. unfold count_str. rewrite filter_app, app_length. enough (E0 : filter (String.eqb (kex_name c)) (rev (map (vkern_name offset) bks)) = []) by (rewrite E0; cbn; lia).
        apply filter_nil_iff. intros s I. apply in_rev, in_map_iff in I as (kb & <- & I). rewrite Forall_forall in B. destruct (B kb I) as (b & Sb & ->).
        destruct (String.eqb_spec (kex_name c) (base_name offset b)) as [E|E]; [|reflexivity]. symmetry in E. now apply base_name_kex in E. }
      rewrite Ep. cbn [bind]. destruct (IH (c1 ++ [c]) (k1 ++ [k])) with (k2 := k2') as (pt & Et & Ert & Ast).
      { apply Forall2_app; [exact N|]. constructor; [exact Nm|constructor]. }
      { exact F2'. } { rewrite <- app_assoc. reflexivity. } { rewrite <- app_assoc. reflexivity. }
      rewrite map_app, rev_app_distr in Et. cbn [map rev app] in Et. rewrite Et. cbn [bind]. exists (pc :: pt). split; [reflexivity|]. split; [cbn; now rewrite Er, Ert|constructor; assumption].
  Qed.

  Lemma base_part_named bs bks : Forall2 base_part bs bks -> Forall (fun x => is_sigmoid x = false) bs ->
    Forall (fun k => exists b, is_sigmoid b = false /\ vkern_name offset k = base_name offset b) bks.
  Proof.
    intros F S. induction F as [|b k bs bks (f & q & -> & _) F IH]; constructor; inversion S; subst; [exists b; split; [assumption|reflexivity]|auto].
  Qed.
  Lemma base_part_is_base bs bks : Forall2 base_part bs bks -> Forall is_base bks.
  Proof. induction 1 as [|b k bs bks (f & q & -> & _) F IH]; constructor; [exact I|assumption]. Qed.
  Lemma all_values bs bks : Forall2 base_part bs bks -> forall b q, In q (values_of b bks) -> In (VBase b q) bks.
  Proof. intros _ b q I. now apply values_in. Qed.

  (** Where the variances of a product are: its first base kernel has one, the others do not. *)
  Definition one_variance (bks : list vkern) : Prop :=
    match bks with
    | [] => True
    | VBase b q :: rest => base_values offset b true q /\ Forall (fun k => match k with VBase b q => base_values offset b false q | _ => False end) rest
    | _ => False
    end.
  Lemma free_variance b q : is_sigmoid b = false -> base_values offset b true q -> exists v, dict_get pname_eqb q pVariance = Some v.
  Proof.
    intros S [E _]. destruct q as [|[n v] q].
    - destruct b; try discriminate S; cbn in E; try destruct offset; discriminate E.
    - exists v. cbn. replace n with pVariance; [reflexivity|]. destruct b; try discriminate S; cbn in E; try (destruct offset; cbn in E); injection E; congruence.
  Qed.
  Lemma fixed_variance b q : base_values offset b false q -> no_variance q.
  Proof. intros [E _]. apply dict_get_absent. rewrite E. intros I. apply filter_In in I as [_ I]. discriminate I. Qed.
  Lemma values_fixed rest : Forall (fun k => match k with VBase b q => base_values offset b false q | _ => False end) rest -> forall b, Forall no_variance (values_of b rest).
  Proof.
    intros F b. apply Forall_forall. intros q I. apply values_in in I. rewrite Forall_forall in F. specialize (F _ I). cbn in F. eapply fixed_variance, F.
  Qed.
  Lemma variances_fixed rest : Forall (fun k => match k with VBase b q => base_values offset b false q | _ => False end) rest -> variances rest = [].
  Proof.
    induction 1 as [|k rest H F IH]; [reflexivity|]. destruct k as [b q| | |]; try contradiction. unfold variances in *. cbn. rewrite IH, app_nil_r.
    apply fixed_variance in H. unfold no_variance in H. now rewrite H.
  Qed.

  Lemma fitted_free L : forall ks, Forall2 (fitted offset fixed) (map (fun b => GBase b true) L) ks -> Forall2 base_part L ks.
  Proof.
    induction L as [|b L IH]; intros ks F; inversion F as [|? k ? ks' H F']; subst; [constructor|]. inversion H; subst. constructor; [exists true, ps; split; [reflexivity|assumption]|apply IH, F'].
  Qed.
  Lemma fitted_unlinked L : forall ks, Forall2 (fitted offset fixed) (map unlink_variance (map (fun b => GBase b true) L)) ks ->
    Forall2 base_part L ks /\ Forall (fun k => match k with VBase b q => base_values offset b false q | _ => False end) ks.
  Proof.
    induction L as [|b L IH]; intros ks F; inversion F as [|? k ? ks' H F']; subst; [split; constructor|]. cbn in H. inversion H; subst. destruct (IH _ F') as [A B].
    split; constructor; [exists false, ps; split; [reflexivity|assumption]|exact A|assumption|exact B].
  Qed.
  Lemma fitted_product L ks : Forall2 (fitted offset fixed) (keep_first_variance (map (fun b => GBase b true) L)) ks -> Forall2 base_part L ks /\ one_variance ks.
  Proof.
    destruct L as [|b L]; cbn [map keep_first_variance]; intros F; inversion F as [|? k ? ks' H F']; subst; [split; [constructor|exact I]|].
    inversion H; subst. apply fitted_unlinked in F' as [A B]. split; [constructor; [exists true, ps; split; [reflexivity|assumption]|exact A]|]. split; assumption.
  Qed.

  (** The kernel object of a Sum or Product has one part for each term. *)
  Lemma node_parts kd bts cts g K :
    (forall c, In c cts -> is_kind kd c = false /\ forall g k, to_kernel c = Ok g -> fitted offset fixed g k -> found c k /\ vparts kd k = [k]) ->
    to_kernel (Comm kd bts cts) = Ok g -> fitted offset fixed g K ->
    exists bks cks, parts_of kd K (bks ++ cks) /\ Forall2 base_part (order_base_kerns (celements bts)) bks /\ Forall2 found cts cks
      /\ Forall (fun b => is_sigmoid b = false) (order_base_kerns (celements bts)) /\ (kd = KProd -> one_variance bks)
      /\ (kd = KSum -> Forall (fun k => match k with VBase b q => base_values offset b true q | _ => False end) bks).
  Proof.
    intros H E F. rewrite to_kernel_comm in E. set (L := order_base_kerns (celements bts)) in *.
    destruct (mapM base_str_to_ker L) as [bs|] eqn:Eb; [|discriminate E]. cbn [bind] in E.
    assert (SL : Forall (fun b => is_sigmoid b = false) L).
    { clear -Eb. revert bs Eb. induction L as [|b t IH]; intros bs Eb; constructor; cbn in Eb; unfold base_str_to_ker at 1 in Eb; destruct (is_sigmoid b); try discriminate Eb; [reflexivity|].
      cbn in Eb. destruct (mapM base_str_to_ker t) as [ys|] eqn:Et; [|discriminate Eb]. now apply (IH ys). }
    apply mapM_base_inv in Eb. subst bs. destruct (seqM (map to_kernel cts)) as [gs|] eqn:Es; [|discriminate E]. cbn [bind] in E. apply seqM_inv in Es.
    set (gb := match kd with KSum => map (fun b => GBase b true) L | KProd => keep_first_variance (map (fun b => GBase b true) L) end) in *.
    destruct (gb ++ gs) as [|x t] eqn:Eg; [discriminate E|]. cbn [reduce1] in E. injection E as <-. apply fitted_fold in F as (k0 & ks & F0 & Fs & ->).
    assert (Fa : Forall2 (fitted offset fixed) (gb ++ gs) (k0 :: ks)) by (rewrite Eg; constructor; assumption).
    apply Forall2_app_inv_l in Fa as (bks & cks & Fb & Fc & Ek).
    assert (FL : Forall2 base_part L bks /\ (kd = KProd -> one_variance bks)
      /\ (kd = KSum -> Forall (fun k => match k with VBase b q => base_values offset b true q | _ => False end) bks)).
    { unfold gb in Fb. destruct kd.
      - split; [apply fitted_free, Fb|]. split; [intros D; discriminate D|]. intros _. clear -Fb. revert bks Fb. induction L as [|b L IH]; intros bks Fb; inversion Fb as [|? ? ? ? Hb Fb']; subst; constructor.
        + inversion Hb; subst. assumption. + apply IH, Fb'.
      - apply fitted_product in Fb as [A B]. split; [exact A|]. split; [intros _; exact B|intros D; discriminate D]. }
    destruct FL as (FL & OV & AF).
    assert (Fcc : Forall2 (fun c k => found c k /\ vparts kd k = [k]) cts cks).
    { clear -Es Fc H. revert cks Fc. induction Es as [|c g cts gs E Es IH]; intros cks Fc; inversion Fc as [|? k ? ks' Fk Fks]; subst; constructor.
      - destruct (H c (or_introl eq_refl)) as [_ Hc]. exact (Hc g k E Fk).
      - apply IH; [intros c' I; apply H; right; exact I|exact Fks]. }
    exists bks, cks. split; [|split; [exact FL|split; [|split; [exact SL|split; [exact OV|exact AF]]]]].
    - rewrite <- Ek. apply fold_parts. rewrite Ek. intros y I. apply in_app_or in I as [I|I].
      + destruct (Forall2_in_r _ _ _ _ FL I) as (b & _ & f & q & -> & _). destruct kd; reflexivity.
      + destruct (Forall2_in_r _ _ _ _ Fcc I) as (c & _ & _ & V). exact V.
    - clear -Fcc. induction Fcc as [|c k cts cks [A _] F IH]; constructor; assumption.
  Qed.

  Lemma elements_count bts b : wf_counter bts -> Z.of_nat (count_occ base_eq_dec (celements bts) b) = cget bts b.
  Proof. intros W. rewrite count_celements by (apply wf_nodup, W). pose proof (wf_nonneg bts b W). lia. Qed.

  Lemma comm_body kd bts cts bks cks d pre : wf_counter bts -> Forall2 base_part (order_base_kerns (celements bts)) bks ->
    Forall (fun b => is_sigmoid b = false) (order_base_kerns (celements bts)) -> Forall2 found cts cks -> (kd = KProd -> one_variance bks) ->
    agrees_parts d pre (bks ++ cks) ->
    exists ps ps' pcts, match_bases offset d pre [] (celements bts) [] = Ok ps
      /\ (fix go (seen : list string) (l : list kex) : res (list pkex) :=
                      match l with
                      | [] => Ok []
                      | c :: t =>
                          do pc <- match_up offset fixed d false (pre ++ component_name seen (kex_name c)) c;
                          do pt <- go (kex_name c :: seen) t;
                          Ok (pc :: pt)
                      end) [] cts = Ok pcts
      /\ (match kd with KSum => Ok ps | KProd => product_variance bts ps end) = Ok ps'
      /\ map erase pcts = cts /\ Forall2 assigned pcts cks /\ term_params kd bts ps' bks.
  Proof.
    intros W FL SL FC OV A.
    destruct (bases_read d pre (celements bts) (order_base_kerns (celements bts)) bks cks) as (ps & Eps & P & K & ND);
      [symmetry; apply order_perm|exact FL|exact SL|exact A|].
    destruct (go_ok d pre bks cks cts (or_intror I) FC A (base_part_named _ _ FL SL) [] [] (Forall2_nil _) cts cks FC eq_refl eq_refl) as (pcts & Eg & Er & As).
    cbn [map rev] in Eg.
    assert (CB : forall b, Z.of_nat (length (values_of b bks)) = cget bts b).
    { intros b. rewrite (values_count _ _ b FL). rewrite <- elements_count by exact W. f_equal. apply Permutation_count_occ, order_perm. }
    assert (KP : forall key, In key (map fst ps) -> exists b, key = KBase b /\ (0 < cget bts b)%Z).
    { intros key I. apply K in I as (b & -> & I). exists b. split; [reflexivity|]. apply in_celements; [apply wf_nodup, W|exact I]. }
    destruct kd.
    - exists ps, ps, pcts. split; [exact Eps|]. split; [exact Eg|]. split; [reflexivity|]. split; [exact Er|]. split; [exact As|].
      split; [exact ND|]. split; [exact CB|]. split; [exact P|exact KP].
    - specialize (OV eq_refl). unfold product_variance.
      assert (CE : (csum bts = Z.of_nat (length bks))%Z).
      { rewrite <- celements_length by (intros b n I; destruct W as [_ W]; specialize (W b n I); lia). f_equal. rewrite <- (Forall2_len _ _ _ FL). apply Permutation_length. symmetry. apply order_perm. }
      destruct bks as [|k0 rest].
      + exists ps, ps, pcts. split; [exact Eps|]. split; [exact Eg|]. rewrite CE. cbn [length Z.of_nat]. split; [reflexivity|]. split; [exact Er|]. split; [exact As|].
        split; [exact ND|]. split; [exact CB|]. split; [intros b; rewrite P; reflexivity|]. split; [intros key I; right; apply KP, I|]. intros D; contradiction.
      + destruct k0 as [b0 q0| | |]; try contradiction OV. destruct OV as [V0 VR].
        assert (S0 : is_sigmoid b0 = false).
        { inversion FL as [|x ? L' ? (f & q & Eq & _) FL' EL]; subst. injection Eq as -> ->. rewrite <- EL in SL. inversion SL; subst. assumption. }
        destruct (free_variance b0 q0 S0 V0) as (v & Hv).
        assert (V1 : forall b, values_of b (VBase b0 q0 :: rest) = (if base_eqb b b0 then [q0] else []) ++ values_of b rest) by (intros b; unfold values_of; reflexivity).
        destruct (take_single_ok b0 q0 v (values_of b0 rest) Hv (values_fixed rest VR b0) ps ND) as (ps1 & Et & Em & Ew).
        { apply K. exists b0. split; [reflexivity|]. apply in_celements; [apply wf_nodup, W|]. rewrite <- CB, V1, base_eqb_refl. cbn [app length]. lia. }
        { rewrite P, V1, base_eqb_refl. reflexivity. }
        { intros k Ik D. destruct (KP k Ik) as (b & -> & _). rewrite P, V1. destruct (base_eqb b b0) eqn:E; [apply base_eqb_spec in E; subst; contradiction|]. cbn [app]. apply values_fixed, VR. }
        exists ps, (pappend ps1 KProduct [(pVariance, v)]), pcts. split; [exact Eps|]. split; [exact Eg|].
        rewrite CE. cbn [length]. replace (0 <? Z.of_nat (S (length rest)))%Z with true by (symmetry; apply Z.ltb_lt; lia). rewrite Et. split; [reflexivity|]. split; [exact Er|]. split; [exact As|].
        assert (NP : pars ps1 KProduct = []).
        { rewrite Ew. unfold pars. destruct (dict_get pkey_eqb ps KProduct) as [l|] eqn:G; [exfalso|reflexivity].
          assert (I : In KProduct (map fst ps)). { clear -G. induction ps as [|[a w] ps IH]; [discriminate G|]. cbn in G. destruct (pkey_eqb a KProduct) eqn:E; [left; now apply pkey_eqb_eq|right; auto]. }
          destruct (KP _ I) as (b & D & _). discriminate D. }
        split; [unfold pappend; apply set_nodup; rewrite Em; exact ND|]. split; [exact CB|]. split; [|split].
        * intros b. rewrite pars_append. cbn [pkey_eqb]. rewrite Ew, P. reflexivity.
        * intros key I. unfold pappend in I. apply set_keys in I as [->|I]; [left; split; [reflexivity|discriminate]|right; apply KP; rewrite <- Em; exact I].
        * intros _. exists v. split; [|rewrite pars_append; cbn [pkey_eqb]; rewrite NP; reflexivity].
          unfold variances. cbn [map concat]. rewrite Hv. fold (variances rest). rewrite variances_fixed by exact VR. reflexivity.
  Qed.
End Match.
