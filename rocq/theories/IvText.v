(** The description of a simplified pure product. *)
From Coq Require Import String Reals List Bool Arith ZArith Lia Permutation Sorting.Sorted.
From Verif Require Import Py UtilProofs KexModel KexSpec KexProofs KernModel SemModel IvModel IvSpec IvProofs IvOk.
Import ListNotations.
Local Open Scope list_scope.

(** * No ValueError *)
Definition nv {A : Type} (m : res A) : Prop := m <> Raise EValueError.
Lemma nv_ok {A} (a : A) : nv (Ok a). Proof. discriminate. Qed.
Lemma nv_bind {A B} (m : res A) (f : A -> res B) : nv m -> (forall a, m = Ok a -> nv (f a)) -> nv (bind m f).
Proof. unfold nv. intros H1 H2. destruct m; cbn; [apply H2; reflexivity | congruence]. Qed.
Lemma nv_rmap {A B} (m : res A) (f : A -> B) : nv m -> nv (rmap f m).
Proof. unfold nv. destruct m; cbn; congruence. Qed.
Lemma nv_mapM {A B} (f : A -> res B) l : (forall x, In x l -> nv (f x)) -> nv (mapM f l).
Proof.
  induction l as [|x t IH]; intros H; cbn; [apply nv_ok|].
  apply nv_bind; [apply H; now left|]. intros y _. apply nv_bind; [apply IH; intros; apply H; now right|]. intros; apply nv_ok.
Qed.
Lemma nv_foldM {A B} (f : A -> B -> res A) l a : (forall a x, nv (f a x)) -> nv (foldM f l a).
Proof. intros H. revert a. induction l as [|x t IH]; intros a; cbn; [apply nv_ok|]. apply nv_bind; auto. Qed.
Lemma nv_vget f v : nv (vget f v).
Proof. destruct v as [|i|]; cbn; try discriminate. destruct (f i); discriminate. Qed.
Lemma nv_vmissing f v : nv (vmissing f v).
Proof. destruct v; cbn; discriminate. Qed.
Lemma nv_vslope v : nv (vslope v).
Proof. destruct v; cbn; discriminate. Qed.
Lemma nv_pget p n : nv (pget p n).
Proof. unfold pget. destruct (dict_get pname_eqb p n); discriminate. Qed.
Lemma nv_best_from better key v k l : (forall x, nv (key x)) -> nv (best_from better key v k l).
Proof.
  intros H. revert v k. induction l as [|x t IH]; intros v k; cbn; [apply nv_ok|].
  apply nv_bind; [apply H|]. intros kx _. destruct (better kx k); apply IH.
Qed.
Lemma nv_best better f l : l <> [] -> nv (best better (vget f) l).
Proof. destruct l as [|x t]; [congruence|]. intros _. cbn. apply nv_bind; [apply nv_vget|]. intros. apply nv_best_from. apply nv_vget. Qed.
Ltac nvs :=
  repeat first
    [ apply nv_ok | apply nv_vget | apply nv_vmissing | apply nv_vslope | apply nv_pget
    | apply nv_bind; [|intros ? _] | apply nv_rmap
    | match goal with |- nv (if ?c then _ else _) => destruct c end
    | discriminate ].
Lemma nv_S_overlap l : l <> [] -> nv (S_overlap l). Proof. apply nv_best. Qed.
Lemma nv_Sr_overlap l : l <> [] -> nv (Sr_overlap l). Proof. apply nv_best. Qed.
Lemma nv_SI_overlap l : l <> [] -> nv (SI_overlap l).
Proof. intros H. unfold SI_overlap. apply nv_bind; [now apply nv_S_overlap|intros ? _]. apply nv_bind; [now apply nv_Sr_overlap|intros ? _]. nvs. Qed.
Lemma nv_segment_semiline a b : nv (intersect_segment_semiline a b).
Proof. unfold intersect_segment_semiline. nvs. Qed.
Lemma nv_segment_hole a b : nv (intersect_segment_hole a b).
Proof. unfold intersect_segment_hole. nvs. Qed.
Lemma nv_semiline_hole a b : nv (intersect_semiline_hole a b).
Proof. unfold intersect_semiline_hole. nvs. Qed.
Lemma nv_SIr_overlap l : nv (SIr_overlap l).
Proof.
  destruct l as [|h t]; cbn; [discriminate|]. apply nv_bind; [unfold SIr_split_intervals; nvs|]. intros s _. apply nv_rmap.
  apply nv_foldM. intros a x. unfold SIr_overlap_step. apply nv_rmap, nv_mapM. intros v _.
  apply nv_bind; [apply nv_vmissing|intros b _]. apply nv_bind; [destruct b; nvs|intros b' _]. destruct b'; [apply nv_semiline_hole | apply nv_segment_hole].
Qed.
Lemma nv_type_overlap fixed b ps : ps <> [] -> nv (type_overlap fixed b ps).
Proof.
  intros H. assert (Hm : forall (f : pdict -> res val) l, mapM f (check_slope fixed ps) = Ok l -> l <> []).
  { intros f l Hl. apply mapM_Forall2 in Hl. rewrite check_slope_map in Hl. destruct ps; [congruence|]. inversion Hl. discriminate. }
  destruct b; cbn [type_overlap]; (apply nv_bind; [apply nv_mapM; intros p _; unfold S_interval, Sr_interval, SI_interval, SIr_hole_interval, SI_ps_left, SI_ps_right; nvs|]);
    intros l Hl; try apply nv_SIr_overlap; [apply nv_S_overlap | apply nv_Sr_overlap | apply nv_SI_overlap]; eapply Hm; exact Hl.
Qed.
Lemma nv_sigmoidals fixed d : (forall k ps, In (k, ps) d -> ps <> []) -> nv (sigmoidals fixed d).
Proof.
  induction d as [|[k ps] t IH]; intros H; cbn [sigmoidals]; [apply nv_ok|].
  assert (Ht : nv (sigmoidals fixed t)) by (apply IH; intros k' ps' Hin; apply (H k' ps'); now right).
  destruct k as [b| | |]; [destruct (is_sigmoid b)| | |]; try exact Ht.
  apply nv_bind; [apply nv_type_overlap; apply (H (KBase b) ps); now left|]. intros v _. apply nv_bind; [exact Ht|]. intros; apply nv_ok.
Qed.
Lemma nv_pair_plain p q : nv (pair_plain p q).
Proof.
  unfold pair_plain. destruct (base_eqb (fst p) (fst q)).
  - destruct (fst p); try discriminate; apply nv_rmap; [apply nv_S_overlap | apply nv_Sr_overlap | apply nv_SI_overlap]; discriminate.
  - assert (Hf : forall b, nv (from_pair p q b)) by (intros b; unfold from_pair; nvs).
    destruct (in_pair p q bSI).
    + apply nv_bind; [apply Hf|intros ? _]. apply nv_bind; [apply Hf|intros ? _]. apply nv_bind; [apply nv_segment_semiline|intros ? _]. nvs.
    + apply nv_bind; [apply Hf|intros ? _]. apply nv_bind; [nvs|intros ? _]. apply nv_bind; [apply Hf|intros ? _]. apply nv_bind; [nvs|intros ? _].
      destruct (Rltb _ _); [|nvs]. unfold merge. destruct a, a1; discriminate.
Qed.
Lemma nv_identify v : nv (identify_interval_type v).
Proof. destruct v; discriminate. Qed.
Fixpoint nv_pair_element o v {struct v} : nv (pair_element o v).
Proof.
  destruct v as [|i|l]; cbn [pair_element].
  - discriminate.
  - apply nv_bind; [apply nv_identify|]. intros; apply nv_pair_plain.
  - apply nv_rmap. induction l as [|x t IH]; [apply nv_ok|].
    apply nv_bind; [apply nv_pair_element|intros ? _]. apply nv_bind; [exact IH|]. intros; apply nv_ok.
Qed.
Lemma nv_step a x : nv (simplify_sigmoidal_intervals_step a x).
Proof.
  destruct a as [p|]; cbn; [|apply nv_ok]. apply nv_bind.
  - unfold simplify_sigmoidal_interval_pair, pair_list.
    destruct (base_eqb (fst p) (fst x)); [apply nv_pair_plain|].
    destruct (base_eqb (fst p) bSIr); [destruct (snd p); try discriminate; apply nv_pair_element|].
    destruct (base_eqb (fst x) bSIr); [destruct (snd x); try discriminate; apply nv_pair_element|]. apply nv_pair_plain.
  - intros v _. destruct v; try discriminate; apply nv_rmap, nv_identify.
Qed.
Lemma nv_sigmoids_to_intervals fixed d : (forall k ps, In (k, ps) d -> ps <> []) -> nv (sigmoids_to_intervals fixed d).
Proof.
  intros H. unfold sigmoids_to_intervals. apply nv_bind; [now apply nv_sigmoidals|]. intros s _.
  destruct s as [|p t]; [apply nv_ok|]. apply nv_bind; [|intros; apply nv_ok]. cbn. apply nv_bind; [apply nv_foldM, nv_step|].
  intros a _. destruct a; discriminate.
Qed.

(** * Order of the factors *)
Section Described.
  Context (fixed offset : bool) (fmt : R -> string).
  Definition legal_first (i : item) : Prop := match i with inl (b, _) => is_sigmoid b = false | inr _ => False end.
  Definition legal_modifier (i : item) : Prop := match i with inl (b, _) => b = bSE \/ b = bLIN \/ is_sigmoid b = true | inr _ => True end.
  Lemma items_spec d its : mapM item_of d = Ok its -> Forall2 (fun kv i => exists b, fst kv = KBase b /\ i = inl (b, snd kv)) d its.
  Proof.
    intros H. apply mapM_Forall2 in H. induction H as [|[k ps] i t it Hk _ IH]; constructor; [|exact IH].
    unfold item_of in Hk. cbn in *. destruct k; try discriminate. injection Hk as <-. eauto.
  Qed.
  Lemma Forall2_in {A B} (P : A -> B -> Prop) l r y : Forall2 P l r -> In y r -> exists x, In x l /\ P x y.
  Proof. intros H. induction H as [|a b l r Hab _ IH]; intros Hin; [destruct Hin|]. destruct Hin as [<-|Hin]; [exists a; cbn; auto|]. destruct (IH Hin) as (x & Hx & Hp). exists x. cbn; auto. Qed.
  Lemma Forall2_in_l {A B} (P : A -> B -> Prop) l r x : Forall2 P l r -> In x l -> exists y, In y r /\ P x y.
  Proof. intros H. induction H as [|a b l r Hab _ IH]; intros Hin; [destruct Hin|]. destruct Hin as [<-|Hin]; [exists b; cbn; auto|]. destruct (IH Hin) as (y & Hy & Hp). exists y. cbn; auto. Qed.
  Definition item_base (i : item) : option base := match i with inl (b, _) => Some b | inr _ => None end.
  Lemma items_nodup d its : NoDup (map fst d) -> Forall2 (fun kv i => exists b, fst kv = KBase b /\ i = inl (b, snd kv)) d its -> NoDup (map item_base its).
  Proof.
    intros Hn H. induction H as [|[k ps] i t it (b & Hk & ->) Ht IH]; cbn; [constructor|]. inversion Hn as [|? ? Hk' Hn']; subst. cbn in Hk; subst k.
    constructor; [|auto]. intros Hin. apply Hk'. cbn. apply in_map_iff in Hin. destruct Hin as (i & Hi & Hin).
    destruct (Forall2_in _ _ _ _ Ht Hin) as (kv & Hkv & b' & Hb' & ->). cbn in Hi. injection Hi as ->. rewrite <- Hb'. apply in_map. exact Hkv.
  Qed.

  Definition item_le (a b : item) : bool := Nat.leb (item_order a) (item_order b).
  Lemma ordered_legal bts d its (ivs : option (list val)) :
    cardinality offset KProd bts 0 -> component bts d ->
    mapM item_of (dict_del pkey_eqb d KProduct) = Ok its ->
    exists i rest, py_sorted item_le (its ++ match ivs with Some l => [inr l] | None => [] end) = i :: rest /\
      legal_first i /\ Forall legal_modifier rest /\
      (forall j, In j (i :: rest) -> match j with inl (b, ps) => In (KBase b, ps) d | inr l => ivs = Some l end).
  Proof.
    intros (Hwn & _ & _ & Hc) (Hnd & Hkeys & (b0 & ps0 & Hin0 & Hb0)) Hits.
    apply items_spec in Hits.
    set (all := its ++ match ivs with Some l => [inr l] | None => [] end).
    assert (Hd : forall b ps, In (KBase b, ps) d -> In (KBase b, ps) (dict_del pkey_eqb d KProduct)).
    { intros b ps Hin. unfold dict_del. apply filter_In. split; [exact Hin | reflexivity]. }
    assert (Hd' : forall kv, In kv (dict_del pkey_eqb d KProduct) -> In kv d) by (intros kv H; apply filter_In in H; tauto).
    assert (Hnd' : NoDup (map fst (dict_del pkey_eqb d KProduct))).
    { unfold dict_del. clear - Hnd. induction d as [|kv t IH]; cbn; [constructor|]. inversion Hnd as [|? ? Hk Ht]; subst.
      destruct (negb (pkey_eqb (fst kv) KProduct)); [|auto]. cbn. constructor; [|auto]. intros Hin. apply Hk.
      apply in_map_iff in Hin. destruct Hin as (x & Hx & Hin). apply filter_In in Hin. rewrite <- Hx. apply in_map. tauto. }
    pose proof (items_nodup _ _ Hnd' Hits) as Hnb.
    assert (Hall : forall j, In j all -> match j with inl (b, ps) => In (KBase b, ps) d | inr l => ivs = Some l end).
    { intros j Hj. apply in_app_or in Hj. destruct Hj as [Hj|Hj].
      - destruct (Forall2_in _ _ _ _ Hits Hj) as ([k ps] & Hkv & b & Hb & ->). cbn in *. subst k. apply Hd'. exact Hkv.
      - destruct ivs; [|destruct Hj]. destruct Hj as [<-|[]]. reflexivity. }
    assert (Hbase : NoDup (map item_base all)).
    { unfold all. rewrite map_app. destruct ivs; cbn; [|rewrite app_nil_r; exact Hnb].
      apply NoDup_app_remove_r with (l' := []) in Hnb || idtac.
      apply Permutation_NoDup with (l := None :: map item_base its); [apply Permutation_cons_append|]. constructor; [|exact Hnb].
      intros Hn. apply in_map_iff in Hn. destruct Hn as (j & Hj & Hin). destruct (Forall2_in _ _ _ _ Hits Hin) as (kv & _ & b & _ & ->). discriminate. }
    destruct (Forall2_in_l _ _ _ _ Hits (Hd _ _ Hin0)) as (i0 & Hi0 & b & Eb & ->). cbn in Eb. injection Eb as <-. cbn [snd] in Hi0.
    assert (Hi0' : In (inl (b0, ps0)) all) by (apply in_or_app; now left).
    pose proof (py_sorted_perm item_le all) as Hperm.
    assert (Hle_t : forall a b c, item_le a b = true -> item_le b c = true -> item_le a c = true).
    { unfold item_le. intros a b' c H1 H2. apply Nat.leb_le in H1, H2. apply Nat.leb_le. lia. }
    assert (Hle_tot : forall a b, item_le a b = true \/ item_le b a = true).
    { unfold item_le. intros a b'. destruct (Nat.le_ge_cases (item_order a) (item_order b')); [left | right]; now apply Nat.leb_le. }
    pose proof (py_sorted_sorted item_le Hle_tot Hle_t all) as Hsort.
    destruct (py_sorted item_le all) as [|i rest] eqn:Es.
    { apply Permutation_nil in Hperm. rewrite Hperm in Hi0'. destruct Hi0'. }
    exists i, rest. split; [reflexivity|].
    assert (HinA : forall j, In j (i :: rest) -> In j all) by (intros j; apply Permutation_in; exact Hperm).
    assert (Hmin : forall j, In j all -> item_order i <= item_order j).
    { intros j Hj. apply (Permutation_in _ (Permutation_sym Hperm)) in Hj. destruct Hj as [<-|Hj]; [lia|].
      apply StronglySorted_inv in Hsort. destruct Hsort as [_ Hf]. rewrite Forall_forall in Hf. apply Nat.leb_le. exact (Hf _ Hj). }
    assert (Hnd2 : NoDup (map item_base (i :: rest))).
    { eapply Permutation_NoDup; [apply Permutation_map, Permutation_sym, Hperm | exact Hbase]. }
    assert (Hfirst : exists b ps, i = inl (b, ps) /\ is_sigmoid b = false).
    { pose proof (Hmin _ Hi0') as Hm. cbn [item_order] in Hm.
      destruct i as [[b ps]|l]; cbn [item_order] in Hm; [|destruct b0; cbn in Hm, Hb0; try discriminate; lia].
      exists b, ps. split; [reflexivity|]. destruct b, b0; cbn in Hm, Hb0 |- *; try reflexivity; try discriminate; lia. }
    destruct Hfirst as (bi & psi & -> & Hbi).
    assert (Hpos : forall b ps, In (inl (b, ps)) all -> (0 < cget bts b)%Z).
    { intros b ps Hj. specialize (Hall _ Hj). cbn in Hall. destruct (Hkeys _ _ Hall) as [_ [H|(b' & H & Hp)]]; [discriminate|]. injection H as <-. exact Hp. }
    split; [exact Hbi|]. split; [|intros j Hj; apply Hall, HinA, Hj].
    rewrite Forall_forall. intros [[b ps]|l] Hj; cbn [legal_modifier]; [|exact I].
    assert (Hne : b <> bi).
    { intros ->. inversion Hnd2 as [|? ? Hn _]; subst. apply Hn. cbn [item_base]. apply in_map_iff. exists (inl (bi, ps)). split; [reflexivity | exact Hj]. }
    pose proof (Hmin _ (HinA _ (or_intror Hj))) as Hm. cbn [item_order] in Hm.
    pose proof (Hpos _ _ (HinA _ (or_intror Hj))) as Hp. pose proof (Hpos _ _ (HinA _ (or_introl eq_refl))) as Hpi.
    destruct b; cbn; auto; exfalso.
    - destruct (Hwn Hp) as (_ & W1 & W2 & W3). destruct bi; cbn in Hm, Hbi; try discriminate; try congruence; lia.
    - destruct (Hc Hp) as (_ & Hz). specialize (Hz bi (not_eq_sym Hne) Hbi). lia.
    - destruct bi; cbn in Hm, Hbi; try discriminate; try congruence; lia.
  Qed.

  Lemma nv_first b ps : is_sigmoid b = false -> nv (first_term_interpretation offset fmt b ps).
  Proof.
    intros Hb. assert (Hh : forall l : list pdict, nv (head l)) by (intros [|]; discriminate).
    destruct b; try discriminate Hb; cbn [first_term_interpretation].
    - discriminate.
    - discriminate.
    - destruct (Nat.ltb 1 (Datatypes.length ps)); destruct offset; unfold roots_text; nvs; try apply Hh. apply nv_mapM. intros. nvs.
    - nvs; apply Hh.
    - destruct (Nat.ltb 1 (Datatypes.length ps)); unfold by_desc_period; nvs; try apply Hh; apply nv_mapM; intros; nvs.
  Qed.
  Lemma nv_post i : legal_modifier i -> nv (postmodifier_interpretation fixed offset fmt i).
  Proof.
    assert (Hh : forall l : list pdict, nv (head l)) by (intros [|]; discriminate).
    destruct i as [[b ps]|l]; cbn [legal_modifier postmodifier_interpretation].
    - intros [-> | [-> | Hb]]; cbn [postmodifier_base].
      + nvs; apply Hh.
      + destruct (Nat.ltb 1 (Datatypes.length ps)); destruct offset; unfold roots_text; nvs; try apply Hh. apply nv_mapM. intros. nvs.
      + destruct b; try discriminate Hb; cbn; discriminate.
    - intros _. unfold intervals_text. apply nv_bind; [|intros; apply nv_ok]. apply nv_mapM. intros v _. unfold interval_text. nvs.
  Qed.

  (** C37 *)
  Theorem description_no_valueerror bts d : cardinality offset KProd bts 0 -> component bts d ->
    base_factors_interpretation fixed offset fmt d <> Raise EValueError.
  Proof.
    intros Hcard Hcomp. change (nv (base_factors_interpretation fixed offset fmt d)). unfold base_factors_interpretation.
    pose proof Hcomp as (_ & Hkeys & _).
    apply nv_bind; [apply nv_sigmoids_to_intervals; intros k ps Hin; exact (proj1 (Hkeys _ _ Hin))|intros ivs _].
    apply nv_bind; [destruct (pars d KProduct); discriminate|intros pv _].
    apply nv_bind; [apply nv_pget|intros var _]. cbv zeta.
    apply nv_bind; [apply nv_mapM; intros [k ps] _; unfold item_of; destruct k; discriminate|intros its Hits].
    destruct (ordered_legal bts d its ivs Hcard Hcomp Hits) as (i & rest & Es & Hi & Hrest & _).
    unfold item_le in Es. rewrite Es. cbn [tl].
    apply nv_bind.
    - apply nv_mapM. intros j Hj. apply nv_bind; [|intros; apply nv_ok]. apply nv_post. rewrite Forall_forall in Hrest. auto.
    - intros post _. apply nv_bind; [|intros; apply nv_ok]. destruct i as [[b ps]|l]; [|destruct Hi]. apply nv_first. exact Hi.
  Qed.

  (** With all its parameters, the description succeeds as soon as the reduction to intervals does. *)
  Lemma mapM_ok' {A B} (f : A -> res B) l : (forall x, In x l -> exists y, f x = Ok y) -> exists r, mapM f l = Ok r.
  Proof. intros H. destruct (mapM_ok f (fun _ => True) l) as (r & Hr & _); [intros x Hx; destruct (H x Hx) as (y & Hy); eauto | eauto]. Qed.
  Lemma roots_ok ps : offset = true -> Forall (factor_params offset bLIN) ps -> exists t, roots_text fmt ps = Ok t.
  Proof.
    intros Ho H. unfold roots_text. rewrite Forall_forall in H.
    destruct (mapM_ok' (fun p => rmap fmt (pget p pOffset)) ps) as (r & ->); [|cbn; eauto].
    intros p Hp. destruct (H _ Hp Ho) as (o & ->). cbn. eauto.
  Qed.
  Lemma first_ok b ps : is_sigmoid b = false -> ps <> [] -> Forall (factor_params offset b) ps -> exists t, first_term_interpretation offset fmt b ps = Ok t.
  Proof.
    intros Hb Hne Hf. destruct b; try discriminate Hb; cbn [first_term_interpretation]; eauto.
    - destruct offset eqn:Eo.
      + destruct (Nat.ltb 1 (Datatypes.length ps)); [rewrite <- Eo in Hf; destruct (roots_ok ps Eo Hf) as (t & ->); cbn; eauto|].
        destruct ps as [|p t]; [congruence|]. inversion Hf as [|? ? Hp _]; subst. destruct (Hp eq_refl) as (o & Ho). cbn. rewrite Ho. cbn. eauto.
      + destruct (Nat.ltb 1 (Datatypes.length ps)); eauto.
    - destruct ps as [|p t]; [congruence|]. inversion Hf as [|? ? (l & Hl) _]; subst. cbn. rewrite Hl. cbn. eauto.
    - assert (Hany : forall p, In p ps -> exists q l, pget p pPeriod = Ok q /\ pget p pLengthscale = Ok l) by (rewrite Forall_forall in Hf; exact Hf).
      destruct (Nat.ltb 1 (Datatypes.length ps)) eqn:El.
      + unfold by_desc_period.
        destruct (mapM_ok (fun p : pdict => do k <- pget p pPeriod; Ok (k, p)) (fun kp : R * pdict => In (snd kp) ps) ps) as (r & Er & Hr & Hlen).
        { intros p Hp. destruct (Hany _ Hp) as (q & l & Hq & _). rewrite Hq. cbn. eauto. }
        rewrite Er. cbn [bind]. set (sorted := map snd (py_sorted _ r)).
        assert (Hs : forall p, In p sorted -> In p ps).
        { intros p Hp. unfold sorted in Hp. apply in_map_iff in Hp. destruct Hp as (kp & <- & Hin).
          rewrite Forall_forall in Hr. apply Hr. eapply Permutation_in; [apply py_sorted_perm | exact Hin]. }
        assert (Hl : Datatypes.length sorted = Datatypes.length ps).
        { unfold sorted. rewrite map_length. rewrite (Permutation_length (py_sorted_perm _ r)). exact Hlen. }
        clearbody sorted. destruct sorted as [|p0 t]; [destruct ps; [congruence | discriminate]|]. cbn [head bind].
        destruct (Hany _ (Hs _ (or_introl eq_refl))) as (q & l & -> & ->). cbn [bind tl].
        match goal with |- context [mapM ?f t] => destruct (mapM_ok' f t) as (r2 & ->) end.
        { intros p Hp. destruct (Hany _ (Hs _ (or_intror Hp))) as (q' & l' & -> & ->). cbn. eauto. }
        cbn [bind]. eauto.
      + destruct ps as [|p t]; [congruence|]. destruct (Hany p (or_introl eq_refl)) as (q & l & Hq & Hl). cbn. rewrite Hq, Hl. cbn. eauto.
  Qed.
  Lemma interval_text_ok v : proper_interval v -> exists t, interval_text fixed fmt v = Ok t.
  Proof.
    intros (i & -> & Hany & Hs & He). unfold interval_text. cbn [vmissing bind vget].
    destruct (i_start i) as [s|]; cbn [bind].
    - destruct (i_end i) as [e|]; cbn [bind].
      + destruct (i_sslope i) as [ss|]; [|exfalso; apply Hs; congruence]. destruct (i_eslope i) as [es|]; [|exfalso; apply He; congruence].
        destruct fixed; cbn [bind]; [destruct (Req_EM_T ss es)|]; eauto.
      + destruct (i_sslope i) as [ss|]; [|exfalso; apply Hs; congruence]. destruct fixed; cbn [bind]; eauto.
    - destruct (i_end i) as [e|]; cbn [bind]; [|exfalso; destruct Hany; congruence].
      destruct (i_eslope i) as [es|]; [|exfalso; apply He; congruence]. destruct fixed; cbn [bind]; eauto.
  Qed.
  Lemma post_ok i : legal_modifier i ->
    match i with inl (b, ps) => ps <> [] /\ Forall (factor_params offset b) ps | inr l => Forall proper_interval l end ->
    exists t, postmodifier_interpretation fixed offset fmt i = Ok t.
  Proof.
    destruct i as [[b ps]|l]; cbn [legal_modifier postmodifier_interpretation].
    - intros [-> | [-> | Hb]] [Hne Hf]; cbn [postmodifier_base].
      + destruct ps as [|p t]; [congruence|]. inversion Hf as [|? ? (l & Hl) _]; subst. cbn. rewrite Hl. cbn. eauto.
      + destruct offset eqn:Eo.
        * destruct (Nat.ltb 1 (Datatypes.length ps)); [rewrite <- Eo in Hf; destruct (roots_ok ps Eo Hf) as (t & ->); cbn; eauto|].
          destruct ps as [|p t]; [congruence|]. inversion Hf as [|? ? Hp _]; subst. destruct (Hp eq_refl) as (o & Ho). cbn. rewrite Ho. cbn. eauto.
        * destruct (Nat.ltb 1 (Datatypes.length ps)); eauto.
      + destruct b; try discriminate Hb; cbn; eauto.
    - intros _ Hl. unfold intervals_text. rewrite Forall_forall in Hl.
      destruct (mapM_ok' (interval_text fixed fmt) l) as (r & ->); [intros v Hv; apply interval_text_ok; auto | cbn; eauto].
  Qed.
  Theorem description_ok bts d o : cardinality offset KProd bts 0 -> component bts d -> complete_params offset d ->
    sigmoids_to_intervals fixed d = Ok o -> (forall l, o = Some l -> Forall proper_interval l) ->
    exists t, base_factors_interpretation fixed offset fmt d = Ok t.
  Proof.
    intros Hcard Hcomp (Hfac & p0 & ps0 & v0 & Hin0 & Hv0) Ho Hprop. unfold base_factors_interpretation.
    pose proof Hcomp as (Hnd & Hkeys & _). rewrite Ho. cbn [bind].
    assert (Hpars : pars d KProduct = p0 :: ps0).
    { unfold pars. clear - Hnd Hin0. induction d as [|[k ps] t IH]; [destruct Hin0|]. inversion Hnd as [|? ? Hk Ht]; subst. cbn.
      destruct Hin0 as [E|Hin]; [injection E as -> ->; reflexivity|].
      destruct (pkey_eqb k KProduct) eqn:Ek; [|auto]. destruct k; try discriminate. exfalso. apply Hk. exact (in_map fst _ _ Hin). }
    rewrite Hpars. cbn [head bind]. rewrite Hv0. cbn [bind]. cbv zeta.
    destruct (mapM_ok' item_of (dict_del pkey_eqb d KProduct)) as (its & Hits).
    { intros [k ps] Hin. unfold dict_del in Hin. apply filter_In in Hin. destruct Hin as [Hin Hk]. cbn in Hk.
      destruct (Hkeys _ _ Hin) as [_ [-> | (b & -> & _)]]; [discriminate|]. cbn. eauto. }
    rewrite Hits. cbn [bind].
    destruct (ordered_legal bts d its o Hcard Hcomp Hits) as (i & rest & Es & Hi & Hrest & Hfrom).
    unfold item_le in Es. rewrite Es. cbn [tl]. rewrite Forall_forall in Hrest.
    match goal with |- context [mapM ?f rest] => destruct (mapM_ok' f rest) as (post & ->) end.
    { intros j Hj. destruct (post_ok j (Hrest _ Hj)) as (t & ->); [|cbn; eauto].
      specialize (Hfrom j (or_intror Hj)). destruct j as [[b ps]|l]; [|auto]. split; [exact (proj1 (Hkeys _ _ Hfrom)) | exact (Hfac _ _ Hfrom)]. }
    cbn [bind]. destruct i as [[b ps]|l]; [|destruct Hi]. cbn [item_first].
    pose proof (Hfrom _ (or_introl eq_refl)) as Hin. cbn in Hin.
    destruct (first_ok b ps Hi (proj1 (Hkeys _ _ Hin)) (Hfac _ _ Hin)) as (t & ->). cbn. eauto.
  Qed.
End Described.
