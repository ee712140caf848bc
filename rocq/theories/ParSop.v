(** sum_of_prods_form computes the components of the monomials of an expression (C32-C34). *)
From Coq Require Import Reals Lra List Bool Arith ZArith Lia Permutation.
From Verif Require Import Py KexModel KexSpec KexProofs KexSimp KexMore KernModel KernSpec SemModel SemSpec SemProofs SemSimp SemKernel IvModel IvSpec IvProofs ParModel ParSpec ParMatch ParCov ParInv ParInv2 ParInv3 ParGroup ParComp.
Import ListNotations.
Local Open Scope list_scope.

Section PkexInd.
  Variable P : pkex -> Prop.
  Hypothesis HComm : forall k bts ps cts, (forall c, In c cts -> P c) -> P (PComm k bts ps cts).
  Hypothesis HChange : forall c ps l r, (forall x, l = inr x -> P x) -> (forall x, r = inr x -> P x) -> P (PChange c ps l r).
  Fixpoint pkex_ind' (p : pkex) : P p.
  Proof.
    destruct p as [k bts ps cts|c ps l r].
    - apply HComm. induction cts as [|x t IH]; intros c Hc; [destruct Hc|]. destruct Hc as [<-|Hc]; [apply pkex_ind'|apply IH; exact Hc].
    - apply HChange.
      + intros x E. destruct l as [b|x']; [discriminate|]. injection E as <-. apply pkex_ind'.
      + intros x E. destruct r as [b|x']; [discriminate|]. injection E as <-. apply pkex_ind'.
  Qed.
End PkexInd.

(** ** The monomials of an expression with parameters *)
Definition own_values (c : cpcw) (ps : params) : pdict := match pars ps (KChange c) with q :: _ => q | [] => [] end.
Definition leaf_values (left : bool) (b : base) (ps : params) : pdict := match pars ps (KLeaf left b) with q :: _ => q | [] => [] end.
Fixpoint monos (p : pkex) : list mono :=
  match p with
  | PComm KSum bts ps cts => map (fun e => [e]) (entries ps) ++ concat (map monos cts)
  | PComm KProd bts ps cts => map (app (entries ps)) (choices (map monos cts))
  | PChange c ps l r =>
      map (fun m => m ++ [(KBase (change_sigmoid c true), own_values c ps)]) (match l with inl b => [[(KBase b, leaf_values true b ps)]] | inr x => monos x end)
      ++ map (fun m => m ++ [(KBase (change_sigmoid c false), own_values c ps)]) (match r with inl b => [[(KBase b, leaf_values false b ps)]] | inr x => monos x end)
  end.
(** Every Sum and Product has parameters. *)
Fixpoint full (p : pkex) : bool :=
  match p with
  | PComm k bts ps cts => negb (no_parameters ps) && forallb full cts
  | PChange c ps l r => (match l with inl _ => true | inr x => full x end) && (match r with inl _ => true | inr x => full x end)
  end.

Lemma choices_cartesian {A} (ls : list (list (list A))) : choices ls = map (@concat A) (cartesian ls).
Proof.
  induction ls as [|l ls IH]; [reflexivity|]. unfold choices, cartesian in *. cbn [fold_right]. rewrite IH, concat_map, map_map. f_equal. apply map_ext. intros m. rewrite !map_map. apply map_ext. reflexivity.
Qed.

Section Sop.
  Context (offset fixed : bool).
  Notation inv := (inv offset fixed).
  Notation entry_ok := (entry_ok offset fixed).
  Notation comp := (comp offset fixed).

  Definition valid_sum (bts : counter) (ps : params) : Prop :=
    wf_counter bts /\ NoDup (map fst ps)
    /\ (forall k, In k (map fst ps) -> exists b, k = KBase b /\ is_sigmoid b = false /\ pars ps k <> [] /\ Forall (fun p => exists f, base_values offset b f p) (pars ps k))
    /\ forall b, Z.of_nat (length (pars ps (KBase b))) = cget bts b.
  Definition valid_prod (bts : counter) (ps : params) (n : nat) : Prop :=
    (ps = [] /\ (forall b, cget bts b = 0%Z)) \/
    (inv bts ps /\ has_factor bts /\ cardinality offset KProd bts n /\ forall b, Z.of_nat (length (pars ps (KBase b))) = cget bts b).
  Definition valid_leaf (left : bool) (ps : params) (b : base) : Prop :=
    is_sigmoid b = false /\ (exists f, base_values offset b f (leaf_values left b ps)) /\ leaf_params ps left = Ok (leaf_values left b ps).
  Fixpoint valid (p : pkex) : Prop :=
    match p with
    | PComm KSum bts ps cts => valid_sum bts ps /\ fold_right (fun c P => valid c /\ P) True cts
    | PComm KProd bts ps cts => valid_prod bts ps (length cts) /\ fold_right (fun c P => valid c /\ P) True cts
    | PChange c ps l r =>
        ps <> [] /\ head (pars ps (KChange c)) = Ok (own_values c ps) /\ change_values fixed c (own_values c ps)
        /\ (match l with inl b => valid_leaf true ps b | inr x => valid x end) /\ (match r with inl b => valid_leaf false ps b | inr x => valid x end)
    end.
  Lemma valid_all cts : fold_right (fun c P => valid c /\ P) True cts <-> forall c, In c cts -> valid c.
  Proof.
    induction cts as [|c cts IH]; cbn; [split; [intros _ c []|auto]|]. rewrite IH. split; [intros [A B] x [<-|I]; auto|]. intros H. split; [apply H; left; reflexivity|intros x I; apply H; right; exact I].
  Qed.

  Definition sop_ok (p : pkex) : Prop := exists cts ms, sum_of_prods_form offset p = Ok (PComm KSum [] [] cts) /\ Permutation ms (monos p) /\ Forall2 comp ms cts.

  (** ** Sums *)
  Lemma seq_sop cts : (forall c, In c cts -> (full c = true -> sop_ok c) /\ (full c = false -> sum_of_prods_form offset c = Raise EAssertionError)) ->
    (forallb full cts = true -> exists ctss mss, seqM (map (sum_of_prods_form offset) cts) = Ok (map (PComm KSum [] []) ctss) /\ Forall2 (fun ms c => Permutation ms (monos c)) mss cts /\ Forall2 (Forall2 comp) mss ctss)
    /\ (forallb full cts = false -> seqM (map (sum_of_prods_form offset) cts) = Raise EAssertionError).
  Proof.
    unfold seqM. induction cts as [|c cts IH]; intros H; (split; [intros F|intros F]).
    - exists [], []. split; [reflexivity|]. split; constructor.
    - discriminate F.
    - cbn in F. apply andb_prop in F as [Fc Fs]. destruct (H c (or_introl eq_refl)) as [Hc _]. destruct (Hc Fc) as (ct & ms & E & P & C).
      destruct IH as [IH _]; [intros x I; apply H; right; exact I|]. destruct (IH Fs) as (ctss & mss & Es & Ps & Cs). exists (ct :: ctss), (ms :: mss). cbn [map mapM]. rewrite E. cbn [bind]. rewrite Es. cbn [bind].
      split; [reflexivity|]. split; constructor; assumption.
    - cbn in F. destruct (H c (or_introl eq_refl)) as [Hc Hf]. destruct (full c) eqn:Fc; [|cbn [map mapM]; rewrite (Hf eq_refl); reflexivity].
      destruct (Hc eq_refl) as (ct & ms & E & _). cbn [map mapM]. rewrite E. cbn [bind]. destruct IH as [_ IH]; [intros x I; apply H; right; exact I|]. rewrite IH by exact F. reflexivity.
  Qed.
  Lemma flatten_all ctss : mapM flatten_sum (map (PComm KSum [] []) ctss) = Ok ctss.
  Proof. induction ctss as [|c t IH]; [reflexivity|]. cbn [map mapM]. cbn [flatten_sum csum fold_left Z.eqb bind]. rewrite IH. reflexivity. Qed.

  Lemma entries_set ps b p0 rest : NoDup (map fst ps) -> In (KBase b) (map fst ps) -> pars ps (KBase b) = p0 :: rest ->
    let ps' := match rest with [] => dict_del pkey_eqb ps (KBase b) | _ => dict_set pkey_eqb ps (KBase b) rest end in
    NoDup (map fst ps') /\ Permutation (entries ps) ((KBase b, p0) :: entries ps') /\ (forall k, pars ps' k = if pkey_eqb (KBase b) k then rest else pars ps k)
    /\ (forall k, In k (map fst ps') -> In k (map fst ps) /\ (pars ps k <> [] -> pars ps' k <> [])).
  Proof.
    intros ND I E ps'.
    assert (G : forall k, pars ps' k = if pkey_eqb (KBase b) k then rest else pars ps k).
    { intros k. unfold ps'. destruct rest as [|r rest].
      - rewrite dict_del_filter, (pars_filter (fun k => negb (pkey_eqb k (KBase b)))). destruct (pkey_eqb (KBase b) k) eqn:K.
        + apply pkey_eqb_eq in K. subst k. rewrite pkey_eqb_same. reflexivity.
        + destruct (pkey_eqb k (KBase b)) eqn:K'; [apply pkey_eqb_eq in K'; subst; rewrite pkey_eqb_same in K; discriminate K|reflexivity].
      - apply pars_set. }
    split; [unfold ps'; destruct rest; [rewrite dict_del_filter; apply filter_nodup, ND|apply set_nodup, ND]|]. split; [|split; [exact G|]].
    - unfold ps'. clear G ps'. induction ps as [|[k l] ps IH]; [destruct I|]. inversion ND as [|? ? NI ND']; subst. unfold pars in E. cbn [dict_get] in E. destruct (pkey_eqb k (KBase b)) eqn:K.
      + apply pkey_eqb_eq in K. subst k l. rewrite entries_cons. destruct rest as [|r rest].
        * unfold dict_del. cbn [filter fst]. rewrite pkey_eqb_same. cbn [negb map app]. apply perm_skip.
          assert (N : filter (fun kv => negb (pkey_eqb (fst kv) (KBase b))) ps = ps).
          { apply filter_all. intros [k l] J. cbn [fst]. destruct (pkey_eqb k (KBase b)) eqn:K; [|reflexivity]. apply pkey_eqb_eq in K. subst. exfalso. apply NI. apply in_map_iff. now exists (KBase b, l). }
          rewrite N. reflexivity.
        * cbn [dict_set]. rewrite pkey_eqb_same, entries_cons. cbn [map app]. reflexivity.
      + assert (I' : In (KBase b) (map fst ps)) by (destruct I as [I|I]; [cbn in I; subst; rewrite pkey_eqb_same in K; discriminate K|exact I]).
        specialize (IH ND' I' E). rewrite entries_cons. transitivity (map (fun p => (k, p)) l ++ (KBase b, p0) :: entries match rest with [] => dict_del pkey_eqb ps (KBase b) | _ => dict_set pkey_eqb ps (KBase b) rest end); [apply Permutation_app_head, IH|].
        rewrite <- Permutation_middle. apply perm_skip. destruct rest as [|r rest].
        * unfold dict_del. cbn [filter fst]. rewrite K. cbn [negb]. rewrite entries_cons. reflexivity.
        * cbn [dict_set]. rewrite K, entries_cons. reflexivity.
    - intros k J. rewrite G. unfold ps' in J. destruct rest as [|r rest].
      + rewrite dict_del_filter in J. apply (keys_filter (fun k => negb (pkey_eqb k (KBase b)))) in J as [J K]. split; [exact J|].
        destruct (pkey_eqb (KBase b) k) eqn:K'; [apply pkey_eqb_eq in K'; subst; rewrite pkey_eqb_same in K; discriminate K|auto].
      + split; [apply set_keys in J as [->|J]; assumption|]. destruct (pkey_eqb (KBase b) k); [discriminate|auto].
  Qed.

  Lemma bases_products bs : forall ps acc, NoDup (map fst ps) ->
    (forall k, In k (map fst ps) -> exists b, k = KBase b /\ is_sigmoid b = false /\ pars ps k <> [] /\ Forall (fun p => exists f, base_values offset b f p) (pars ps k)) ->
    (forall b, length (pars ps (KBase b)) = count_occ base_eq_dec bs b) ->
    exists news ns, bases_to_products offset bs ps acc = Ok ([], news ++ acc) /\ Permutation ns (map (fun e => [e]) (entries ps)) /\ Forall2 comp ns news.
  Proof.
    induction bs as [|b bs IH]; intros ps acc ND K L.
    - assert (E : ps = []).
      { destruct ps as [|[k l] ps]; [reflexivity|exfalso]. destruct (K k (or_introl eq_refl)) as (b & -> & _ & N & _). specialize (L b). destruct (pars ((KBase b, l) :: ps) (KBase b)); [contradiction|discriminate L]. }
      subst. exists [], []. split; [reflexivity|]. split; constructor.
    - cbn [bases_to_products]. pose proof (L b) as Lb. cbn [count_occ] in Lb. destruct (base_eq_dec b b) as [_|D]; [|contradiction].
      destruct (pars ps (KBase b)) as [|p0 rest] eqn:E; [discriminate Lb|].
      assert (I : In (KBase b) (map fst ps)) by (apply pars_key; rewrite E; discriminate). destruct (K _ I) as (b' & D & Sb & _ & F). injection D as <-. rewrite E in F. inversion F as [|? ? Fp Fr]; subst.
      destruct (new_bases_empty offset fixed [(KBase b, p0)]) as (np & En & Cn & _).
      { constructor; [|constructor]. unfold ParInv2.entry_ok. cbn [fst snd]. rewrite Sb. exact Fp. }
      { exists b. split; [exact Sb|]. rewrite occ_cons. cbn [fst pkey_eqb]. rewrite base_eqb_refl. lia. }
      rewrite En. cbn [bind]. destruct (entries_set ps b p0 rest ND I E) as (ND' & P' & G' & K').
      set (ps' := match rest with [] => dict_del pkey_eqb ps (KBase b) | _ => dict_set pkey_eqb ps (KBase b) rest end) in *.
      destruct (IH ps' (np :: acc)) as (news & ns & Er & Pr & Cr).
      + exact ND'.
      + intros k J. destruct (K' k J) as [J' N']. destruct (K k J') as (b' & -> & S' & N & F'). exists b'. split; [reflexivity|]. split; [exact S'|]. split; [apply N', N|]. rewrite G'.
        destruct (pkey_eqb (KBase b) (KBase b')) eqn:Q; [apply pkey_eqb_eq in Q; injection Q as <-; exact Fr|exact F'].
      + intros b'. rewrite G'. specialize (L b'). cbn [count_occ] in L. destruct (base_eq_dec b b') as [->|D].
        * rewrite pkey_eqb_same. rewrite E in L. cbn [length] in L. lia.
        * destruct (pkey_eqb (KBase b) (KBase b')) eqn:Q; [apply pkey_eqb_eq in Q; congruence|exact L].
      + exists (news ++ [np]), (ns ++ [[(KBase b, p0)]]). split; [rewrite <- app_assoc; exact Er|]. split.
        * rewrite (Permutation_app_comm ns). cbn [app]. rewrite P'. cbn [map]. apply perm_skip, Pr.
        * apply Forall2_app; [exact Cr|]. constructor; [exact Cn|constructor].
  Qed.
  Lemma products_are ms cts : Forall2 comp ms cts -> forallb is_product cts = true.
  Proof. induction 1 as [|m c ms cts (bts & ps & -> & _) F IH]; [reflexivity|]. cbn. exact IH. Qed.
  Lemma perm_concat (mss : list (list mono)) cts : Forall2 (fun ms c => Permutation ms (monos c)) mss cts -> Permutation (concat mss) (concat (map monos cts)).
  Proof. induction 1 as [|ms c mss cts P F IH]; [reflexivity|]. cbn. apply Permutation_app; assumption. Qed.
  Lemma concat_comp mss ctss : Forall2 (Forall2 comp) mss ctss -> Forall2 comp (concat mss) (concat ctss).
  Proof. induction 1 as [|ms cs mss ctss P F IH]; [constructor|]. cbn. apply Forall2_app; assumption. Qed.
  Lemma elements_counts bts ps : wf_counter bts -> (forall b, Z.of_nat (length (pars ps (KBase b))) = cget bts b) -> forall b, length (pars ps (KBase b)) = count_occ base_eq_dec (celements bts) b.
  Proof. intros W L b. specialize (L b). pose proof (elements_count bts b W). lia. Qed.

  Lemma sum_case bts ps cts : valid_sum bts ps -> ps <> [] ->
    (exists ctss mss, seqM (map (sum_of_prods_form offset) cts) = Ok (map (PComm KSum [] []) ctss) /\ Forall2 (fun ms c => Permutation ms (monos c)) mss cts /\ Forall2 (Forall2 comp) mss ctss) ->
    sop_ok (PComm KSum bts ps cts).
  Proof.
    intros (W & ND & K & L) N (ctss & mss & E & P & C). unfold sop_ok. cbn [sum_of_prods_form]. destruct ps as [|kl ps]; [contradiction|]. cbn [no_parameters]. rewrite E. cbn [bind]. rewrite flatten_all. cbn [bind].
    destruct (bases_products (celements bts) (kl :: ps) (concat ctss) ND K (elements_counts _ _ W L)) as (news & ns & Eb & Pb & Cb). rewrite Eb. cbn [bind fst snd no_parameters negb].
    assert (F : Forall2 comp (ns ++ concat mss) (news ++ concat ctss)) by (apply Forall2_app; [exact Cb|apply concat_comp, C]).
    rewrite (products_are _ _ F). cbn [negb]. eexists _, _. split; [reflexivity|]. split; [|exact F]. cbn [monos]. apply Permutation_app; [exact Pb|apply perm_concat, P].
  Qed.

  (** ** Products *)
  Lemma update_id (ps : params) : NoDup (map fst ps) -> update_params [] ps = ps.
  Proof.
    intros ND. unfold update_params. enough (G : forall d, NoDup (map fst (d ++ ps)) -> fold_left (fun acc kv => dict_set pkey_eqb acc (fst kv) (snd kv)) ps d = d ++ ps) by (apply (G []); exact ND).
    clear ND. induction ps as [|[k l] ps IH]; intros d ND; [cbn; now rewrite app_nil_r|]. cbn [fold_left fst snd].
    assert (E : dict_set pkey_eqb d k l = d ++ [(k, l)]).
    { rewrite map_app in ND. cbn [map fst] in ND. apply NoDup_remove_2 in ND. assert (NI : ~ In k (map fst d)) by (intros I; apply ND, in_or_app; left; exact I). clear -NI.
      induction d as [|[a w] d IH]; [reflexivity|]. cbn. destruct (pkey_eqb a k) eqn:A; [apply pkey_eqb_eq in A; subst; exfalso; apply NI; left; reflexivity|]. f_equal. apply IH. intros I. apply NI. right. exact I. }
    rewrite E, IH; rewrite <- app_assoc; [reflexivity|exact ND].
  Qed.
  Lemma pmk_product bts : wf_counter bts -> cardinality offset KProd bts 0 -> pmk offset KProd bts [] = PComm KProd bts [] [].
  Proof.
    intros W C. pose proof (simp_base_fix offset KProd bts 0 W C) as E. unfold pmk. cbn [psimplify map]. unfold psimp_node, pabsorb_homogeneous, pabsorb_singletons. cbn [filter fold_left fst snd map pkexs_of pbases_of concat length].
    change (cupdate_list bts []) with bts. rewrite !E. reflexivity.
  Qed.
  Lemma own_comp bts ps : inv bts ps -> has_factor bts -> cardinality offset KProd bts 0 -> (forall b, Z.of_nat (length (pars ps (KBase b))) = cget bts b) -> comp (entries ps) (PComm KProd bts ps []).
  Proof.
    intros V H C L. exists bts, ps. split; [reflexivity|]. split; [|split; assumption]. pose proof V as (W & ND & _). split; [exact V|].
    assert (O : forall b, zocc (entries ps) b = cget bts b) by (intros b; unfold zocc; rewrite occ_entries by exact ND; apply L).
    split; [intros b; rewrite O; lia|]. split; [intros b; rewrite occ_entries by exact ND; lia|]. split; [|split; [intros _ x i j; apply product_entries|]].
    2:{ split; [|intros P; rewrite <- O; unfold zocc; lia]. apply group_own; [exact ND|]. intros k l I S. pose proof V as (_ & _ & _ & KS & _). pose proof (in_map fst _ _ I) as J. destruct (KS k J) as [->|(b & -> & N & _)]; [discriminate S|]. cbn [fst] in *. rewrite (pars_in _ _ _ ND I) in N. exact N. }
    intros _ b. rewrite (simp_count_same _ (cget bts) O). rewrite <- simp_prod_count by exact W. pose proof (simp_base_fix offset KProd bts 0 W C) as E. cbn [simp_base] in E. now rewrite E.
  Qed.
  Lemma is_sum_all ctss : forallb is_sum (map (PComm KSum [] []) ctss) = true.
  Proof. induction ctss as [|c t IH]; [reflexivity|exact IH]. Qed.
  Lemma comps_of ctss : map composites_of (map (PComm KSum [] []) ctss) = ctss.
  Proof. rewrite map_map. cbn. apply map_id. Qed.
  Lemma map_cons_comp (m : mono) (c : pkex) ms cs : comp m c -> Forall2 (Forall2 comp) ms cs -> Forall2 (Forall2 comp) (map (cons m) ms) (map (cons c) cs).
  Proof. intros H. induction 1; constructor; [constructor; assumption|assumption]. Qed.
  Lemma cartesian_comp mss ctss : Forall2 (Forall2 comp) mss ctss -> Forall2 (Forall2 comp) (cartesian mss) (cartesian ctss).
  Proof.
    induction 1 as [|ms cs mss ctss F Fs IH]; [repeat constructor|]. unfold cartesian in *. cbn [fold_right]. set (A := fold_right _ [[]] mss) in *. set (B := fold_right _ [[]] ctss) in *. clearbody A B.
    induction F as [|m c ms cs H F IHF]; [constructor|]. cbn [map concat]. apply Forall2_app; [apply map_cons_comp; assumption|exact IHF].
  Qed.
  Lemma multiply_all bts ps : inv bts ps -> has_factor bts -> (forall b, is_sigmoid b = false -> (0 < cget bts b)%Z -> In (KBase b) (map fst ps)) -> forall mss kss, Forall2 (Forall2 comp) mss kss ->
    exists ts, mapM (multiply_pure_prods_with_params offset ps) kss = Ok ts /\ Forall2 comp (map (fun ms => entries ps ++ concat ms) mss) ts.
  Proof.
    intros V H K. induction 1 as [|ms ks mss kss F Fs IH]; [exists []; split; [reflexivity|constructor]|]. destruct (multiply_comp offset fixed bts ps ms ks V H K F) as (t & Et & Ct). destruct IH as (ts & Ets & Cts).
    exists (t :: ts). cbn [mapM map]. rewrite Et. cbn [bind]. rewrite Ets. cbn [bind]. split; [reflexivity|]. constructor; assumption.
  Qed.
  Lemma perm_map_app {A} (m : list A) l l' : Permutation l l' -> Permutation (map (app m) l) (map (app m) l').
  Proof. apply Permutation_map. Qed.
  Lemma perm_flat {A B} (f : A -> list B) l l' : Permutation l l' -> Permutation (concat (map f l)) (concat (map f l')).
  Proof.
    induction 1; cbn; [constructor|apply Permutation_app_head; assumption| |etransitivity; eassumption]. rewrite !app_assoc. apply Permutation_app_tail, Permutation_app_comm.
  Qed.
  Lemma perm_flat_ext {A B} (f g : A -> list B) l : (forall a, Permutation (f a) (g a)) -> Permutation (concat (map f l)) (concat (map g l)).
  Proof. intros H. induction l; cbn; [constructor|]. apply Permutation_app; auto. Qed.
  Lemma choices_perm {A} (ls ls' : list (list (list A))) : Forall2 (@Permutation _) ls ls' -> Permutation (choices ls) (choices ls').
  Proof.
    induction 1 as [|l l' ls ls' P F IH]; [constructor; constructor|]. unfold choices in *. cbn [fold_right]. rewrite (perm_flat _ _ _ P). apply perm_flat_ext. intros m. apply perm_map_app, IH.
  Qed.
  Lemma product_case bts ps cts : valid_prod bts ps (length cts) -> ps <> [] ->
    (exists ctss mss, seqM (map (sum_of_prods_form offset) cts) = Ok (map (PComm KSum [] []) ctss) /\ Forall2 (fun ms c => Permutation ms (monos c)) mss cts /\ Forall2 (Forall2 comp) mss ctss) ->
    sop_ok (PComm KProd bts ps cts).
  Proof.
    intros [[-> _]|(V & H & C & L)] N; [contradiction|]. intros (ctss & mss & E & P & Cm). unfold sop_ok. cbn [sum_of_prods_form].
    replace (no_parameters ps) with false by (destruct ps; [contradiction|reflexivity]). pose proof V as (W & ND & _ & KS & _).
    destruct cts as [|c0 cts0].
    - rewrite pmk_product by assumption. cbn [new_parameters]. rewrite update_id by exact ND. eexists _, [entries ps]. split; [reflexivity|]. split; [cbn; rewrite app_nil_r; reflexivity|].
      constructor; [apply own_comp; assumption|constructor].
    - rewrite E. cbn [bind]. rewrite is_sum_all. cbn [negb]. rewrite comps_of.
      assert (K : forall b, is_sigmoid b = false -> (0 < cget bts b)%Z -> In (KBase b) (map fst ps)).
      { intros b _ Pb. apply pars_key. specialize (L b). destruct (pars ps (KBase b)); [cbn in L; lia|discriminate]. }
      destruct (multiply_all bts ps V H K _ _ (cartesian_comp _ _ Cm)) as (ts & Et & Ct). rewrite Et. cbn [bind]. eexists _, _. split; [reflexivity|]. split; [|exact Ct].
      cbn [monos]. replace (map (fun ms => entries ps ++ concat ms) (cartesian mss)) with (map (app (entries ps)) (choices mss)) by (rewrite choices_cartesian, map_map; reflexivity). apply perm_map_app, choices_perm. clear -P. revert P. generalize (c0 :: cts0). intros cts P. induction P; constructor; assumption.
  Qed.

  (** ** Changes *)
  Definition two (ct : pkex) : Prop := exists bts ps, ct = PComm KProd bts ps [] /\ wf_counter bts /\ cardinality offset KProd bts 0 /\ (2 <= csum bts)%Z.
  Lemma comp_two m bts ps s : comp m (PComm KProd bts ps []) -> is_sigmoid s = true -> (0 < cget bts s)%Z -> two (PComm KProd bts ps []).
  Proof.
    intros (bts' & ps' & E & ((W & _) & _) & C & b & Sb & Pb) Ss Ps. injection E as <- <-. exists bts, ps. split; [reflexivity|]. split; [exact W|]. split; [exact C|].
    rewrite csum_bsum by (apply wf_nodup, W). rewrite bsum_expand. pose proof (fun b => wf_nonneg bts b W) as N. pose proof (N bWN). pose proof (N bC). pose proof (N bLIN). pose proof (N bSE). pose proof (N bPER). pose proof (N bS). pose proof (N bSr). pose proof (N bSI). pose proof (N bSIr).
    destruct b; try discriminate Sb; destruct s; try discriminate Ss; lia.
  Qed.
  Lemma psimplify_two ct : two ct -> psimplify offset ct = ct /\ pextract ct = inr ct.
  Proof.
    intros (bts & ps & -> & W & C & T). pose proof (simp_base_fix offset KProd bts 0 W C) as E. split.
    - cbn [psimplify map]. unfold psimp_node, pabsorb_homogeneous, pabsorb_singletons. cbn [filter fold_left fst snd map pkexs_of pbases_of concat length].
      change (cupdate_list bts []) with bts. rewrite !E. reflexivity.
    - cbn [pextract length]. replace (Z.eqb (csum bts) 1) with false by (symmetry; apply Z.eqb_neq; lia). replace (Z.eqb (csum bts) 0) with false by (symmetry; apply Z.eqb_neq; lia). reflexivity.
  Qed.
  Lemma empty_sum n : simp_base offset KSum [] n = [].
  Proof. destruct offset; reflexivity. Qed.
  Lemma two_not_sum cts : Forall two cts -> filter (pis_kind KSum) cts = [].
  Proof. induction 1 as [|ct cts (bts & ps & -> & _) F IH]; [reflexivity|]. cbn. exact IH. Qed.
  Lemma two_map cts : Forall two cts -> map (psimplify offset) cts = cts /\ map pextract cts = map inr cts.
  Proof. induction 1 as [|ct cts T F [IH1 IH2]]; [split; reflexivity|]. destruct (psimplify_two ct T) as [E1 E2]. cbn [map]. rewrite E1, E2, IH1, IH2. split; reflexivity. Qed.
  Lemma inr_all (cts : list pkex) : pkexs_of (map inr cts) = cts /\ pbases_of (map inr cts) = [].
  Proof. unfold pkexs_of, pbases_of. induction cts as [|c t [IH1 IH2]]; [split; reflexivity|]. cbn [map concat app]. rewrite IH1, IH2. split; reflexivity. Qed.
  Lemma pmk_two cts : Forall two cts -> pmk offset KSum [] cts = PComm KSum [] [] cts.
  Proof.
    intros F. destruct (two_map cts F) as [E1 E2]. destruct (inr_all cts) as [E3 E4]. unfold pmk. cbn [psimplify]. rewrite E1. unfold psimp_node, pabsorb_homogeneous. rewrite two_not_sum by exact F. cbn [fold_left fst snd].
    unfold pabsorb_singletons. rewrite E2, E3, E4. cbn [fst snd]. change (cupdate_list [] []) with (@nil (base * Z)). rewrite !empty_sum. reflexivity.
  Qed.

  Lemma sigmoid_side c left : is_sigmoid (change_sigmoid c left) = true.
  Proof. destruct c, left; reflexivity. Qed.
  Lemma sigmoid_entry c left q : change_values fixed c q -> entry_ok (KBase (change_sigmoid c left), q).
  Proof. intros H. unfold ParInv2.entry_ok. cbn [fst snd]. rewrite sigmoid_side. exists c, left. split; [reflexivity|exact H]. Qed.
  (** What a branch of a Change becomes: its terms, each with the sigmoid of the branch *)
  Definition side (kx : pkex) (ms : list mono) : Prop := exists cts ms', Permutation ms' ms /\ Forall2 comp ms' cts /\ Forall two cts /\ (kx = PComm KSum [] [] cts \/ cts = [kx]).
  Lemma zocc_own s q : zocc [(KBase s, q)] s = 1%Z.
  Proof. unfold zocc. rewrite occ_cons. cbn [fst pkey_eqb]. rewrite base_eqb_refl. reflexivity. Qed.
  Lemma put_all c left q ms cts : change_values fixed c q -> Forall2 comp ms cts ->
    exists cts', mapM (fun pt => new_bases_with_parameters pt [(KBase (change_sigmoid c left), q)]) cts = Ok cts' /\ Forall2 comp (map (fun m => m ++ [(KBase (change_sigmoid c left), q)]) ms) cts' /\ Forall two cts'.
  Proof.
    intros Hq. induction 1 as [|m ct ms cts Cm F IH]; [exists []; split; [reflexivity|]; split; constructor|].
    destruct (new_bases_comp offset fixed m ct [(KBase (change_sigmoid c left), q)] Cm) as (ct' & E & C & S); [constructor; [apply sigmoid_entry, Hq|constructor]|].
    destruct IH as (cts' & Es & Cs & Ts). exists (ct' :: cts'). cbn [mapM map]. rewrite E. cbn [bind]. rewrite Es. cbn [bind]. split; [reflexivity|]. split; [constructor; assumption|]. constructor; [|exact Ts].
    destruct (S (change_sigmoid c left) (sigmoid_side c left)) as (bts & ps & -> & Z). rewrite zocc_own in Z. eapply comp_two; [exact C|apply (sigmoid_side c left)|lia].
  Qed.
  Lemma side_leaf c left q b lp : change_values fixed c q -> is_sigmoid b = false -> (exists f, base_values offset b f lp) ->
    exists kx, new_bases_with_parameters (empty_product offset) [(KBase b, lp); (KBase (change_sigmoid c left), q)] = Ok kx /\ side kx [[(KBase b, lp); (KBase (change_sigmoid c left), q)]].
  Proof.
    intros Hq Sb Hb. destruct (new_bases_empty offset fixed [(KBase b, lp); (KBase (change_sigmoid c left), q)]) as (ct & E & C & S).
    - constructor; [|constructor; [apply sigmoid_entry, Hq|constructor]]. unfold ParInv2.entry_ok. cbn [fst snd]. rewrite Sb. exact Hb.
    - exists b. split; [exact Sb|]. rewrite occ_cons. cbn [fst pkey_eqb]. rewrite base_eqb_refl. lia.
    - exists ct. split; [exact E|]. exists [ct], [[(KBase b, lp); (KBase (change_sigmoid c left), q)]]. split; [reflexivity|]. split; [constructor; [exact C|constructor]|]. split; [|right; reflexivity].
      constructor; [|constructor]. destruct (S (change_sigmoid c left) (sigmoid_side c left)) as (bts & ps & -> & Z). eapply comp_two; [exact C|apply (sigmoid_side c left)|]. rewrite Z. unfold zocc. rewrite !occ_cons. cbn [fst pkey_eqb]. rewrite base_eqb_refl. lia.
  Qed.
  Lemma side_child c left q x : change_values fixed c q -> sop_ok x ->
    exists kx, (do ch <- sum_of_prods_form offset x; put_sigmoid offset (KBase (change_sigmoid c left), q) ch) = Ok kx /\ side kx (map (fun m => m ++ [(KBase (change_sigmoid c left), q)]) (monos x)).
  Proof.
    intros Hq (cts & ms & E & P & C). destruct (put_all c left q ms cts Hq C) as (cts' & Es & Cs & Ts). rewrite E. cbn [bind put_sigmoid]. rewrite Es. cbn [bind]. change (celements []) with (@nil base). cbn [sigmoid_on_bases bind fst snd].
    eexists. split; [reflexivity|]. exists cts', (map (fun m => m ++ [(KBase (change_sigmoid c left), q)]) ms). split; [apply Permutation_map, P|]. split; [exact Cs|]. split; [exact Ts|]. left. reflexivity.
  Qed.
  Lemma two_shape ct : two ct -> exists bts ps, ct = PComm KProd bts ps [].
  Proof. intros (bts & ps & E & _). now exists bts, ps. Qed.
  Lemma add_sides kl kr msl msr : side kl msl -> side kr msr ->
    exists cts ms, add_sum_of_prods_terms offset kl kr = Ok (PComm KSum [] [] cts) /\ Permutation ms (msl ++ msr) /\ Forall2 comp ms cts.
  Proof.
    intros (ctl & ml & Pl & Cl & Tl & Kl) (ctr & mr & Pr & Cr & Tr & Kr). exists (ctl ++ ctr), (ml ++ mr).
    assert (T : Forall two (ctl ++ ctr)) by (apply Forall_app; split; assumption).
    split; [|split; [apply Permutation_app; assumption|apply Forall2_app; assumption]].
    destruct Kl as [->| ->], Kr as [->| ->].
    - cbn [add_sum_of_prods_terms]. change (cadd (cpos []) []) with (@nil (base * Z)). rewrite pmk_two by exact T. reflexivity.
    - pose proof Tr as Tr'. inversion Tr' as [|? ? T1 _]; subst. destruct (two_shape _ T1) as (bts & ps & ->). cbn [add_sum_of_prods_terms]. change (cpos []) with (@nil (base * Z)). rewrite pmk_two by exact T. reflexivity.
    - pose proof Tl as Tl'. inversion Tl' as [|? ? T1 _]; subst. destruct (two_shape _ T1) as (bts & ps & ->). cbn [add_sum_of_prods_terms]. change (cpos []) with (@nil (base * Z)). cbn [app] in T |- *. rewrite pmk_two by exact T. reflexivity.
    - pose proof Tl as Tl'. inversion Tl' as [|? ? T1 _]; subst. pose proof Tr as Tr'. inversion Tr' as [|? ? T2 _]; subst. destruct (two_shape _ T1) as (bts & ps & ->). destruct (two_shape _ T2) as (bts2 & ps2 & ->). cbn [add_sum_of_prods_terms]. cbn [app] in T |- *. rewrite pmk_two by exact T. reflexivity.
  Qed.

  (** ** All together *)
  Lemma sop_all p : valid p -> (full p = true -> sop_ok p) /\ (full p = false -> sum_of_prods_form offset p = Raise EAssertionError).
  Proof.
    induction p as [k bts ps cts IH|c ps l r IHl IHr] using pkex_ind'.
    - intros V. assert (Vc : forall c, In c cts -> valid c) by (destruct k; cbn [valid] in V; destruct V as [_ V]; now apply valid_all).
      destruct (seq_sop cts (fun c I => IH c I (Vc c I))) as [Sy Sn]. cbn [full]. destruct ps as [|kl ps]; [split; [discriminate|destruct k; reflexivity]|]. cbn [no_parameters negb andb]. split; intros F.
      + specialize (Sy F). destruct k; [apply sum_case|apply product_case]; try discriminate; try exact Sy; apply V.
      + specialize (Sn F). destruct k; cbn [sum_of_prods_form no_parameters]; rewrite Sn; [reflexivity|]. destruct cts; [discriminate F|reflexivity].
    - cbn [valid full]. intros (N & Ho & Hq & Vl & Vr). destruct ps as [|kl ps]; [contradiction|]. set (ps0 := kl :: ps) in *. assert (NP : no_parameters ps0 = false) by reflexivity. clearbody ps0. set (q := own_values c ps0) in *.
      assert (L : (match l with inl _ => true | inr x => full x end = true -> exists kx, (match l with
                  | inl b => do lp <- leaf_params ps0 true; new_bases_with_parameters (empty_product offset) [(KBase b, lp); (KBase (change_sigmoid c true), q)]
                  | inr x => do ch <- sum_of_prods_form offset x; put_sigmoid offset (KBase (change_sigmoid c true), q) ch
                  end) = Ok kx /\ side kx (map (fun m => m ++ [(KBase (change_sigmoid c true), q)]) (match l with inl b => [[(KBase b, leaf_values true b ps0)]] | inr x => monos x end)))
                /\ (match l with inl _ => true | inr x => full x end = false -> (match l with
                  | inl b => do lp <- leaf_params ps0 true; new_bases_with_parameters (empty_product offset) [(KBase b, lp); (KBase (change_sigmoid c true), q)]
                  | inr x => do ch <- sum_of_prods_form offset x; put_sigmoid offset (KBase (change_sigmoid c true), q) ch
                  end) = Raise EAssertionError)).
      { destruct l as [b|x]; (split; intros F; [|try discriminate F]).
        - destruct Vl as (Sb & Hb & El). rewrite El. cbn [bind map app]. apply side_leaf; assumption.
        - apply side_child; [exact Hq|]. apply (proj1 (IHl x eq_refl Vl)), F.
        - rewrite (proj2 (IHl x eq_refl Vl) F). reflexivity. }
      assert (R : (match r with inl _ => true | inr x => full x end = true -> exists kx, (match r with
                  | inl b => do lp <- leaf_params ps0 false; new_bases_with_parameters (empty_product offset) [(KBase b, lp); (KBase (change_sigmoid c false), q)]
                  | inr x => do ch <- sum_of_prods_form offset x; put_sigmoid offset (KBase (change_sigmoid c false), q) ch
                  end) = Ok kx /\ side kx (map (fun m => m ++ [(KBase (change_sigmoid c false), q)]) (match r with inl b => [[(KBase b, leaf_values false b ps0)]] | inr x => monos x end)))
                /\ (match r with inl _ => true | inr x => full x end = false -> (match r with
                  | inl b => do lp <- leaf_params ps0 false; new_bases_with_parameters (empty_product offset) [(KBase b, lp); (KBase (change_sigmoid c false), q)]
                  | inr x => do ch <- sum_of_prods_form offset x; put_sigmoid offset (KBase (change_sigmoid c false), q) ch
                  end) = Raise EAssertionError)).
      { destruct r as [b|x]; (split; intros F; [|try discriminate F]).
        - destruct Vr as (Sb & Hb & El). rewrite El. cbn [bind map app]. apply side_leaf; assumption.
        - apply side_child; [exact Hq|]. apply (proj1 (IHr x eq_refl Vr)), F.
        - rewrite (proj2 (IHr x eq_refl Vr) F). reflexivity. }
      unfold sop_ok. cbn [sum_of_prods_form monos]. rewrite !NP, !Ho. cbn [bind].
      destruct (match l with inl _ => true | inr x => full x end); destruct (match r with inl _ => true | inr x => full x end); cbn [andb]; (split; intros F; [try discriminate F|try discriminate F]).
      + destruct (proj1 L eq_refl) as (kx & Ek & Sk). destruct (proj1 R eq_refl) as (ky & Ey & Sy). rewrite Ek. cbn [bind]. rewrite Ey. cbn [bind]. apply add_sides; assumption.
      + destruct (proj1 L eq_refl) as (kx & Ek & _). rewrite Ek. cbn [bind]. rewrite (proj2 R eq_refl). reflexivity.
      + rewrite (proj2 L eq_refl). reflexivity.
      + rewrite (proj2 L eq_refl). reflexivity.
  Qed.
End Sop.
