(** The covariance function and the factors of the monomials of an expression (C32, C33). *)
From Coq Require Import Reals Lra List Bool Arith ZArith Lia Permutation.
From Verif Require Import Py KexModel KexSpec KexProofs KexSimp KexMore KernModel KernSpec SemModel SemSpec SemProofs SemSimp SemKernel IvModel IvSpec IvProofs ParModel ParSpec ParMatch ParMatch2 ParCov ParInv ParInv2 ParInv3 ParComp ParSop ParSop2.
Import ListNotations.
Local Open Scope list_scope.

Lemma perm_partition {A} (f : A -> bool) l : Permutation l (filter f l ++ filter (fun a => negb (f a)) l).
Proof.
  induction l as [|a l IH]; [constructor|]. cbn [filter]. destruct (f a); cbn [negb app]; [apply perm_skip, IH|]. rewrite <- Permutation_middle. apply perm_skip, IH.
Qed.
Lemma entries_perm (ps : params) : NoDup (map fst ps) -> forall L : mono, (forall k, pars ps k = map snd (filter (fun e => pkey_eqb k (fst e)) L)) -> Permutation (entries ps) L.
Proof.
  induction ps as [|[k l] ps IH]; intros ND L H.
  - destruct L as [|[k p] L]; [constructor|]. specialize (H k). unfold pars in H. cbn [dict_get filter fst] in H. rewrite pkey_eqb_same in H. discriminate H.
  - inversion ND as [|? ? NI ND']; subst. rewrite entries_cons. rewrite (perm_partition (fun e => pkey_eqb k (fst e)) L). apply Permutation_app.
    + specialize (H k). unfold pars in H. cbn [dict_get] in H. rewrite pkey_eqb_same in H. rewrite H, map_map. clear. induction L as [|[a p] L IH]; [constructor|]. cbn [filter fst]. destruct (pkey_eqb k a) eqn:E; [|exact IH]. apply pkey_eqb_eq in E. subst. cbn [map fst snd]. apply perm_skip, IH.
    + apply IH; [exact ND'|]. intros k'. destruct (pkey_eq_dec k k') as [<-|D].
      * rewrite (pars_absent k ps) by exact NI. clear. induction L as [|[a p] L IH]; [reflexivity|]. cbn [filter fst]. destruct (pkey_eqb k a) eqn:E; cbn [negb]; [exact IH|]. cbn [filter fst]. rewrite E. exact IH.
      * specialize (H k'). unfold pars in H. cbn [dict_get] in H. destruct (pkey_eqb k k') eqn:E; [apply pkey_eqb_eq in E; contradiction|]. fold (pars ps k') in H. rewrite H. clear -D. induction L as [|[a p] L IH]; [reflexivity|]. cbn [filter fst].
        destruct (pkey_eqb k' a) eqn:E.
        -- apply pkey_eqb_eq in E. subst a. destruct (pkey_eqb k k') eqn:E'; [apply pkey_eqb_eq in E'; contradiction|]. cbn [negb filter fst]. rewrite pkey_eqb_same. cbn [map]. f_equal. exact IH.
        -- destruct (negb (pkey_eqb k a)); [cbn [filter fst]; rewrite E; exact IH|exact IH].
Qed.

Definition term_entry (k : vkern) : pkey * pdict := match k with VBase b q => (KBase b, q) | _ => (KProduct, []) end.
Definition bare_entry (k : vkern) : pkey * pdict := match k with VBase b q => (KBase b, without_variance q) | _ => (KProduct, []) end.
Lemma term_values b bks : Forall is_base bks -> values_of b bks = map snd (filter (fun e => pkey_eqb (KBase b) (fst e)) (map term_entry bks)).
Proof.
  induction 1 as [|k bks B F IH]; [reflexivity|]. destruct k as [b' q| | |]; try contradiction. unfold values_of in *. cbn [map concat filter fst term_entry]. rewrite IH. change (pkey_eqb (KBase b) (KBase b')) with (base_eqb b b'). destruct (base_eqb b b'); reflexivity.
Qed.
Lemma bare_values b bks : Forall is_base bks -> map without_variance (values_of b bks) = map snd (filter (fun e => pkey_eqb (KBase b) (fst e)) (map bare_entry bks)).
Proof.
  induction 1 as [|k bks B F IH]; [reflexivity|]. destruct k as [b' q| | |]; try contradiction. unfold values_of in *. cbn [map concat filter fst bare_entry]. rewrite map_app, IH. change (pkey_eqb (KBase b) (KBase b')) with (base_eqb b b'). destruct (base_eqb b b'); reflexivity.
Qed.
Lemma term_other key bks : Forall is_base bks -> (forall b, key <> KBase b) -> filter (fun e => pkey_eqb key (fst e)) (map term_entry bks) = [] /\ filter (fun e => pkey_eqb key (fst e)) (map bare_entry bks) = [].
Proof.
  intros F N. induction F as [|k bks B F [IH1 IH2]]; [split; reflexivity|]. destruct k as [b q| | |]; try contradiction. cbn [map filter fst term_entry bare_entry].
  assert (E : pkey_eqb key (KBase b) = false) by (destruct (pkey_eqb key (KBase b)) eqn:E; [apply pkey_eqb_eq in E; now apply N in E|reflexivity]). rewrite E. split; assumption.
Qed.
Lemma sum_entries bts ps bks : term_params KSum bts ps bks -> Forall is_base bks -> Permutation (entries ps) (map term_entry bks).
Proof.
  intros (ND & L & E & K) B. apply entries_perm; [exact ND|]. intros key.
  assert (O : (forall b, key <> KBase b) -> pars ps key = map snd (filter (fun e => pkey_eqb key (fst e)) (map term_entry bks))).
  { intros N. rewrite (proj1 (term_other key bks B N)). apply pars_absent. intros I. destruct (K key I) as (b & -> & _). now apply (N b). }
  destruct key; [|apply O; discriminate..]. rewrite E. apply term_values, B.
Qed.
Lemma product_entries_perm bts ps bks : term_params KProd bts ps bks -> Forall is_base bks -> bks <> [] -> exists v, variances bks = [v] /\ Permutation (entries ps) ((KProduct, [(pVariance, v)]) :: map bare_entry bks).
Proof.
  intros (ND & L & E & K & V) B N. destruct (V N) as (v & Ev & Pv). exists v. split; [exact Ev|]. apply entries_perm; [exact ND|]. intros key. cbn [filter fst].
  destruct key as [b| |c|l b].
  - change (pkey_eqb (KBase b) KProduct) with false. cbv iota. rewrite E. apply bare_values, B.
  - change (pkey_eqb KProduct KProduct) with true. cbv iota. rewrite Pv, (proj2 (term_other KProduct bks B ltac:(discriminate))). reflexivity.
  - change (pkey_eqb (KChange c) KProduct) with false. cbv iota. rewrite (proj2 (term_other (KChange c) bks B ltac:(discriminate))). apply pars_absent. intros I. destruct (K _ I) as [[D _]|(b & D & _)]; discriminate D.
  - change (pkey_eqb (KLeaf l b) KProduct) with false. cbv iota. rewrite (proj2 (term_other (KLeaf l b) bks B ltac:(discriminate))). apply pars_absent. intros I. destruct (K _ I) as [[D _]|(b' & D & _)]; discriminate D.
Qed.

(** ** Sums and products of reals *)
Lemma rsums_perm l m : Permutation l m -> rsums l = rsums m.
Proof. induction 1; unfold rsums in *; cbn; [reflexivity|rewrite IHPermutation; reflexivity|ring|congruence]. Qed.
Lemma rprods_perm l m : Permutation l m -> rprods l = rprods m.
Proof. induction 1; unfold rprods in *; cbn; [reflexivity|rewrite IHPermutation; reflexivity|ring|congruence]. Qed.
Lemma mono_cov_perm (m m' : mono) x i j : Permutation m m' -> mono_cov m x i j = mono_cov m' x i j.
Proof. intros P. unfold mono_cov. apply rprods_perm, Permutation_map, P. Qed.
Definition monos_cov (ms : list mono) : kern := fun x i j => rsums (map (fun m => mono_cov m x i j) ms).
Lemma monos_cov_app ms ns x i j : monos_cov (ms ++ ns) x i j = (monos_cov ms x i j + monos_cov ns x i j)%R.
Proof. unfold monos_cov. rewrite map_app. apply rsums_app. Qed.
Lemma monos_cov_concat mss x i j : monos_cov (concat mss) x i j = rsums (map (fun ms => monos_cov ms x i j) mss).
Proof. induction mss as [|ms mss IH]; [reflexivity|]. cbn [concat map]. rewrite monos_cov_app, IH. reflexivity. Qed.
Lemma monos_cov_map_app m ms x i j : monos_cov (map (app m) ms) x i j = (mono_cov m x i j * monos_cov ms x i j)%R.
Proof.
  unfold monos_cov. induction ms as [|n ms IH]; [unfold rsums; cbn; ring|]. cbn [map]. unfold rsums in *. cbn [fold_right]. rewrite IH, mono_cov_app. ring.
Qed.
Lemma monos_cov_map_end m ms x i j : monos_cov (map (fun n => n ++ m) ms) x i j = (monos_cov ms x i j * mono_cov m x i j)%R.
Proof.
  unfold monos_cov. induction ms as [|n ms IH]; [unfold rsums; cbn; ring|]. cbn [map]. unfold rsums in *. cbn [fold_right]. rewrite IH, mono_cov_app. ring.
Qed.
Lemma monos_cov_choices mss x i j : monos_cov (choices mss) x i j = rprods (map (fun ms => monos_cov ms x i j) mss).
Proof.
  induction mss as [|ms mss IH]; [unfold monos_cov, mono_cov, rsums, rprods; cbn; ring|]. unfold choices in *. cbn [fold_right map]. unfold rprods. cbn [fold_right]. fold (rprods (map (fun ms => monos_cov ms x i j) mss)). rewrite <- IH.
  set (A := fold_right _ [[]] mss). clearbody A. clear. induction ms as [|m ms IH]; [unfold monos_cov; cbn; unfold rsums; cbn; ring|]. cbn [map concat]. rewrite monos_cov_app, IH, monos_cov_map_app. unfold monos_cov. cbn [map]. unfold rsums. cbn [fold_right]. ring.
Qed.
Lemma monos_cov_single es x i j : monos_cov (map (fun e => [e]) es) x i j = rsums (map (fun e => entry_cov e x i j) es).
Proof. unfold monos_cov. rewrite map_map. f_equal. apply map_ext. intros e. unfold mono_cov, rprods. cbn. ring. Qed.

Section L2.
  Context (offset fixed : bool).
  Lemma sum_bases_cov bks x i j : Forall is_base bks -> rsums (map (fun e => entry_cov e x i j) (map term_entry bks)) = rsums (map (fun k => kernel_cov k x i j) bks).
  Proof. induction 1 as [|k bks B F IH]; [reflexivity|]. destruct k as [b q| | |]; try contradiction. cbn [map]. unfold rsums in *. cbn [fold_right]. rewrite IH. reflexivity. Qed.
  Lemma prod_bases_cov bks x i j : Forall (base_vals offset) bks -> rprods (map (fun k => kernel_cov k x i j) bks) = (rprods (variances bks) * mono_cov (map bare_entry bks) x i j)%R.
  Proof.
    induction 1 as [|k bks (b & q & -> & S & _) F IH]; [unfold mono_cov, rprods; cbn; ring|]. cbn [map]. rewrite mono_cov_cons. unfold rprods at 1. cbn [fold_right]. fold (rprods (map (fun k => kernel_cov k x i j) bks)). rewrite IH.
    cbn [kernel_cov bare_entry]. unfold entry_cov. cbn [fst snd]. rewrite cov_variance by exact S. unfold variances. cbn [map concat]. rewrite rprods_app. unfold value. destruct (dict_get pname_eqb q pVariance); unfold rprods; cbn [fold_right]; ring.
  Qed.
  Lemma own_head c ps q : pars ps (KChange c) = [q] -> own_values c ps = q.
  Proof. intros E. unfold own_values. now rewrite E. Qed.
  Lemma monos_kernel p : forall K, assigned p K -> kvals offset fixed K -> forall x i j, kernel_cov K x i j = monos_cov (monos p) x i j.
  Proof.
    induction p as [k bts ps cts IH|c ps l r IHl IHr] using pkex_ind'; intros K A V x i j.
    - inversion A as [? ? ? ? ? bks cks P B T F|]; subst. pose proof (parts_kvals offset fixed _ _ _ P V) as VP. apply Forall_app in VP as [Vb Vc]. pose proof (bases_vals offset fixed bks B Vb) as BV.
      assert (G : map (fun k => kernel_cov k x i j) cks = map (fun ms => monos_cov ms x i j) (map monos cts)).
      { clear -IH F Vc. induction F as [|c kc cts cks H F IHF]; [reflexivity|]. inversion Vc as [|? ? V1 V2]; subst. cbn [map]. f_equal; [apply (IH c (or_introl eq_refl) kc H V1)|]. apply IHF; [intros c' I; apply IH; right; exact I|exact V2]. }
      destruct k; cbn [monos].
      + transitivity (rsums (map (fun k => kernel_cov k x i j) (bks ++ cks))); [inversion P as [? ? E1 E2 E3| |]; subst; [cbn; unfold rsums; cbn; ring|reflexivity]|].
        rewrite map_app, rsums_app, G, monos_cov_app, monos_cov_concat, monos_cov_single. f_equal. rewrite <- sum_bases_cov by exact B. apply rsums_perm, Permutation_map. symmetry. eapply sum_entries; eassumption.
      + transitivity (rprods (map (fun k => kernel_cov k x i j) (bks ++ cks))); [inversion P as [? ? E1 E2 E3| |]; subst; [cbn; unfold rprods; cbn; ring|reflexivity]|].
        rewrite map_app, rprods_app, G, monos_cov_map_app, monos_cov_choices. f_equal. rewrite prod_bases_cov by exact BV.
        destruct bks as [|k0 bks'] eqn:EB.
        * assert (E0 : ps = []). { destruct ps as [|[key l] ps]; [reflexivity|]. exfalso. destruct (term_keys KProd bts _ [] key T (or_introl eq_refl)) as [(_ & N & _)|(b & _ & Hb)]; [now apply N|]. destruct T as (_ & L & _). rewrite <- L in Hb. cbn in Hb. lia. }
          subst ps. unfold mono_cov, rprods. cbn. ring.
        * rewrite <- EB in *. destruct (product_entries_perm bts ps bks T B) as (v & Ev & Pv); [rewrite EB; discriminate|]. rewrite (mono_cov_perm _ _ x i j Pv), mono_cov_cons, Ev. unfold entry_cov. cbn [fst snd]. unfold value, rprods. cbn. ring.
    - inversion A as [|? ? ? ? K1 K2 q ND KS Eq BL BR]; subst. destruct V as (V1 & V2 & Vq). cbn [monos kernel_cov]. rewrite (own_head c ps q Eq), monos_cov_app, !monos_cov_map_end.
      assert (GL : kernel_cov K1 x i j = monos_cov (match l with inl b => [[(KBase b, leaf_values true b ps)]] | inr x => monos x end) x i j).
      { inversion BL as [key ps' b q0 Eb|key ps' y K' Ax]; subst; [|apply (IHl y eq_refl K1 Ax V1)]. unfold leaf_values. rewrite Eb. unfold monos_cov, mono_cov, rsums, rprods. cbn. unfold entry_cov. cbn [fst snd]. ring. }
      assert (GR : kernel_cov K2 x i j = monos_cov (match r with inl b => [[(KBase b, leaf_values false b ps)]] | inr x => monos x end) x i j).
      { inversion BR as [key ps' b q0 Eb|key ps' y K' Ax]; subst; [|apply (IHr y eq_refl K2 Ax V2)]. unfold leaf_values. rewrite Eb. unfold monos_cov, mono_cov, rsums, rprods. cbn. unfold entry_cov. cbn [fst snd]. ring. }
      rewrite GL, GR. unfold mono_cov, rprods, entry_cov. cbn [map fold_right fst snd]. destruct c; cbn [change_sigmoid]. all: rewrite !Rmult_1_r; reflexivity.
  Qed.
End L2.

(** ** The factors of monomials *)
Definition factor (e : pkey * pdict) : list base := match fst e with KBase b => [b] | _ => [] end.
Definition factors (m : mono) : list base := concat (map factor m).
Lemma factors_app m n : factors (m ++ n) = factors m ++ factors n.
Proof. unfold factors. now rewrite map_app, concat_app. Qed.
Lemma occ_factors m b : occ m b = count_occ base_eq_dec (factors m) b.
Proof.
  induction m as [|[k p] m IH]; [reflexivity|]. rewrite occ_cons. unfold factors. cbn [map concat]. rewrite count_occ_app. fold (factors m). rewrite IH. f_equal. unfold factor. cbn [fst]. destruct k as [b'| | |]; try reflexivity.
  change (pkey_eqb (KBase b) (KBase b')) with (base_eqb b b'). cbn [count_occ]. destruct (base_eq_dec b' b) as [->|D]; [now rewrite base_eqb_refl|]. destruct (base_eqb b b') eqn:E; [apply base_eqb_spec in E; congruence|reflexivity].
Qed.
(** Two lists of terms that agree up to the order of the terms and of their factors *)
Definition same_terms (l l' : list (list base)) : Prop := exists L, Permutation L l' /\ Forall2 (@Permutation base) l L.
Lemma same_perm l m m' : same_terms l m -> Permutation m m' -> same_terms l m'.
Proof. intros (L & P & F) Q. exists L. split; [etransitivity; eassumption|exact F]. Qed.
Lemma same_refl l : same_terms l l.
Proof. exists l. split; [reflexivity|]. induction l; constructor; auto. Qed.
Lemma same_app l l' m m' : same_terms l l' -> same_terms m m' -> same_terms (l ++ m) (l' ++ m').
Proof. intros (L & P & F) (M & Q & G). exists (L ++ M). split; [apply Permutation_app; assumption|apply Forall2_app; assumption]. Qed.
Lemma same_concat ls ls' : Forall2 same_terms ls ls' -> same_terms (concat ls) (concat ls').
Proof. induction 1; [apply same_refl|]. cbn. now apply same_app. Qed.
Lemma same_map_app a a' l l' : Permutation a a' -> same_terms l l' -> same_terms (map (app a) l) (map (app a') l').
Proof.
  intros Pa (L & P & F). exists (map (app a') L). split; [apply Permutation_map, P|]. clear P. induction F; cbn; constructor; [apply Permutation_app; assumption|assumption].
Qed.
Lemma same_map_end a l l' : same_terms l l' -> same_terms (map (fun m => m ++ a) l) (map (fun m => m ++ a) l').
Proof.
  intros (L & P & F). exists (map (fun m => m ++ a) L). split; [apply Permutation_map, P|]. clear P. induction F; cbn; constructor; [apply Permutation_app_tail; assumption|assumption].
Qed.
Lemma forall2_flat {A B C} (R : A -> B -> Prop) (S : C -> C -> Prop) (f : A -> list C) (g : B -> list C) l l' :
  Forall2 R l l' -> (forall a b, R a b -> Forall2 S (f a) (g b)) -> Forall2 S (concat (map f l)) (concat (map g l')).
Proof. intros F H. induction F; cbn; [constructor|]. apply Forall2_app; [apply H; assumption|assumption]. Qed.
Lemma same_choices ls ls' : Forall2 same_terms ls ls' -> same_terms (choices ls) (choices ls').
Proof.
  induction 1 as [|l l' ls ls' (L & P & F) Fs IH]; [apply same_refl|]. unfold choices in *. cbn [fold_right]. destruct IH as (M & Q & G).
  exists (concat (map (fun m => map (app m) M) L)). split.
  - rewrite (perm_flat _ _ _ P). apply perm_flat_ext. intros m. apply Permutation_map, Q.
  - eapply forall2_flat; [exact F|]. intros a b Pab. clear -Pab G. induction G; cbn; constructor; [apply Permutation_app; assumption|assumption].
Qed.
Lemma choices_map {A B} (f : list A -> list B) : (forall a b, f (a ++ b) = f a ++ f b) -> f [] = [] -> forall ls, map f (choices ls) = choices (map (map f) ls).
Proof.
  intros H0 H1. induction ls as [|l ls IH]; [cbn; now rewrite H1|]. unfold choices in *. cbn [fold_right map]. rewrite concat_map, map_map. rewrite <- IH. rewrite map_map. f_equal. apply map_ext. intros m. rewrite !map_map. apply map_ext. intros n. apply H0.
Qed.

Section L3.
  Context (offset : bool).
  Lemma term_factors bts ps bks k : wf_counter bts -> term_params k bts ps bks -> Permutation (factors (entries ps)) (celements bts).
  Proof.
    intros W T. apply (Permutation_count_occ base_eq_dec). intros b. rewrite <- occ_factors. pose proof T as (ND & L & T'). rewrite occ_entries by exact ND. apply Nat2Z.inj. rewrite elements_count by exact W. rewrite <- L. f_equal. destruct k; destruct T' as [E _]; rewrite E; [reflexivity|apply map_length].
  Qed.
  Lemma singles l l' : Permutation l l' -> same_terms (map (fun b : base => [b]) l) (map (fun b => [b]) l').
  Proof. intros P. eapply same_perm; [apply same_refl|apply Permutation_map, P]. Qed.
  Lemma sum_factors ps : (forall k, In k (map fst ps) -> exists b, k = KBase b) -> map factors (map (fun e => [e]) (entries ps)) = map (fun b => [b]) (factors (entries ps)).
  Proof.
    intros H. assert (G : forall e, In e (entries ps) -> exists b, fst e = KBase b).
    { intros [k p] I. unfold entries in I. apply in_concat in I as (l & I & J). apply in_map_iff in I as ([k' l'] & <- & I). apply in_map_iff in J as (p' & E & _). injection E as <- <-. apply H. apply in_map_iff. now exists (k', l'). }
    clear H. induction (entries ps) as [|e es IH]; [reflexivity|]. destruct (G e (or_introl eq_refl)) as (b & E). cbn [map]. unfold factors in *. cbn [map concat]. unfold factor at 1 3. rewrite E. cbn [app map]. f_equal. apply IH. intros e' I. apply G. right. exact I.
  Qed.
  Lemma monos_factors p : forall K, assigned p K -> wf (erase p) -> same_terms (map factors (monos p)) (expansion (erase p)).
  Proof.
    induction p as [k bts ps cts IH|c ps l r IHl IHr] using pkex_ind'; intros K A W.
    - inversion A as [? ? ? ? ? bks cks P B T F|]; subst. assert (Wb : wf_counter bts) by (apply (W k bts (map erase cts)); cbn [erase]; constructor).
      assert (G : Forall2 same_terms (map (map factors) (map monos cts)) (map expansion (map erase cts))).
      { assert (Wc : forall c, In c cts -> wf (erase c)) by (intros c I k' bts' cts' Hn; apply (W k' bts' cts'); cbn [erase]; eapply node_comm; [apply in_map, I|exact Hn]).
        clear -IH F Wc. induction F as [|c kc cts cks H F IHF]; [constructor|]. cbn [map]. constructor; [apply (IH c (or_introl eq_refl) kc H), Wc; left; reflexivity|]. apply IHF; [intros c' I; apply IH; right; exact I|intros c' I; apply Wc; right; exact I]. }
      pose proof (term_factors bts ps bks k Wb T) as TF. destruct k; cbn [monos erase expansion].
      + rewrite map_app, concat_map. apply same_app; [|apply same_concat, G]. rewrite sum_factors; [apply singles, TF|]. intros key I. destruct (term_keys _ _ _ _ _ T I) as [(_ & _ & D)|(b & -> & _)]; [discriminate D|exists b; reflexivity].
      + rewrite map_map. rewrite (map_ext _ (fun m => factors (entries ps) ++ factors m)) by (intros m; apply factors_app). rewrite <- (map_map factors (app (factors (entries ps)))). apply same_map_app; [exact TF|].
        rewrite (choices_map factors factors_app eq_refl). apply same_choices, G.
    - inversion A as [|? ? ? ? K1 K2 q ND KS Eq BL BR]; subst. cbn [monos erase expansion]. rewrite map_app. apply same_app.
      + rewrite map_map. rewrite (map_ext _ (fun m => factors m ++ [change_sigmoid c true])) by (intros m; rewrite factors_app; reflexivity). rewrite <- (map_map factors (fun m => m ++ [change_sigmoid c true])). apply same_map_end.
        inversion BL as [key ps' b q0 Eb|key ps' y K' Ax]; subst; [apply same_refl|]. apply (IHl y eq_refl K1 Ax). intros k' bts' cts' Hn. apply (W k' bts' cts'). cbn [erase]. apply node_left, Hn.
      + rewrite map_map. rewrite (map_ext _ (fun m => factors m ++ [change_sigmoid c false])) by (intros m; rewrite factors_app; reflexivity). rewrite <- (map_map factors (fun m => m ++ [change_sigmoid c false])). apply same_map_end.
        inversion BR as [key ps' b q0 Eb|key ps' y K' Ax]; subst; [apply same_refl|]. apply (IHr y eq_refl K2 Ax). intros k' bts' cts' Hn. apply (W k' bts' cts'). cbn [erase]. apply node_right, Hn.
  Qed.
End L3.
