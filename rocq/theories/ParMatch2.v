(** Matching the fitted values to the terms of an expression: the induction (C31). *)
From Coq Require Import String Ascii Reals List Bool Arith ZArith Lia Permutation.
From Verif Require Import Py KexModel KexSpec KexProofs KexSimp KexMore SemModel SemSpec SemProofs SemSimp SemKernel IvModel IvProofs ParModel ParSpec ParNames ParMatch.
Import ListNotations.
Local Open Scope list_scope.
Notation length := Datatypes.length.

Section Match2.
  Context (offset fixed : bool).
  Notation found := (found offset fixed).

  Lemma agrees_node d pre kd l : Forall (good_name offset) l -> agrees offset d pre (vnode kd l) -> agrees_parts offset d pre l.
  Proof.
    intros G A l1 k l2 -> s. rewrite sapp_assoc. rewrite (A _).
    replace (flat_names offset "" (vnode kd (l1 ++ k :: l2))) with (parts_names offset [] (l1 ++ k :: l2)) by (destruct kd; cbn [vnode]; [now rewrite flat_add|now rewrite flat_mul]).
    pose proof (look_part offset l1 [] k l2 s G) as L. rewrite app_nil_r in L. exact L.
  Qed.
  Lemma base_good b q : is_sigmoid b = false -> good_name offset (VBase b q).
  Proof. intros S. unfold good_name. cbn. constructor. exact S. Qed.
  Lemma parts_good bs bks cts cks : Forall2 (base_part offset) bs bks -> Forall (fun x => is_sigmoid x = false) bs -> Forall2 found cts cks -> Forall (good_name offset) (bks ++ cks).
  Proof.
    intros F S C. apply Forall_app. split.
    - pose proof (base_part_named offset bs bks F S) as N. eapply Forall_impl; [|exact N]. intros k (b & Sb & E). unfold good_name. rewrite E. constructor. exact Sb.
    - clear -C. induction C as [|c k cts cks [E _] C IH]; constructor; [|exact IH]. unfold good_name. rewrite E. apply kex_named.
  Qed.

  Definition matched (e : kex) : Prop := forall g K, to_kernel e = Ok g -> fitted offset fixed g K -> found e K /\ forall kd, is_kind kd e = false -> vparts kd K = [K].

  Lemma matched_comm kd bts cts : wf_counter bts -> (1 < terms bts cts)%Z -> (forall c, In c cts -> is_kind kd c = false /\ matched c) -> matched (Comm kd bts cts).
  Proof.
    intros W T H g K E F.
    destruct (node_parts offset fixed kd bts cts g K) as (bks & cks & P & FL & FC & SL & OV & _).
    { intros c I. destruct (H c I) as [N M]. split; [exact N|]. intros g' k' E' F'. destruct (M g' k' E' F') as [A B]. split; [exact A|apply B, N]. }
    { exact E. } { exact F. }
    assert (L : (2 <= length (bks ++ cks))%nat).
    { rewrite app_length, <- (Forall2_len _ _ _ FL), <- (Forall2_len _ _ _ FC), (Permutation_length (order_perm (celements bts))).
      rewrite terms_csum in T by (apply wf_nodup, W). rewrite <- celements_length in T by (intros b n I; destruct W as [_ W]; specialize (W b n I); lia). lia. }
    pose proof (parts_name kd K _ P L) as EK. split.
    - split; [subst K; destruct kd; reflexivity|]. intros d pre Hp A. subst K.
      destruct (comm_body offset fixed kd bts cts bks cks d pre W FL SL FC OV (agrees_node d pre kd _ (parts_good _ _ _ _ FL SL FC) A)) as (ps & ps' & pcts & E1 & E2 & E3 & Er & As & TP).
      exists (PComm kd bts ps' pcts). cbn [match_up]. unfold own_prefix. rewrite Hp. cbn [bind]. rewrite E1. cbn [bind]. rewrite E2. cbn [bind]. rewrite E3. cbn [bind].
      split; [reflexivity|]. split; [cbn [erase]; now rewrite Er|]. apply (as_comm kd bts ps' pcts _ bks cks P (base_part_is_base offset _ _ FL) TP As).
    - intros kd' Hk. subst K. destruct kd, kd'; cbn in *; try discriminate Hk; reflexivity.
  Qed.

  Lemma agrees_change d pre c a b ps : good_name offset a -> good_name offset b -> agrees offset d pre (VChange c a b ps) ->
    agrees offset d (pre ++ component_name [] (vkern_name offset a))%string a
    /\ agrees offset d (pre ++ component_name [vkern_name offset a] (vkern_name offset b))%string b
    /\ forall n, dict_get String.eqb d (pre ++ pname_str n)%string = look (own_params "" ps) (pname_str n).
  Proof.
    intros Ga Gb A. assert (G : Forall (good_name offset) [a; b]) by (constructor; [exact Ga|constructor; [exact Gb|constructor]]). split; [|split].
    - intros s. rewrite sapp_assoc, (A _), flat_change. rewrite (look_part_change offset [a; b] ps _ [] _ s G Ga eq_refl). exact (look_part offset [] [] a [b] s G).
    - intros s. rewrite sapp_assoc, (A _), flat_change. rewrite (look_part_change offset [a; b] ps _ [vkern_name offset a] _ s G Gb eq_refl). exact (look_part offset [a] [] b [] s G).
    - intros n. rewrite (A _), flat_change. apply look_own, G.
  Qed.

  (** A branch of a Change with its kernel object. *)
  Definition branch_ok (b : branch) (k : vkern) : Prop :=
    match b with inl x => is_sigmoid x = false /\ exists q, k = VBase x q /\ base_values offset x true q | inr e => found e k end.
  Lemma branch_good b k : branch_ok b k -> good_name offset k.
  Proof. destruct b as [x|e]; cbn; [intros (S & q & -> & _); now apply base_good|intros [E _]; unfold good_name; rewrite E; apply kex_named]. Qed.
  Lemma branch_fitted (b : branch) g k : (forall x, b = inr x -> matched x) -> (match b with inl b => base_str_to_ker b | inr x => to_kernel x end) = Ok g -> fitted offset fixed g k -> branch_ok b k.
  Proof.
    intros M E F. destruct b as [x|e].
    - unfold base_str_to_ker in E. destruct (is_sigmoid x) eqn:S; [discriminate E|]. injection E as <-. inversion F; subst. split; [exact S|]. exists ps. split; [reflexivity|assumption].
    - apply (M e eq_refl g k E F).
  Qed.
  Definition leaf_entry (key : pkey) (ps : params) (q : pdict) : params := pappend ps key q.
  Lemma component_first n : component_name [] n = (n ++ ".")%string.
  Proof. reflexivity. Qed.
  Lemma same_type l r kl kr : branch_ok l kl -> branch_ok r kr ->
    component_name [vkern_name offset kl] (vkern_name offset kr) = (vkern_name offset kr ++ if same_type_branches l r then "_1." else ".")%string.
  Proof.
    intros Hl Hr. unfold component_name, count_str. cbn [filter].
    assert (E : String.eqb (vkern_name offset kr) (vkern_name offset kl) = same_type_branches l r).
    { destruct l as [a|x], r as [b|y]; cbn in Hl, Hr |- *.
      - destruct Hl as (Sa & q & -> & _), Hr as (Sb & q' & -> & _). cbn. destruct (base_eqb a b) eqn:E.
        + apply base_eqb_spec in E. subst. apply String.eqb_refl.
        + destruct (String.eqb_spec (base_name offset b) (base_name offset a)) as [D|D]; [|reflexivity]. apply base_name_inj in D; [|assumption|assumption]. subst. now rewrite base_eqb_refl in E.
      - destruct Hl as (Sa & q & -> & _), Hr as (Eb & _). cbn. rewrite Eb. destruct (String.eqb_spec (kex_name y) (base_name offset a)) as [D|D]; [|reflexivity]. symmetry in D. now apply base_name_kex in D.
      - destruct Hr as (Sa & q & -> & _), Hl as (Eb & _). cbn. rewrite Eb. destruct (String.eqb_spec (base_name offset b) (kex_name x)) as [D|D]; [|reflexivity]. now apply base_name_kex in D.
      - destruct Hl as (El & _), Hr as (Er & _). rewrite El, Er. apply String.eqb_sym. }
    rewrite E. destruct (same_type_branches l r); reflexivity.
  Qed.

  Lemma matched_change c l r : (forall x, l = inr x \/ r = inr x -> matched x) -> matched (Change c l r).
  Proof.
    intros H g K E F. cbn [to_kernel] in E.
    destruct (match l with inl b => base_str_to_ker b | inr x => to_kernel x end) as [gl|] eqn:El; [|discriminate E]. cbn [bind] in E.
    destruct (match r with inl b => base_str_to_ker b | inr x => to_kernel x end) as [gr|] eqn:Er; [|discriminate E]. cbn [bind] in E. injection E as <-.
    inversion F as [| | |? ? ? kl kr ps Fl Fr V]; subst.
    assert (Bl : branch_ok l kl) by (eapply branch_fitted; [|exact El|exact Fl]; intros x ->; apply H; left; reflexivity).
    assert (Br : branch_ok r kr) by (eapply branch_fitted; [|exact Er|exact Fr]; intros x ->; apply H; right; reflexivity).
    split; [|intros kd _; destruct kd; reflexivity]. split; [reflexivity|]. intros d pre Hp A.
    destruct (agrees_change d pre c kl kr ps (branch_good _ _ Bl) (branch_good _ _ Br) A) as (Al & Ar & Ao).
    rewrite component_first in Al. rewrite (same_type l r kl kr Bl Br) in Ar.
    assert (ND : NoDup (map fst ps)) by (destruct V as [V _]; rewrite V; apply change_params_nodup).
    cbn [match_up]. unfold own_prefix. rewrite Hp. cbn [bind].
    rewrite (read_params_ok d false pre true (or_intror eq_refl) (change_params fixed c) ps (change_params_nodup fixed c)); [| |].
    2: { destruct V as [V _]. rewrite V. clear. induction (change_params fixed c) as [|n ns IH]; [reflexivity|]. cbn in *. now rewrite <- IH. }
    2: { intros n I. rewrite Ao. apply look_params, ND. }
    cbn [bind].
    assert (Hpre : forall n s, String.eqb (pre ++ n ++ s)%string "" = false) by (intros n s; destruct pre; [discriminate Hp|reflexivity]).
    assert (Hne : pre <> ""%string) by (intros ->; discriminate Hp).
    assert (L : exists l' ps1, (match l with
                  | inl b => do p <- read_base offset d false pre b "."; Ok (inl b, pappend (pappend [] (KChange c) ps) (KLeaf true b) p)
                  | inr x => do px <- match_up offset fixed d false (pre ++ kex_name x ++ ".") x; Ok (inr px, pappend [] (KChange c) ps)
                  end) = Ok (l', ps1) /\ (match l' with inl b => inl b | inr x => inr (erase x) end) = l
              /\ (forall ps', (forall b, pars ps' (KLeaf true b) = pars ps1 (KLeaf true b)) -> assigned_branch (fun b => KLeaf true b) ps' l' kl)
              /\ NoDup (map fst ps1) /\ pars ps1 (KChange c) = [ps] /\ (forall b, pars ps1 (KLeaf false b) = [])
              /\ forall key, In key (map fst ps1) -> key = KChange c \/ exists b, l = inl b /\ key = KLeaf true b).
    { destruct l as [b|x].
      - destruct Bl as (Sb & q & -> & Vq). rewrite (read_base_ok offset d false pre b true q "."); [|exact Sb|exact Vq|right; reflexivity|exact Al]. cbn [bind].
        exists (inl b), (pappend (pappend [] (KChange c) ps) (KLeaf true b) q). split; [reflexivity|]. split; [reflexivity|]. split; [|split; [|split; [|split]]].
        + intros ps' Hps. constructor. rewrite Hps, pars_append. cbn [pkey_eqb]. rewrite base_eqb_refl. reflexivity.
        + unfold pappend. apply set_nodup, set_nodup. constructor.
        + rewrite pars_append. cbn [pkey_eqb]. rewrite pars_append. cbn [pkey_eqb]. destruct c; reflexivity.
        + intros x. rewrite pars_append. cbn [pkey_eqb Bool.eqb andb]. rewrite pars_append. cbn [pkey_eqb]. reflexivity.
        + intros key I. unfold pappend in I. apply set_keys in I as [->|I]; [right; exists b; split; reflexivity|]. apply set_keys in I as [->|I]; [left; reflexivity|destruct I].
      - destruct Bl as [Nm Bl]. rewrite Nm in Al. destruct (Bl d _ (Hpre _ _) Al) as (px & Ex & Erx & Asx). rewrite Ex. cbn [bind].
        exists (inr px), (pappend [] (KChange c) ps). split; [reflexivity|]. split; [now rewrite Erx|]. split; [|split; [|split; [|split]]].
        + intros ps' _. constructor. exact Asx.
        + unfold pappend. apply set_nodup. constructor.
        + rewrite pars_append. cbn [pkey_eqb]. destruct c; reflexivity.
        + intros b. rewrite pars_append. reflexivity.
        + intros key I. unfold pappend in I. apply set_keys in I as [->|I]; [left; reflexivity|destruct I]. }
    destruct L as (l' & ps1 & EL & Ell & ASl & ND1 & Own & NoR & K1). rewrite EL. cbn [bind snd fst].
    destruct r as [b|x].
    - destruct Br as (Sb & q & -> & Vq).
      rewrite (read_base_ok offset d false pre b true q); [|exact Sb|exact Vq|right; reflexivity|exact Ar]. cbn [bind snd fst].
      eexists. split; [reflexivity|]. split; [cbn [erase]; now rewrite Ell|]. apply as_change.
      + unfold pappend. apply set_nodup, ND1.
      + intros key I. unfold pappend in I. apply set_keys in I as [->|I]; [right; right; exists b; split; reflexivity|]. destruct (K1 key I) as [->|(x & -> & ->)]; [left; reflexivity|right; left].
        destruct l' as [y|y]; cbn in Ell; [|discriminate Ell]. injection Ell as ->. exists x. split; reflexivity.
      + rewrite pars_append. cbn [pkey_eqb]. exact Own.
      + apply ASl. intros x. rewrite pars_append. cbn [pkey_eqb Bool.eqb andb]. reflexivity.
      + constructor. rewrite pars_append. cbn [pkey_eqb Bool.eqb andb]. rewrite base_eqb_refl, NoR. reflexivity.
    - destruct Br as [Nm Br]. rewrite Nm in Ar. destruct (Br d _ (Hpre _ _) Ar) as (px & Ex & Erx & Asx). rewrite Ex. cbn [bind snd fst].
      eexists. split; [reflexivity|]. split; [cbn [erase]; now rewrite Ell, Erx|]. apply as_change.
      + exact ND1.
      + intros key I. destruct (K1 key I) as [->|(y & -> & ->)]; [left; reflexivity|right; left].
        destruct l' as [z|z]; cbn in Ell; [|discriminate Ell]. injection Ell as ->. exists y. split; reflexivity.
      + exact Own.
      + apply ASl. reflexivity.
      + constructor. exact Asx.
  Qed.

  Lemma matched_all e : normal offset e -> non_empty e -> ~ singleton e -> matched e.
  Proof.
    induction e as [kd bts cts IH|c l r IHl IHr] using kex_ind'; intros N NE NS.
    - pose proof (N _ (node_self _)) as (W & _ & Hc). apply non_empty_comm in NE as [T NE]. apply matched_comm; [exact W| |].
      + destruct (Z.eq_dec (terms bts cts) 1) as [E|E]; [exfalso; apply NS; exists kd, bts, cts; split; [reflexivity|exact E]|lia].
      + intros c I. destruct (Hc c I) as [S Kd]. split; [exact Kd|]. apply IH; [exact I| |apply NE, I|exact S]. eapply normal_node_of; [exact N|]. eapply node_comm; [exact I|constructor].
    - pose proof (N _ (node_self _)) as Hn. cbn in Hn. assert (NE' := proj1 (non_empty_change c l r) NE). apply matched_change. intros x Hx.
      assert (Nx : normal offset x) by (eapply normal_node_of; [exact N|]; destruct Hx as [->| ->]; [apply node_left|apply node_right]; constructor).
      destruct Hx as [->| ->]; [apply (IHl x eq_refl Nx)|apply (IHr x eq_refl Nx)]; [apply NE'; left; reflexivity|apply Hn; left; reflexivity|apply NE'; right; reflexivity|apply Hn; right; reflexivity].
  Qed.

  Lemma match_root d e : ~ singleton e -> (forall k bts cts, e = Comm k bts cts -> wf_counter bts) ->
    match_up offset fixed d true "GP_regression." e = match_up offset fixed d false ("GP_regression." ++ kex_name e ++ ".") e.
  Proof.
    intros NS W. destruct e as [k bts cts|c l r]; [|reflexivity].
    replace (is_singleton bts cts) with false.
    - cbn [match_up]. unfold own_prefix. destruct (is_singleton bts cts) eqn:E; [|reflexivity].
      exfalso. apply NS. exists k, bts, cts. split; [reflexivity|]. rewrite terms_csum by (eapply wf_nodup, W; reflexivity). apply Z.eqb_eq in E. exact E.
    - symmetry. destruct (is_singleton bts cts) eqn:E; [|reflexivity].
      exfalso. apply NS. exists k, bts, cts. split; [reflexivity|]. rewrite terms_csum by (eapply wf_nodup, W; reflexivity). apply Z.eqb_eq in E. exact E.
  Qed.

  Lemma matched_root e g k : normal offset e -> non_empty e -> to_kernel e = Ok g -> fitted offset fixed g k ->
    exists p, fit_ker_to_kex_with_params offset fixed k e = Ok p /\ erase p = e /\ assigned p k.
  Proof.
    intros N NE E F. unfold fit_ker_to_kex_with_params.
    destruct (match e with Comm _ bts cts => is_singleton bts cts | Change _ _ _ => false end) eqn:S.
    - destruct e as [kd bts cts|]; [|discriminate S]. pose proof (N _ (node_self _)) as (W & _ & Hc). assert (NE' := proj2 (proj1 (non_empty_comm kd bts cts) NE)).
      destruct (node_parts offset fixed kd bts cts g k) as (bks & cks & P & FL & FC & SL & OV & _).
      { intros c I. destruct (Hc c I) as [Sc Kd]. split; [exact Kd|]. intros g' k' E' F'.
        assert (Nc : normal offset c) by (eapply normal_node_of; [exact N|]; eapply node_comm; [exact I|constructor]).
        destruct (matched_all c Nc (NE' c I) Sc g' k' E' F') as [A B]. split; [exact A|apply B, Kd]. }
      { exact E. } { exact F. }
      assert (L : length (bks ++ cks) = 1%nat).
      { rewrite app_length, <- (Forall2_len _ _ _ FL), <- (Forall2_len _ _ _ FC), (Permutation_length (order_perm (celements bts))).
        unfold is_singleton in S. apply Z.eqb_eq in S. rewrite <- celements_length in S by (intros b n I; destruct W as [_ W]; specialize (W b n I); lia). lia. }
      assert (EK : bks ++ cks = [k]) by (inversion P; subst; [reflexivity|lia|lia]).
      destruct (comm_body offset fixed kd bts cts bks cks (get_param_dict offset k) "GP_regression." W FL SL FC OV) as (ps & ps' & pcts & E1 & E2 & E3 & Er & As & TP).
      { rewrite EK. intros l1 k' l2 El s. destruct l1 as [|x l1]; [|destruct l1; discriminate El]. injection El as <- <-.
        cbn [names_of map rev]. rewrite component_first. apply look_get_param_dict. }
      exists (PComm kd bts ps' pcts). cbn [match_up]. rewrite S. unfold own_prefix. cbn [bind]. cbn [String.append] in *. rewrite E1. cbn [bind]. rewrite E2. cbn [bind]. rewrite E3. cbn [bind].
      split; [reflexivity|]. split; [cbn [erase]; now rewrite Er|]. apply (as_comm kd bts ps' pcts _ bks cks P (base_part_is_base offset _ _ FL) TP As).
    - assert (NS : ~ singleton e).
      { intros (kd & bts & cts & -> & T). pose proof (N _ (node_self _)) as (W & _). rewrite terms_csum in T by (apply wf_nodup, W). apply Z.eqb_neq in S. contradiction. }
      destruct (matched_all e N NE NS g k E F) as [[Nm M] _]. rewrite match_root; [|exact NS|intros kd bts cts ->; apply (N _ (node_self _))]. rewrite <- Nm.
      apply M; [reflexivity|]. intros s. apply look_get_param_dict.
  Qed.
End Match2.
