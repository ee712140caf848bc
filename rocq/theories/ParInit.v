(** C31 for expressions outside a regression model. *)
From Coq Require Import String Ascii Reals List Bool Arith ZArith Lia Permutation.
From Verif Require Import Py KexModel KexSpec KexProofs KexSimp KexMore SemModel SemSpec SemProofs SemSimp SemKernel IvModel IvProofs ParModel ParSpec ParNames ParMatch ParMatch2 ParInitModel.
Import ListNotations.
Local Open Scope list_scope.
Notation length := Datatypes.length.

Section Init.
  Context (offset fixed : bool) (owner : string).
  Lemma append_nil (s : string) : (s ++ "")%string = s.
  Proof. induction s as [|c s IH]; [reflexivity|]. cbn. now rewrite IH. Qed.
  Lemma look_get_param_dict_in k s : dict_get String.eqb (get_param_dict_in offset owner k) ((owner ++ vkern_name offset k ++ ".") ++ s)%string = look (flat_names offset "" k) s.
  Proof. unfold get_param_dict_in. rewrite look_fold, flat_under, look_under. destruct (look _ s); reflexivity. Qed.

  Lemma name_not_empty n : String.eqb (owner ++ n ++ ".") "" = false.
  Proof. destruct owner as [|c s]; [|reflexivity]. destruct n; reflexivity. Qed.
  Lemma match_root_in d e : ~ singleton e -> (forall k bts cts, e = Comm k bts cts -> wf_counter bts) ->
    match_up offset fixed d true owner e = match_up offset fixed d false (owner ++ kex_name e ++ ".") e.
  Proof.
    intros NS W. destruct e as [k bts cts|c l r]; cbn [match_up]; unfold own_prefix; rewrite name_not_empty; [|reflexivity].
    destruct (is_singleton bts cts) eqn:E; [|reflexivity].
    exfalso. apply NS. exists k, bts, cts. split; [reflexivity|]. rewrite terms_csum by (eapply wf_nodup, W; reflexivity). apply Z.eqb_eq in E. exact E.
  Qed.

  Lemma matched_in e g k : normal offset e -> non_empty e -> to_kernel e = Ok g -> fitted offset fixed g k ->
    exists p, match_up offset fixed (get_param_dict_in offset owner k) true owner e = Ok p /\ erase p = e /\ assigned p k.
  Proof.
    intros N NE E F. 
    destruct (match e with Comm _ bts cts => is_singleton bts cts | Change _ _ _ => false end) eqn:S.
    - destruct e as [kd bts cts|]; [|discriminate S]. pose proof (N _ (node_self _)) as (W & _ & Hc). assert (NE' := proj2 (proj1 (non_empty_comm kd bts cts) NE)).
      destruct (node_parts offset fixed kd bts cts g k) as (bks & cks & P & FL & FC & SL & OV & _).
      { intros c I. destruct (Hc c I) as [Sc Kd]. split; [exact Kd|]. intros g' k' E' F'.
        assert (Nc : normal offset c) by (eapply normal_node_of; [exact N|]; eapply node_comm; [exact I|constructor]).
        destruct (matched_all offset fixed c Nc (NE' c I) Sc g' k' E' F') as [A B]. split; [exact A|apply B, Kd]. }
      { exact E. } { exact F. }
      assert (L : length (bks ++ cks) = 1%nat).
      { rewrite app_length, <- (Forall2_len _ _ _ FL), <- (Forall2_len _ _ _ FC), (Permutation_length (order_perm (celements bts))).
        unfold is_singleton in S. apply Z.eqb_eq in S. rewrite <- celements_length in S by (intros b n I; destruct W as [_ W]; specialize (W b n I); lia). lia. }
      assert (EK : bks ++ cks = [k]) by (inversion P; subst; [reflexivity|lia|lia]).
      destruct (comm_body offset fixed kd bts cts bks cks (get_param_dict_in offset owner k) owner W FL SL FC OV) as (ps & ps' & pcts & E1 & E2 & E3 & Er & As & TP).
      { rewrite EK. intros l1 k' l2 El s. destruct l1 as [|x l1]; [|destruct l1; discriminate El]. injection El as <- <-.
        cbn [names_of map rev]. rewrite component_first. apply look_get_param_dict_in. }
      exists (PComm kd bts ps' pcts). cbn [match_up]. rewrite S. unfold own_prefix. cbn [bind]. rewrite append_nil. rewrite E1. cbn [bind]. rewrite E2. cbn [bind]. rewrite E3. cbn [bind].
      split; [reflexivity|]. split; [cbn [erase]; now rewrite Er|]. apply (as_comm kd bts ps' pcts _ bks cks P (base_part_is_base offset _ _ FL) TP As).
    - assert (NS : ~ singleton e).
      { intros (kd & bts & cts & -> & T). pose proof (N _ (node_self _)) as (W & _). rewrite terms_csum in T by (apply wf_nodup, W). apply Z.eqb_neq in S. contradiction. }
      destruct (matched_all offset fixed e N NE NS g k E F) as [[Nm M] _]. rewrite match_root_in; [|exact NS|intros kd bts cts ->; apply (N _ (node_self _))]. rewrite <- Nm.
      apply M; [apply name_not_empty|]. intros s. apply look_get_param_dict_in.
  Qed.
End Init.
Theorem init_assigned offset fixed e g k : normal offset e -> non_empty e -> to_kernel e = Ok g -> fitted offset fixed g k ->
  exists p, init_rand_params offset fixed k e = Ok p /\ erase p = e /\ assigned p k.
Proof. exact (matched_in offset fixed "" e g k). Qed.
