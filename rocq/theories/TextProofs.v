(** The description of a component says what it should (C68). *)
From Coq Require Import String Reals List Bool Arith ZArith Lia Permutation Sorting.Sorted Lra.
From Verif Require Import Py UtilProofs KexModel KexSpec KexProofs KernModel SemModel IvModel IvSpec IvProofs IvOk IvText ParNames TextSpec.
Import ListNotations.
Local Open Scope list_scope.

Lemma bind_ok {A B} (m : res A) (f : A -> res B) y : bind m f = Ok y -> exists x, m = Ok x /\ f x = Ok y.
Proof. destruct m; cbn; [eauto|discriminate]. Qed.
Lemma ok_inj {A} (a b : A) : Ok a = Ok b -> b = a.
Proof. congruence. Qed.
Ltac inv_ok H := let x := fresh "x" in let E := fresh "E" in apply bind_ok in H as (x & E & H).

Lemma Forall2_len {A B} (P : A -> B -> Prop) l m : Forall2 P l m -> List.length l = List.length m.
Proof. induction 1; cbn; congruence. Qed.

(** ** Enumerations *)
Lemma join_listing l : join l = String.concat ", " l.
Proof. induction l as [|x [|y t] IH]; [reflexivity..|]. cbn [join String.concat] in *. rewrite IH. reflexivity. Qed.
Lemma join_and_listing l : 2 <= List.length l -> join_and l = listing l.
Proof.
  intros H. assert (G : forall t, t <> [] -> forall x, join_and (x :: t) = (String.concat ", " (removelast (x :: t)) ++ ", and " ++ last t "")%string).
  { clear. induction t as [|y t IH]; intros Ht x; [congruence|]. destruct t as [|z t].
    - cbn. rewrite ?sapp_assoc. reflexivity.
    - assert (N : z :: t <> []) by discriminate. specialize (IH N y).
      change (join_and (x :: y :: z :: t)) with (x ++ ", " ++ join_and (y :: z :: t))%string. rewrite IH.
      change (removelast (x :: y :: z :: t)) with (x :: removelast (y :: z :: t)). change (last (y :: z :: t) "")%string with (last (z :: t) "")%string.
      destruct (removelast (y :: z :: t)) as [|u us] eqn:Er; [cbn in Er; destruct t; discriminate|].
      change (String.concat ", " (x :: u :: us)) with (x ++ ", " ++ String.concat ", " (u :: us))%string. rewrite !sapp_assoc. reflexivity. }
  destruct l as [|x [|y t]]; [cbn in H; lia..|]. rewrite G by discriminate. reflexivity.
Qed.
Lemma join_one l : List.length l <= 1 -> join l = listing l.
Proof. destruct l as [|x [|y t]]; [reflexivity..|cbn; lia]. Qed.
Lemma text_listing l : (if Nat.ltb 1 (List.length l) then join_and l else join l) = listing l.
Proof. destruct (Nat.ltb_spec 1 (List.length l)); [apply join_and_listing; lia|apply join_one; lia]. Qed.
Lemma listing_cons x l : x <> ""%string -> listing (x :: l) <> ""%string.
Proof.
  intros H. destruct l as [|y t]; [exact H|]. unfold listing. change (removelast (x :: y :: t)) with (x :: removelast (y :: t)).
  destruct (removelast (y :: t)); cbn [String.concat]; destruct x; cbn; congruence.
Qed.

Section Phrases.
  Context (fixed offset : bool) (fmt : R -> string).
  (** ** Periodic kernels *)
  Lemma sorted_periods ps l : mapM (fun p => do k <- pget p pPeriod; Ok (k, p)) ps = Ok l ->
    let s := py_sorted (fun a b : R * pdict => negb (Rltb (fst a) (fst b))) l in
    Permutation (map snd s) ps /\ StronglySorted (fun a b : R * pdict => (fst b <= fst a)%R) s /\ Forall (fun a => pget (snd a) pPeriod = Ok (fst a)) s.
  Proof.
    intros H s. apply mapM_Forall2 in H.
    assert (P : Permutation s l) by apply py_sorted_perm.
    assert (Q : map snd l = ps /\ Forall (fun a => pget (snd a) pPeriod = Ok (fst a)) l).
    { clear s P. induction H as [|p [k q] ps l Hp _ [IH1 IH2]]; [split; constructor|]. inv_ok Hp. injection Hp as -> ->. cbn. rewrite IH1. split; [reflexivity|]. constructor; [exact E|exact IH2]. }
    destruct Q as [Q1 Q2]. split; [rewrite <- Q1; apply Permutation_map, P|]. split.
    - assert (S : StronglySorted (fun a b : R * pdict => negb (Rltb (fst a) (fst b)) = true) s).
      { apply py_sorted_sorted.
        - intros a b. destruct (Rltb (fst a) (fst b)) eqn:E1; [right|left; reflexivity]. apply negb_true_iff, Rltb_false. apply Rltb_true in E1. lra.
        - intros a b c H1 H2. apply negb_true_iff, Rltb_false in H1, H2. apply negb_true_iff, Rltb_false. lra. }
      clear -S. induction S as [|a t S IH F]; constructor; [exact IH|]. eapply Forall_impl; [|exact F]. cbn. intros b Hb. apply negb_true_iff, Rltb_false in Hb. exact Hb.
    - eapply Permutation_Forall; [symmetry; exact P|exact Q2].
  Qed.
  Lemma periodic_first ps t : first_term_interpretation offset fmt bPER ps = Ok t -> ps <> [] -> first_phrase offset fmt bPER ps t.
  Proof.
    cbn [first_term_interpretation first_phrase]. intros H Ne. destruct (Nat.ltb_spec 1 (List.length ps)) as [L|L].
    - inv_ok H. unfold by_desc_period in E. inv_ok E. injection E as <-. destruct (sorted_periods ps x0 E0) as (P & St & F).
      set (s := py_sorted _ x0) in *. destruct s as [|[k p] s]; [cbn in H; discriminate|]. cbn [map head tl bind snd] in H.
      apply bind_ok in H as (q & Eq & H). apply bind_ok in H as (len & El & H). apply bind_ok in H as (x2 & E2 & H). cbn [snd map] in *. apply mapM_Forall2 in E2.
      assert (Ek : q = k) by (inversion F; cbn in *; congruence). subst q.
      assert (C : exists cs, Forall2 (fun p c => pget p pPeriod = Ok (fst c) /\ pget p pLengthscale = Ok (snd c)) (map snd s) cs
        /\ x2 = map (period_and_lengthscale fmt) cs /\ map fst cs = map fst s).
      { inversion F as [|? ? _ F']; subst. clear -E2 F'. revert x2 E2. induction s as [|[k p] s IH]; intros ts E2; cbn [map snd] in *; inversion E2; subst; [exists []; repeat split; constructor|].
        inversion F'; subst. destruct (IH ltac:(assumption) _ ltac:(eassumption)) as (cs & C1 & C2 & C3).
        match goal with H : _ = Ok _ |- _ => inv_ok H; inv_ok H; injection H as <- end. cbn [fst snd] in *.
        match goal with H1 : pget p pPeriod = Ok k, H2 : pget p pPeriod = Ok _ |- _ => rewrite H1 in H2; injection H2 as -> end.
        eexists ((_, _) :: cs). split; [constructor; [cbn; eauto|exact C1]|]. cbn. rewrite C2, C3. split; reflexivity. }
      destruct C as (cs & C1 & -> & C3). exists ((k, len) :: cs). split.
      + exists (p :: map snd s). split; [exact P|]. split; [constructor; [cbn; auto|exact C1]|].
        assert (M : map fst ((k, len) :: cs) = map fst ((k, p) :: s)) by (cbn; f_equal; exact C3).
        clear -St M. revert M St. generalize ((k, len) :: cs) as l, ((k, p) :: s) as m. induction l as [|c l IH]; intros [|a m] M St; try discriminate M; constructor.
        * injection M as M1 M2. apply (IH m M2). inversion St; assumption.
        * injection M as M1 M2. inversion St as [|? ? _ F]; subst. clear -F M1 M2. revert m M2 F. induction l as [|d l IH]; intros [|b m] M2 F; try discriminate M2; constructor.
          -- injection M2 as M3 M4. inversion F; subst. rewrite M1, M3. assumption.
          -- injection M2 as M3 M4. inversion F; subst. apply (IH m M4). assumption.
      + apply ok_inj in H. subst t. assert (Len : List.length ps = S (List.length cs)).
        { rewrite <- (Permutation_length P). cbn. f_equal. rewrite (Forall2_len _ _ _ C1). reflexivity. }
        rewrite Len. destruct cs as [|c' [|c'' cs]]; [cbn in Len; lia| |].
        * cbn. unfold period_and_lengthscale. cbn. rewrite !sapp_assoc. reflexivity.
        * cbn [periodic_phrase].
          match goal with |- context [if Nat.eqb ?x ?y then ?a else ?b] => change (if Nat.eqb x y then a else b) with b end.
          match goal with |- context [if Nat.ltb ?x ?y then ?a else ?b] => change (if Nat.ltb x y then a else b) with a end.
          rewrite join_and_listing by (cbn; lia). change (S (List.length (c' :: c'' :: cs)) - 1) with (List.length (c' :: c'' :: cs)).
          unfold period_and_lengthscale at 2. cbn [fst snd]. unfold nat_str, decimal. rewrite !sapp_assoc. reflexivity.
    - destruct ps as [|p [|p' ps]]; [congruence| |cbn in L; lia]. cbn [head bind] in H. inv_ok H. inv_ok H. injection H as <-.
      exists [(x, x0)]. split; [|reflexivity]. exists [p]. repeat split; repeat constructor; cbn; auto.
  Qed.
  (** ** Linear kernels *)
  Lemma roots_spec ps t : roots_text fmt ps = Ok t -> 2 <= List.length ps -> exists os, Forall2 (fun p o => pget p pOffset = Ok o) ps os /\ t = listing (map fmt os).
  Proof.
    unfold roots_text. intros H L. inv_ok H. injection H as <-. apply mapM_Forall2 in E.
    assert (C : exists os, Forall2 (fun p o => pget p pOffset = Ok o) ps os /\ x = map fmt os).
    { clear L. induction E as [|p s ps ss Hp _ (os & IH1 & ->)]; [exists []; split; constructor|]. destruct (pget p pOffset) as [o|] eqn:Eo; [|discriminate]. injection Hp as <-.
      exists (o :: os). split; [constructor; assumption|reflexivity]. }
    destruct C as (os & C1 & ->). exists os. split; [exact C1|]. apply join_and_listing. rewrite map_length, <- (Forall2_len _ _ _ C1). exact L.
  Qed.
  Lemma linear_spec (one more w1 w2 : string) ps t : ps <> [] ->
    (if Nat.ltb 1 (List.length ps) then
       if offset then do r <- roots_text fmt ps; Ok (w2 ++ nat_str (List.length ps) ++ " with roots " ++ r)%string else Ok (w2 ++ nat_str (List.length ps))%string
     else if offset then do p <- head ps; do o <- pget p pOffset; Ok (w1 ++ fmt o)%string else Ok one) = Ok t ->
    w1 = (one ++ " with horizontal offset ")%string -> w2 = (more ++ " of order ")%string -> linear_phrase offset fmt one more ps t.
  Proof.
    intros Ne H -> ->. unfold linear_phrase. destruct (Nat.ltb_spec 1 (List.length ps)) as [L|L].
    - destruct offset.
      + inv_ok H. injection H as <-. destruct (roots_spec ps x E L) as (os & O1 & ->). exists os. split; [exact O1|]. unfold nat_str, decimal. rewrite !sapp_assoc.
        destruct ps as [|? [|? ?]]; [cbn in L; lia..|reflexivity].
      + injection H as <-. exists []. split; [reflexivity|]. unfold nat_str, decimal. rewrite !sapp_assoc, sapp_nil_r. destruct ps as [|? [|? ?]]; [cbn in L; lia..|reflexivity].
    - destruct ps as [|p [|? ?]]; [congruence| |cbn in L; lia]. destruct offset.
      + cbn [head bind] in H. inv_ok H. injection H as <-. exists [x]. split; [repeat constructor; assumption|]. cbn [map listing]. rewrite sapp_assoc. reflexivity.
      + injection H as <-. exists []. split; [reflexivity|]. rewrite sapp_nil_r. reflexivity.
  Qed.
  Lemma first_spec b ps t : first_term_interpretation offset fmt b ps = Ok t -> ps <> [] -> is_sigmoid b = false /\ first_phrase offset fmt b ps t.
  Proof.
    intros H Ne. destruct b; try discriminate H; (split; [reflexivity|]).
    - cbn in *. congruence.
    - cbn in *. congruence.
    - cbn [first_phrase]. cbn [first_term_interpretation] in H. eapply (linear_spec _ _ _ _ ps t Ne H); reflexivity.
    - cbn [first_phrase]. cbn [first_term_interpretation] in H. inv_ok H. inv_ok H. injection H as <-. destruct ps as [|p qs]; [discriminate|]. injection E as <-. exists p, qs, x0. auto.
    - exact (periodic_first ps t H Ne).
  Qed.
  Lemma later_spec b ps t : postmodifier_base offset fmt b ps = Ok t -> ps <> [] ->
    (is_sigmoid b = true /\ t = ""%string) \/ ((b = bSE \/ b = bLIN) /\ later_phrase offset fmt b ps (", " ++ t)%string /\ is_empty_string t = false).
  Proof.
    intros H Ne. destruct b; try discriminate H; try (left; split; [reflexivity|]; cbn in H; congruence); right; cbn [later_phrase postmodifier_base] in *.
    - split; [auto|]. split.
      + apply (linear_spec ", with linearly varying amplitude" ", with polynomially varying amplitude" (", with linearly varying amplitude" ++ " with horizontal offset ") (", with polynomially varying amplitude" ++ " of order ") ps); auto.
        destruct (Nat.ltb 1 (List.length ps)); destruct offset.
        * inv_ok H. injection H as <-. rewrite E. reflexivity.
        * injection H as <-. reflexivity.
        * inv_ok H. inv_ok H. injection H as <-. rewrite E. cbn [bind]. rewrite E0. reflexivity.
        * injection H as <-. reflexivity.
      + destruct (Nat.ltb 1 (List.length ps)); destruct offset.
        * inv_ok H. injection H as <-. reflexivity.
        * injection H as <-. reflexivity.
        * inv_ok H. inv_ok H. injection H as <-. reflexivity.
        * injection H as <-. reflexivity.
    - inv_ok H. inv_ok H. injection H as <-. destruct ps as [|p qs]; [discriminate|]. injection E as <-. split; [auto|]. split; [exists p, qs, x0; auto|reflexivity].
  Qed.
  (** ** Intervals *)
  Lemma interval_spec v t : interval_text fixed fmt v = Ok t -> interval_phrase fixed fmt v t /\ t <> ""%string.
  Proof.
    unfold interval_text, interval_phrase. intros H. inv_ok H. destruct v as [|i|l]; [discriminate E| |cbn in E; injection E as <-; discriminate H]. cbn [vmissing vget] in *. apply ok_inj in E.
    destruct (i_start i) as [s|] eqn:Es; destruct (i_end i) as [e|] eqn:Ee; subst x; cbn [bind] in H; try discriminate H.
    - destruct fixed.
      + destruct (i_sslope i) as [a|] eqn:Ea; [|discriminate]. destruct (i_eslope i) as [b|] eqn:Eb; [|discriminate]. cbn [bind] in H.
        destruct (Req_EM_T a b) as [Hab|Hab]; injection H as <-; (split; [exists i; split; [reflexivity|]; rewrite Es, Ee; exists a, b; split; [exact Ea|]; split; [exact Eb|]|discriminate]);
          [left|right]; (split; [exact Hab|]); cbn; rewrite !sapp_assoc; reflexivity.
      + injection H as <-. split; [exists i; split; [reflexivity|]; rewrite Es, Ee; reflexivity|discriminate].
    - destruct fixed; [injection H as <-|destruct (i_sslope i) as [a|] eqn:Ea; [|discriminate]; injection H as <-]; (split; [exists i; split; [reflexivity|]; rewrite Es, Ee; eauto|discriminate]).
    - destruct fixed; [injection H as <-|destruct (i_eslope i) as [a|] eqn:Ea; [|discriminate]; injection H as <-]; (split; [exists i; split; [reflexivity|]; rewrite Es, Ee; eauto|discriminate]).
  Qed.
  Lemma intervals_spec l t : intervals_text fixed fmt l = Ok t -> exists ts, Forall2 (interval_phrase fixed fmt) l ts /\ t = listing ts /\ (is_empty_string t = true <-> ts = []).
  Proof.
    unfold intervals_text. intros H. inv_ok H. injection H as <-. apply mapM_Forall2 in E. exists x. rewrite text_listing.
    assert (F : Forall2 (fun v t => interval_phrase fixed fmt v t /\ t <> ""%string) l x).
    { clear -E. induction E; constructor; [apply interval_spec; assumption|assumption]. }
    split; [clear -F; induction F; constructor; tauto|]. split; [reflexivity|].
    destruct F as [|v t0 l ts [_ N] F]; [cbn; tauto|]. pose proof (listing_cons t0 ts N). destruct (listing (t0 :: ts)); [congruence|]. cbn. split; discriminate.
  Qed.
End Phrases.

(** ** The whole description *)
Lemma sconcat_cons x l : String.concat "" (x :: l) = (x ++ String.concat "" l)%string.
Proof. destruct l; cbn [String.concat]; [rewrite sapp_nil_r; reflexivity|reflexivity]. Qed.
Section Whole.
  Context (fixed offset : bool) (fmt : R -> string).
  Definition slot (g : item -> string) (l : list item) (m : nat) : string := match find (fun i => Nat.eqb (item_order i) m) l with Some i => g i | None => ""%string end.
  Lemma slots g l : StronglySorted (fun a b => item_order a < item_order b) l -> forall n k, (forall i, In i l -> k <= item_order i < k + n) ->
    String.concat "" (map g l) = String.concat "" (map (slot g l) (seq k n)).
  Proof.
    intros St n. revert l St. induction n as [|n IH]; intros l St k H.
    - destruct l as [|i l]; [reflexivity|]. specialize (H i (or_introl eq_refl)). lia.
    - cbn [seq map]. rewrite sconcat_cons. destruct l as [|i l].
      + unfold slot at 1. cbn [find append]. rewrite <- (IH [] (SSorted_nil _)); [reflexivity|intros i []].
      + inversion St as [|? ? St' F]; subst. rewrite Forall_forall in F. destruct (Nat.eq_dec (item_order i) k) as [E|E].
        * unfold slot at 1. cbn [find map]. rewrite (proj2 (Nat.eqb_eq _ _) E), sconcat_cons. f_equal.
          rewrite (IH l St' (S k)) by (intros j Hj; specialize (F j Hj); specialize (H j (or_intror Hj)); lia).
          f_equal. apply map_ext_in. intros m Hm. apply in_seq in Hm. unfold slot. cbn [find]. destruct (Nat.eqb_spec (item_order i) m); [lia|reflexivity].
        * assert (Z : slot g (i :: l) k = ""%string).
          { unfold slot. destruct (find _ (i :: l)) as [j|] eqn:Ef; [|reflexivity]. apply find_some in Ef as [Hj Ej]. apply Nat.eqb_eq in Ej.
            pose proof (H i (or_introl eq_refl)). destruct Hj as [->|Hj]; [lia|]. specialize (F j Hj). lia. }
          rewrite Z. cbn [append]. apply IH; [exact St|]. intros j Hj. pose proof (H j Hj). pose proof (H i (or_introl eq_refl)). destruct Hj as [<-|Hj]; [lia|]. specialize (F j Hj). lia.
  Qed.
  Lemma order_item i b : item_order i = interp_order b -> exists ps, i = inl (b, ps).
  Proof. destruct i as [[c ps]|l]; cbn; [destruct b, c; cbn; intros E; try discriminate E; eexists; reflexivity|destruct b; discriminate]. Qed.
  Lemma order_nine i : item_order i = 9 -> exists l, i = inr l.
  Proof. destruct i as [[c ps]|l]; cbn; [destruct c; discriminate|eauto]. Qed.

  Theorem description_says d t : NoDup (map fst d) -> (forall k ps, In (k, ps) d -> ps <> []) ->
    base_factors_interpretation fixed offset fmt d = Ok t -> describes fixed offset fmt d t.
  Proof.
    intros Nd Ne H. unfold base_factors_interpretation in H. apply bind_ok in H as (o & Eo & H). apply bind_ok in H as (q & Eq & H). apply bind_ok in H as (v & Ev & H).
    cbv zeta in H. apply bind_ok in H as (its & Ei & H). apply bind_ok in H as (post & Ep & H).
    set (all := its ++ match o with Some l => [inr l] | None => [] end) in *.
    change (py_sorted (fun a b => Nat.leb (item_order a) (item_order b)) all) with (py_sorted item_le all) in *.
    (* the items *)
    apply items_spec in Ei.
    assert (Hd : forall b ps, In (KBase b, ps) d -> In (inl (b, ps)) all).
    { intros b ps Hin. assert (Hin' : In (KBase b, ps) (dict_del pkey_eqb d KProduct)) by (unfold dict_del; apply filter_In; split; [exact Hin|reflexivity]).
      destruct (Forall2_in_l _ _ _ _ Ei Hin') as (i & Hi & b' & Eb & ->). cbn in Eb. injection Eb as <-. apply in_app_iff. left. exact Hi. }
    assert (Hall : forall j, In j all -> match j with inl (b, ps) => In (KBase b, ps) d | inr l => o = Some l end).
    { intros j Hj. apply in_app_or in Hj. destruct Hj as [Hj|Hj].
      - destruct (Forall2_in _ _ _ _ Ei Hj) as ([k ps] & Hkv & b & Hb & ->). cbn in *. subst k. apply filter_In in Hkv. tauto.
      - destruct o; [|destruct Hj]. destruct Hj as [<-|[]]. reflexivity. }
    assert (Hnd : NoDup (map item_base all)).
    { assert (Nd' : NoDup (map fst (dict_del pkey_eqb d KProduct))).
      { unfold dict_del. clear - Nd. induction d as [|kv l IH]; cbn; [constructor|]. inversion Nd as [|? ? Hk Ht]; subst.
        destruct (negb (pkey_eqb (fst kv) KProduct)); [|auto]. cbn. constructor; [|auto]. intros Hin. apply Hk.
        apply in_map_iff in Hin. destruct Hin as (x & Hx & Hin). apply filter_In in Hin. rewrite <- Hx. apply in_map. tauto. }
      pose proof (items_nodup _ _ Nd' Ei) as Hnb. unfold all. rewrite map_app. destruct o; cbn; [|rewrite app_nil_r; exact Hnb].
      apply Permutation_NoDup with (l := None :: map item_base its); [apply Permutation_cons_append|]. constructor; [|exact Hnb].
      intros Hn. apply in_map_iff in Hn. destruct Hn as (j & Hj & Hin). destruct (Forall2_in _ _ _ _ Ei Hin) as (kv & _ & b & _ & ->). discriminate. }
    (* in order *)
    pose proof (py_sorted_perm item_le all) as Hperm.
    assert (Hle_t : forall a b c, item_le a b = true -> item_le b c = true -> item_le a c = true).
    { unfold item_le. intros a b' c H1 H2. apply Nat.leb_le in H1, H2. apply Nat.leb_le. lia. }
    assert (Hle_tot : forall a b, item_le a b = true \/ item_le b a = true).
    { unfold item_le. intros a b'. destruct (Nat.le_ge_cases (item_order a) (item_order b')); [left | right]; now apply Nat.leb_le. }
    pose proof (py_sorted_sorted item_le Hle_tot Hle_t all) as Hsort.
    assert (Hnd2 : NoDup (map item_base (py_sorted item_le all))) by (eapply Permutation_NoDup; [apply Permutation_map, Permutation_sym, Hperm | exact Hnd]).
    assert (Hin : forall j, In j (py_sorted item_le all) <-> In j all) by (intros j; split; apply Permutation_in; [exact Hperm|symmetry; exact Hperm]).
    assert (St : StronglySorted (fun a b => item_order a < item_order b) (py_sorted item_le all)).
    { clear -Hsort Hnd2. induction Hsort as [|a l S IH F]; [constructor|]. cbn in Hnd2. inversion Hnd2 as [|? ? Hn Hnd3]; subst. constructor; [apply IH, Hnd3|].
      rewrite Forall_forall in *. intros b Hb. specialize (F b Hb). unfold item_le in F. apply Nat.leb_le in F. destruct (Nat.eq_dec (item_order a) (item_order b)) as [E|]; [|lia].
      exfalso. apply Hn. assert (Eb : item_base a = item_base b).
      { destruct a as [[x p]|x]; destruct b as [[y p']|y]; cbn in E |- *; [destruct x, y; cbn in E; try discriminate E; reflexivity|destruct x; discriminate E|destruct y; discriminate E|reflexivity]. }
      rewrite Eb. apply in_map, Hb. }
    destruct (py_sorted item_le all) as [|i rest] eqn:Es; [discriminate H|]. cbn [tl] in Ep.
    apply bind_ok in H as (t1 & E1 & H). apply ok_inj in H. subst t.
    destruct i as [[b ps]|l]; [|discriminate E1]. cbn [item_first] in E1.
    pose proof (Hall _ (proj1 (Hin _) (or_introl eq_refl))) as Hb. cbn in Hb. pose proof (Ne _ _ Hb) as Nps.
    destruct (first_spec offset fmt b ps t1 E1 Nps) as [Sb F1].
    inversion St as [|? ? St' Fo]; subst. rewrite Forall_forall in Fo.
    (* the texts of the rest *)
    match type of Ep with mapM ?f rest = _ => set (f0 := f) in * end.
    set (g := fun j => match f0 j with Ok t => t | Raise _ => ""%string end).
    assert (Eg : post = map g rest /\ forall j, In j rest -> exists t, f0 j = Ok t).
    { apply mapM_Forall2 in Ep. clear -Ep. induction Ep as [|j p r ps Hj _ [IH1 IH2]]; [split; [reflexivity|intros j []]|]. split.
      - cbn. unfold g at 1. rewrite Hj, IH1. reflexivity.
      - intros x [<-|Hx]; eauto. }
    destruct Eg as [-> Ok0].
    assert (Hr : forall j, In j rest -> In j all) by (intros j Hj; apply Hin; right; exact Hj).
    assert (Base : forall c qs, In (inl (c, qs)) rest -> (is_sigmoid c = true /\ g (inl (c, qs)) = ""%string) \/ ((c = bSE \/ c = bLIN) /\ later_phrase offset fmt c qs (g (inl (c, qs))))).
    { intros c qs Hj. destruct (Ok0 _ Hj) as (s & Hs). unfold g. rewrite Hs. unfold f0 in Hs. cbn [postmodifier_interpretation] in Hs. apply bind_ok in Hs as (s' & Hs' & Hs). apply ok_inj in Hs.
      destruct (later_spec offset fmt c qs s' Hs') as [[Sc ->]|(Hc & L & En)].
      - apply (Ne (KBase c) qs). exact (Hall _ (Hr _ Hj)).
      - left. split; [exact Sc|]. rewrite Hs. reflexivity.
      - right. split; [exact Hc|]. rewrite Hs, En. exact L. }
    assert (Hcat : String.concat "" (map g rest) = (slot g rest 1 ++ slot g rest 4 ++ slot g rest 9)%string).
    { assert (Bd : forall j, In j rest -> 0 <= item_order j < 0 + 10) by (intros [[c qs]|l] _; cbn; [destruct c; cbn; lia|lia]).
      rewrite (slots g rest St' 10 0 Bd). cbn [seq map].
      assert (Z : forall m, m <> 1 -> m <> 4 -> m <> 9 -> slot g rest m = ""%string).
      { intros m M1 M4 M9. unfold slot. destruct (find _ rest) as [j|] eqn:Ef; [|reflexivity]. apply find_some in Ef as [Hj Ej]. apply Nat.eqb_eq in Ej.
        destruct j as [[c qs]|l]; [|cbn in Ej; lia]. destruct (Base c qs Hj) as [[_ E]|[[-> | ->] _]]; [exact E|cbn in Ej; lia|cbn in Ej; lia]. }
      repeat rewrite sconcat_cons. rewrite (Z 0), (Z 2), (Z 3), (Z 5), (Z 6), (Z 7), (Z 8) by lia. change (String.concat "" []) with ""%string. cbn [append]. rewrite sapp_nil_r. reflexivity. }
    assert (Fur : forall c, c = bSE \/ c = bLIN -> further offset fmt d b c (slot g rest (interp_order c))).
    { intros c Hc. unfold slot. destruct (find _ rest) as [j|] eqn:Ef.
      - apply find_some in Ef as [Hj Ej]. apply Nat.eqb_eq in Ej. destruct (order_item j c Ej) as (qs & ->). left. exists qs.
        split; [exact (Hall _ (Hr _ Hj))|]. split; [intros ->; specialize (Fo _ Hj); cbn in Fo; lia|].
        destruct (Base c qs Hj) as [[Sc _]|[_ L]]; [destruct Hc; subst c; discriminate Sc|exact L].
      - right. split; [|reflexivity]. destruct (base_eqb c b) eqn:Ecb; [left; apply base_eqb_spec, Ecb|right]. intros qs Hq. apply Hd, Hin in Hq as [E|Hq].
        + injection E as -> _. rewrite base_eqb_refl in Ecb. discriminate.
        + pose proof (find_none _ _ Ef _ Hq) as X. cbn [item_order] in X. rewrite Nat.eqb_refl in X. discriminate. }
    assert (Act : activity_phrase fixed fmt o (slot g rest 9 ++ (match o with Some _ => ", and it" | None => "; this component" end) ++ " has overall variance ")%string).
    { unfold slot. destruct o as [l|]; cbn [activity_phrase].
      - assert (Hl : In (inr l) rest).
        { assert (X : In (inr l) all) by (apply in_app_iff; right; left; reflexivity). apply Hin in X as [X|X]; [discriminate|exact X]. }
        destruct (find _ rest) as [j|] eqn:Ef; [|exfalso; pose proof (find_none _ _ Ef _ Hl) as X; discriminate X].
        apply find_some in Ef as [Hj Ej]. apply Nat.eqb_eq in Ej. destruct (order_nine j Ej) as (l' & ->).
        pose proof (Hall _ (Hr _ Hj)) as El. cbn in El. injection El as <-.
        destruct (Ok0 _ Hj) as (s & Hs). unfold g. rewrite Hs. unfold f0 in Hs. cbn [postmodifier_interpretation] in Hs. apply bind_ok in Hs as (s' & Hs' & Hs). apply ok_inj in Hs. subst s.
        destruct (intervals_spec fixed fmt l s' Hs') as (ts & T1 & T2 & T3). exists ts. split; [exact T1|].
        destruct (is_empty_string s') eqn:Ee.
        + rewrite (proj1 T3 eq_refl). reflexivity.
        + destruct ts as [|u us]; [destruct T3 as [_ T3]; specialize (T3 eq_refl); congruence|]. rewrite T2, !sapp_assoc. reflexivity.
      - destruct (find _ rest) as [j|] eqn:Ef; [|reflexivity]. apply find_some in Ef as [Hj Ej]. apply Nat.eqb_eq in Ej. destruct (order_nine j Ej) as (l' & ->).
        pose proof (Hall _ (Hr _ Hj)) as El. discriminate El. }
    assert (Hq : exists qs, In (KProduct, q :: qs) d).
    { unfold pars in Eq. destruct (dict_get pkey_eqb d KProduct) as [l|] eqn:Eg; [|discriminate]. destruct l as [|q' qs]; [discriminate|]. apply ok_inj in Eq. subst q'. exists qs.
      clear -Eg. induction d as [|[k ps] l IH]; [discriminate|]. cbn in Eg. destruct (pkey_eqb k KProduct) eqn:Ek; [|right; auto]. injection Eg as ->. destruct k; try discriminate Ek. left. reflexivity. }
    destruct Hq as (qs & Hq).
    exists b, ps, t1, (slot g rest 1), (slot g rest 4), o, (slot g rest 9 ++ (match o with Some _ => ", and it" | None => "; this component" end) ++ " has overall variance ")%string, q, qs, v.
    refine (conj (conj Hb (conj Sb _)) (conj F1 (conj (Fur bSE (or_introl eq_refl)) (conj (Fur bLIN (or_intror eq_refl)) (conj _ (conj Eo (conj Act (conj Hq (conj Ev _))))))))).
    - intros c qs' Hc Sc. apply Hd, Hin in Hc as [E|Hc]; [injection E as -> _; lia|]. specialize (Fo _ Hc). cbn in Fo. destruct b, c; cbn in Fo, Sb, Sc |- *; try discriminate; lia.
    - intros c qs' Hc. apply Hd, Hin in Hc as [E|Hc]; [injection E as -> _; left; reflexivity|]. destruct (Base c qs' Hc) as [[Sc _]|[[-> | ->] _]]; auto.
    - rewrite Hcat, !sapp_assoc. reflexivity.
  Qed.
End Whole.
