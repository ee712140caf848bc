(** Exactly which expressions can always be described after a fit (C34), continued: the terms of an expression and their sigmoids. *)
From Coq Require Import Ascii String Reals Lra List Bool Arith ZArith Lia Permutation.
From Verif Require Import Py KexModel KexSpec KexProofs KernModel SemModel IvModel IvSpec IvProofs IvText ParModel ParSpec ParMatch ParMatch2 ParCov ParInv ParInv2 ParInv3 ParGroup ParComp ParSop ParSop2 ParSop3 ParProofs ParWit IvShape IvExact ParMore ParOrder.
Import ListNotations.
Local Open Scope list_scope.
Notation length := Datatypes.length.

Lemma elements_in bts b : wf_counter bts -> In b (celements bts) <-> (0 < cget bts b)%Z.
Proof. intros W. rewrite <- elements_count by exact W. rewrite (count_occ_In base_eq_dec). lia. Qed.
Lemma entries_in d k p : In (k, p) (entries d) -> exists ps, In (k, ps) d /\ In p ps.
Proof.
  unfold entries. intros I. apply in_concat in I as (l & I & J). apply in_map_iff in I as ([k' l'] & <- & I). cbn [fst snd] in J. apply in_map_iff in J as (p' & E & J). injection E as <- <-. exists l'. auto.
Qed.
Lemma in_entries d k p ps : In (k, ps) d -> In p ps -> In (k, p) (entries d).
Proof. intros I J. unfold entries. apply in_concat. exists (map (fun p => (k, p)) ps). split; [apply in_map_iff; exists (k, ps); auto|apply in_map_iff; exists p; auto]. Qed.

Section Order.
  Context (offset fixed : bool).
  Notation kvals := (kvals offset fixed).

  (** The base terms are not sigmoids. *)
  Lemma base_terms k bts ps bks : term_params k bts ps bks -> Forall (base_vals offset) bks -> forall b, (0 < cget bts b)%Z -> is_sigmoid b = false.
  Proof.
    intros (_ & L & _) F b P. rewrite <- L in P. destruct (values_of b bks) as [|q t] eqn:E; [cbn in P; lia|]. apply (values_vals offset bks b q F). rewrite E. left. reflexivity.
  Qed.
  Lemma entries_none k bts ps bks : term_params k bts ps bks -> (forall b, (0 < cget bts b)%Z -> is_sigmoid b = false) -> forall e, In e (entries ps) -> sigmoid_key (fst e) = false.
  Proof.
    intros T H [key p] I. destruct (entries_in _ _ _ I) as (l & J & _). apply (in_map fst) in J. destruct (term_keys _ _ _ _ _ T J) as [(E & _)|(b & E & P)]; cbn [fst] in E; subst key; [reflexivity|]. apply H, P.
  Qed.
  Lemma sigs_none m : (forall e, In e m -> sigmoid_key (fst e) = false) -> sigs m = [].
  Proof. unfold sigs. induction m as [|e m IH]; intros H; [reflexivity|]. cbn [filter]. rewrite (H e (or_introl eq_refl)). apply IH. intros x I. apply H. right. exact I. Qed.
  Lemma skeys_factors m : map KBase (skeys (factors m)) = map fst (sigs m).
  Proof.
    induction m as [|[k p] m IH]; [reflexivity|]. unfold factors, sigs in *. cbn [map concat filter fst]. unfold factor at 1. cbn [fst]. destruct k as [b| | |]; cbn [sigmoid_key]; try exact IH. cbn [app]. unfold skeys in *. cbn [filter].
    destruct (is_sigmoid b); [cbn [map fst]; f_equal|]; exact IH.
  Qed.
  Lemma skeys_nil m : sigs m = [] -> skeys (factors m) = [].
  Proof. intros E. pose proof (skeys_factors m) as X. rewrite E in X. destruct (skeys (factors m)); [reflexivity|discriminate X]. Qed.

  Lemma wf_child k bts cts c : wf (Comm k bts (map erase cts)) -> In c cts -> wf (erase c).
  Proof. intros W I k' bts' cts' Hn. apply (W k' bts' cts'). eapply node_comm; [apply in_map, I|exact Hn]. Qed.

  (** ** Every monomial belongs to a term *)
  Lemma monos_order p : forall K, assigned p K -> kvals K -> wf (erase p) -> forall m, In m (monos p) -> exists m', In m' (expansion (erase p)) /\ skeys (factors m) = skeys m'.
  Proof.
    induction p as [k bts ps cts IH|c ps l r IHl IHr] using pkex_ind'; intros K A V W m I.
    - inversion A as [? ? ? ? ? bks cks P B T F|]; subst. pose proof (parts_kvals offset fixed _ _ _ P V) as VP. apply Forall_app in VP as [Vb Vc]. pose proof (bases_vals offset fixed bks B Vb) as BV.
      assert (Wb : wf_counter bts) by (apply (W k bts (map erase cts)); cbn [erase]; constructor).
      pose proof (base_terms _ _ _ _ T BV) as NS. pose proof (entries_none _ _ _ _ T NS) as EN.
      assert (G : forall c, In c cts -> forall m, In m (monos c) -> exists m', In m' (expansion (erase c)) /\ skeys (factors m) = skeys m').
      { intros c Ic. assert (X : exists kc, In kc cks /\ assigned c kc). { clear -F Ic. induction F as [|a b cts cks H F IHF]; [destruct Ic|]. destruct Ic as [<-|I]; [exists b; split; [left; reflexivity|exact H]|]. destruct (IHF I) as (kc & J & Ha). exists kc. split; [right; exact J|exact Ha]. }
        destruct X as (kc & Ik & Ac). rewrite Forall_forall in Vc. apply (IH c Ic kc Ac (Vc _ Ik)). eapply wf_child; [exact W|exact Ic]. }
      destruct k; cbn [monos erase expansion] in *.
      + apply in_app_or in I as [I|I].
        * apply in_map_iff in I as ([key p] & <- & I). destruct (entries_in _ _ _ I) as (l & J & _). apply (in_map fst) in J. destruct (term_keys _ _ _ _ _ T J) as [(_ & _ & D)|(b & E & Pb)]; [discriminate D|]. cbn [fst] in E. subst key.
          exists [b]. split; [apply in_or_app; left; apply in_map_iff; exists b; split; [reflexivity|apply elements_in; assumption]|]. reflexivity.
        * apply in_concat in I as (ms & I & Im). apply in_map_iff in I as (c & <- & Ic). destruct (G c Ic m Im) as (m' & Im' & E). exists m'. split; [|exact E]. apply in_or_app. right. apply in_concat. exists (expansion (erase c)).
          split; [apply in_map, in_map, Ic|exact Im'].
      + apply in_map_iff in I as (n & <- & I). apply choices_in in I as (xs & Fx & ->).
        assert (X : exists ys, Forall2 (fun y l => In y l) ys (map expansion (map erase cts)) /\ map (fun x => skeys (factors x)) xs = map skeys ys).
        { clear -G Fx. revert xs Fx. induction cts as [|c cts IH]; intros xs Fx; inversion Fx as [|x ? xs' ? Ix Fx']; subst; [exists []; split; [constructor|reflexivity]|].
          destruct (G c (or_introl eq_refl) x Ix) as (y & Iy & Ey). destruct (IH (fun c' I => G c' (or_intror I)) xs' Fx') as (ys & Fy & Eys). exists (y :: ys). cbn [map]. split; [constructor; assumption|]. now rewrite Ey, Eys. }
        destruct X as (ys & Fy & Ey). exists (celements bts ++ concat ys). split; [apply in_map_iff; exists (concat ys); split; [reflexivity|]; apply choices_in; exists ys; auto|].
        rewrite factors_app, !skeys_app, (skeys_nil (entries ps)) by (apply sigs_none, EN). rewrite (none_sigmoid (celements bts)) by (intros b Ib; apply NS, elements_in; assumption). cbn [app]. rewrite concat_skeys, <- Ey.
        clear. induction xs as [|x xs IH]; [reflexivity|]. cbn [concat map]. now rewrite factors_app, skeys_app, IH.
    - inversion A as [|? ? ? ? K1 K2 q ND KS Eq BL BR]; subst. destruct V as (V1 & V2 & Vq). cbn [monos erase expansion] in *. apply in_app_or in I as [I|I].
      + apply in_map_iff in I as (n & <- & I).
        assert (X : exists m', In m' (match l with inl b => [[b]] | inr x => expansion (erase x) end) /\ skeys (factors n) = skeys m').
        { inversion BL as [key ps' b q0 Eb|key ps' y K' Ax]; subst.
          - destruct I as [<-|[]]. exists [b]. split; [left; reflexivity|reflexivity].
          - apply (IHl y eq_refl K1 Ax V1); [|exact I]. intros k' bts' cts' Hn. apply (W k' bts' cts'). apply node_left, Hn. }
        destruct X as (m' & Im' & E). exists (m' ++ [change_sigmoid c true]). split.
        * apply in_or_app. left. apply in_map_iff. exists m'. split; [destruct c; reflexivity|]. destruct l; exact Im'.
        * rewrite factors_app, !skeys_app, E. reflexivity.
      + apply in_map_iff in I as (n & <- & I).
        assert (X : exists m', In m' (match r with inl b => [[b]] | inr x => expansion (erase x) end) /\ skeys (factors n) = skeys m').
        { inversion BR as [key ps' b q0 Eb|key ps' y K' Ax]; subst.
          - destruct I as [<-|[]]. exists [b]. split; [left; reflexivity|reflexivity].
          - apply (IHr y eq_refl K2 Ax V2); [|exact I]. intros k' bts' cts' Hn. apply (W k' bts' cts'). apply node_right, Hn. }
        destruct X as (m' & Im' & E). exists (m' ++ [change_sigmoid c false]). split.
        * apply in_or_app. right. apply in_map_iff. exists m'. split; [destruct c; reflexivity|]. destruct r; exact Im'.
        * rewrite factors_app, !skeys_app, E. reflexivity.
  Qed.

  Theorem first_windows_interpretation fmt e k p : fit_of offset fixed e k p -> base_term_everywhere e -> windows_come_first e ->
    exists s t, sum_of_prods_form offset p = Ok s /\ get_interpretation offset fixed fmt s = Ok t.
  Proof.
    intros F B W. destruct (sop_success offset fixed e k p F B) as (cts & ms & E & P & C). exists (PComm KSum [] [] cts).
    destruct (fit_facts offset fixed e k p F) as (Er & A & V & _ & _). pose proof (fit_wf offset fixed e k p F) as Wf. rewrite <- Er in Wf.
    destruct (describe_all offset fixed fmt cts) as (t & Et); [|exists t; split; assumption].
    assert (X : forall m, In m ms -> exists m', In m' (expansion e) /\ skeys (factors m) = skeys m').
    { intros m I. rewrite <- Er. apply (monos_order p k A V Wf). eapply Permutation_in; eassumption. }
    clear - C X W. induction C as [|m ct ms cts Hc C IH]; constructor; [|apply IH; intros m' I; apply X; right; exact I].
    destruct (X m (or_introl eq_refl)) as (m' & Im & Em). specialize (W m' Im).
    destruct (comp_facts offset fixed m ct Hc) as (bts' & ps' & -> & HC & Hcomp & Hpar & Hsig & Hin). cbn [parameters_of].
    destruct Hc as (bts & ps & Eq & V & _). injection Eq as <- <-. destruct V as (_ & _ & _ & _ & _ & SG & _).
    destruct (windows_first_ok fixed ps' Hsig (shape_possible fixed ps' Hsig)) as (o & Eo & Ho); [|eapply description_ok; eassumption].
    rewrite <- sg_shape, SG, group_shape, Em. exact W.
  Qed.

  (** ** Kernel objects that differ in the values of their changes only *)
  Inductive skel : vkern -> vkern -> Prop :=
  | sk_base b q : skel (VBase b q) (VBase b q)
  | sk_add l l' : Forall2 skel l l' -> skel (VAdd l) (VAdd l')
  | sk_mul l l' : Forall2 skel l l' -> skel (VMul l) (VMul l')
  | sk_change c a a' b b' q q' : skel a a' -> skel b b' -> (change_values fixed c q -> change_values fixed c q') -> skel (VChange c a b q) (VChange c a' b' q').
  Lemma skel_refl : forall K, skel K K.
  Proof.
    fix go 1. intros [b q|l|l|c a b q].
    - constructor.
    - constructor. induction l as [|x l IH]; constructor; [apply go|exact IH].
    - constructor. induction l as [|x l IH]; constructor; [apply go|exact IH].
    - constructor; [apply go|apply go|auto].
  Qed.
  Lemma skel_all l : Forall2 skel l l.
  Proof. induction l; constructor; [apply skel_refl|assumption]. Qed.
  Lemma skel_add k l' : Forall2 skel (add_parts k) l' -> exists k', skel k k' /\ add_parts k' = l'.
  Proof.
    destruct k as [b q|l|l|c a b q]; cbn [add_parts]; intros F.
    - inversion F as [|? x ? t H F']; subst. inversion F'; subst. exists x. split; [exact H|]. inversion H; reflexivity.
    - exists (VAdd l'). split; [constructor; exact F|reflexivity].
    - inversion F as [|? x ? t H F']; subst. inversion F'; subst. exists x. split; [exact H|]. inversion H; reflexivity.
    - inversion F as [|? x ? t H F']; subst. inversion F'; subst. exists x. split; [exact H|]. inversion H; reflexivity.
  Qed.
  Lemma skel_mul k l' : Forall2 skel (mul_parts k) l' -> exists k', skel k k' /\ mul_parts k' = l'.
  Proof.
    destruct k as [b q|l|l|c a b q]; cbn [mul_parts]; intros F.
    - inversion F as [|? x ? t H F']; subst. inversion F'; subst. exists x. split; [exact H|]. inversion H; reflexivity.
    - inversion F as [|? x ? t H F']; subst. inversion F'; subst. exists x. split; [exact H|]. inversion H; reflexivity.
    - exists (VMul l'). split; [constructor; exact F|reflexivity].
    - inversion F as [|? x ? t H F']; subst. inversion F'; subst. exists x. split; [exact H|]. inversion H; reflexivity.
  Qed.
  Lemma skel_fitted g K : fitted offset fixed g K -> forall K', skel K K' -> fitted offset fixed g K'.
  Proof.
    induction 1 as [b f q V|g1 g2 k1 k2 F1 IH1 F2 IH2|g1 g2 k1 k2 F1 IH1 F2 IH2|c g1 g2 k1 k2 q F1 IH1 F2 IH2 V]; intros K' S.
    - inversion S; subst. now constructor.
    - inversion S as [|l l' F E1 E2| |]; subst. apply Forall2_app_inv_l in F as (l1 & l2 & A1 & A2 & ->). destruct (skel_add _ _ A1) as (k1' & S1 & <-). destruct (skel_add _ _ A2) as (k2' & S2 & <-). fold (vadd k1' k2'). constructor; auto.
    - inversion S as [| |l l' F E1 E2|]; subst. apply Forall2_app_inv_l in F as (l1 & l2 & A1 & A2 & ->). destruct (skel_mul _ _ A1) as (k1' & S1 & <-). destruct (skel_mul _ _ A2) as (k2' & S2 & <-). fold (vmul k1' k2'). constructor; auto.
    - inversion S; subst. constructor; auto.
  Qed.
  Lemma parts_replace k K l l' : parts_of k K l -> Forall2 skel l l' -> exists K', skel K K' /\ parts_of k K' l'.
  Proof.
    intros P F. pose proof (Forall2_len _ _ _ F) as L. inversion P; subst.
    - inversion F as [|? x ? t H F']; subst. inversion F'; subst. exists x. split; [exact H|constructor].
    - exists (VAdd l'). split; [constructor; exact F|constructor; lia].
    - exists (VMul l'). split; [constructor; exact F|constructor; lia].
  Qed.
  Lemma parts_unique k K l1 l2 : parts_of k K l1 -> parts_of k K l2 -> length l1 = length l2 -> l1 = l2.
  Proof. intros P1 P2 L. inversion P1; subst; inversion P2; subst; cbn [length] in *; try reflexivity; lia. Qed.

  Lemma bases_length l : Forall is_base l -> length l = fold_right Nat.add 0%nat (map (fun b => length (values_of b l)) [bWN; bSE; bPER; bC; bLIN; bS; bSr; bSI; bSIr]).
  Proof.
    induction 1 as [|k l B F IH]; [reflexivity|]. destruct k as [b q| | |]; try contradiction. cbn [length]. rewrite IH. unfold values_of. cbn [map concat fold_right]. rewrite !app_length.
    destruct b; cbn [base_eqb length]; lia.
  Qed.
  Lemma bases_same l l' : Forall is_base l -> Forall is_base l' -> (forall b, length (values_of b l) = length (values_of b l')) -> length l = length l'.
  Proof. intros F F' H. rewrite (bases_length l F), (bases_length l' F'). cbn [map]. now rewrite !H. Qed.
  (** Two ways to assign the same kernel object. *)
  Lemma same_parts k bts ps ps' bks bks' cks cks' K : parts_of k K (bks ++ cks) -> parts_of k K (bks' ++ cks') -> Forall is_base bks -> Forall is_base bks' ->
    term_params k bts ps bks -> term_params k bts ps' bks' -> length cks = length cks' -> bks' = bks /\ cks' = cks.
  Proof.
    intros P P' B B' (_ & T & _) (_ & T' & _) L. assert (Lb : length bks = length bks').
    { apply bases_same; try assumption. intros b. specialize (T b). specialize (T' b). lia. }
    assert (E : bks' ++ cks' = bks ++ cks) by (eapply parts_unique; [exact P'|exact P|rewrite !app_length; lia]).
    clear -E Lb. revert bks' Lb E. induction bks as [|x bks IH]; intros [|y bks'] L E; try discriminate L; [split; [reflexivity|exact E]|]. cbn [app] in E. injection E as -> E. destruct (IH bks') as [-> ->]; [cbn [length] in L; lia|exact E|]. auto.
  Qed.
  Lemma erase_comm p k bts es : erase p = Comm k bts es -> exists ps cts, p = PComm k bts ps cts /\ map erase cts = es.
  Proof. destruct p as [k' bts' ps cts|c ps l r]; cbn [erase]; [|discriminate]. intros E. injection E as -> -> <-. exists ps, cts. auto. Qed.

  Definition sigmoid_values (b : base) (q : pdict) : Prop := change_values fixed (match b with bSI | bSIr => CW | _ => CP end) q.
  Definition of_sigmoids (s : mono) : Prop := forall b q, In (KBase b, q) s -> sigmoid_values b q.
  Lemma of_app s s' : of_sigmoids (s ++ s') <-> of_sigmoids s /\ of_sigmoids s'.
  Proof. split; [intros H; split; intros b q I; apply H, in_or_app; auto|]. intros [H H'] b q I. apply in_app_or in I as [I|I]; auto. Qed.

  (** For this expression with these values every term and all values of its sigmoids there is such a kernel object. *)
  Definition realised (p : pkex) : Prop := forall K, assigned p K -> kvals K -> wf (erase p) -> forall m', In m' (expansion (erase p)) -> forall s, map fst s = map KBase (skeys m') -> of_sigmoids s ->
    exists K', skel K K' /\ forall p', erase p' = erase p -> assigned p' K' -> exists m2, In m2 (monos p') /\ sigs m2 = s.
  Lemma realise_list cts : (forall c, In c cts -> realised c) -> forall cks, Forall2 assigned cts cks -> Forall kvals cks -> (forall c, In c cts -> wf (erase c)) ->
    forall ys, Forall2 (fun y l => In y l) ys (map expansion (map erase cts)) -> forall s, map fst s = map KBase (skeys (concat ys)) -> of_sigmoids s ->
    exists cks', Forall2 skel cks cks' /\ forall cts', map erase cts' = map erase cts -> Forall2 assigned cts' cks' -> exists xs, Forall2 (fun x l => In x l) xs (map monos cts') /\ sigs (concat xs) = s.
  Proof.
    induction cts as [|c cts IH]; intros R cks F V W ys Fy s Es Os.
    - inversion F; subst. inversion Fy; subst. destruct s; [|discriminate Es]. exists []. split; [constructor|]. intros [|] E _; [|discriminate E]. exists []. split; [constructor|reflexivity].
    - inversion F as [|? kc ? cks0 Ac F0]; subst. inversion V as [|? ? Vc V0]; subst. cbn [map] in Fy. inversion Fy as [|y ? ys0 ? Iy Fy0]; subst. cbn [concat] in Es. rewrite skeys_app, map_app in Es. apply map_eq_app in Es as (s1 & s2 & -> & E1 & E2).
      apply of_app in Os as [O1 O2]. destruct (R c (or_introl eq_refl) kc Ac Vc (W c (or_introl eq_refl)) y Iy s1 E1 O1) as (kc' & Sc & Hc).
      destruct (IH (fun x I => R x (or_intror I)) cks0 F0 V0 (fun x I => W x (or_intror I)) ys0 Fy0 s2 E2 O2) as (cks' & Sk & Hk). exists (kc' :: cks'). split; [constructor; assumption|].
      intros [|c' cts'] E A; [discriminate E|]. cbn [map] in E. injection E as Ec Et. inversion A as [|? ? ? ? Ac' A']; subst. destruct (Hc c' Ec Ac') as (m2 & I2 & S2). destruct (Hk cts' Et A') as (xs & Fx & Sx).
      exists (m2 :: xs). split; [cbn [map]; constructor; assumption|]. cbn [concat]. now rewrite sigs_app, S2, Sx.
  Qed.
  Lemma pars_entry ps k q : NoDup (map fst ps) -> In q (pars ps k) -> In (k, q) (entries ps).
  Proof.
    intros N I. destruct (key_dec k (map fst ps)) as [J|J].
    - apply in_map_iff in J as ([k' l] & E & J). cbn in E. subst k'. rewrite (pars_in k l ps N J) in I. eapply in_entries; eassumption.
    - rewrite pars_absent in I by exact J. destruct I.
  Qed.

  Lemma realise p : realised p.
  Proof.
    induction p as [k bts ps cts IH|c ps l r IHl IHr] using pkex_ind'; intros K A V W m' I s Es Os.
    - inversion A as [? ? ? ? ? bks cks P B T F|]; subst. pose proof (parts_kvals offset fixed _ _ _ P V) as VP. apply Forall_app in VP as [Vb Vc]. pose proof (bases_vals offset fixed bks B Vb) as BV.
      assert (Wb : wf_counter bts) by (apply (W k bts (map erase cts)); cbn [erase]; constructor).
      pose proof (base_terms _ _ _ _ T BV) as NS.
      destruct k; cbn [erase expansion] in I.
      + apply in_app_or in I as [I|I].
        * apply in_map_iff in I as (b & <- & I). apply (proj1 (elements_in bts b Wb)) in I. rewrite none_sigmoid in Es by (intros x [<-|[]]; apply NS, I). destruct s; [|discriminate Es].
          exists K. split; [apply skel_refl|]. intros p' E A'. destruct (erase_comm _ _ _ _ E) as (ps' & cts' & -> & Ec). inversion A' as [? ? ? ? ? bks' cks' P' B' T' F'|]; subst. destruct T' as (N' & L' & Hp & _).
          specialize (L' b). destruct (values_of b bks') as [|q t] eqn:Ev; [cbn in L'; lia|]. exists [(KBase b, q)]. split.
          -- cbn [monos]. apply in_or_app. left. apply in_map_iff. exists (KBase b, q). split; [reflexivity|]. apply pars_entry; [exact N'|]. rewrite Hp, Ev. left. reflexivity.
          -- unfold sigs. cbn [filter fst sigmoid_key]. now rewrite (NS b I).
        * apply in_concat in I as (ms & I & Im). apply in_map_iff in I as (e & <- & Ie). apply in_map_iff in Ie as (c & <- & Ic). pose proof (in_split _ _ Ic) as (c1 & c2 & Ecs). subst cts. apply Forall2_app_inv_l in F as (k1 & k0 & F1 & F2 & ->). inversion F2 as [|? kc ? k2 Ac F3]; subst.
          apply Forall_app in Vc as [V1 V2]. inversion V2 as [|? ? Vk V3]; subst.
          destruct (IH c Ic kc Ac Vk (wf_child _ _ _ _ W Ic) m' Im s Es Os) as (kc' & Sc & Hc).
          destruct (parts_replace KSum K (bks ++ k1 ++ kc :: k2) (bks ++ k1 ++ kc' :: k2) P) as (K' & SK & P').
          { apply Forall2_app; [apply skel_all|]. apply Forall2_app; [apply skel_all|]. constructor; [exact Sc|apply skel_all]. }
          exists K'. split; [exact SK|]. intros p' E A'. destruct (erase_comm _ _ _ _ E) as (ps' & cts' & -> & Ec). inversion A' as [? ? ? ? ? bks' cks' P2 B' T' F'|]; subst.
          rewrite map_app in Ec. apply map_eq_app in Ec as (d1 & d0 & -> & Ed1 & Ed0). destruct d0 as [|c' d2]; [discriminate Ed0|]. cbn [map] in Ed0. injection Ed0 as Ec Ed2.
          assert (L1 : length d1 = length c1) by (now rewrite <- (map_length erase d1), Ed1, map_length). assert (L2 : length d2 = length c2) by (now rewrite <- (map_length erase d2), Ed2, map_length).
          destruct (same_parts KSum bts ps ps' bks bks' (k1 ++ kc' :: k2) cks' K' P' P2 B B' T T') as [-> ->].
          { rewrite <- (Forall2_len _ _ _ F'), !app_length. cbn [length]. rewrite L1, L2, (Forall2_len _ _ _ F1), (Forall2_len _ _ _ F3). reflexivity. }
          apply Forall2_app_inv_l in F' as (j1 & j0 & G1 & G2 & Ej). assert (Lj : length j1 = length k1) by (rewrite <- (Forall2_len _ _ _ G1), L1; apply (Forall2_len _ _ _ F1)).
          inversion G2 as [|? kj ? j2 Aj G3]; subst. assert (kc' = kj).
          { clear -Ej Lj. revert j1 Lj Ej. induction k1 as [|x k1 IH]; intros [|y j1] L E; try discriminate L; cbn [app] in E; [now injection E|]. injection E as _ E. apply (IH j1); [cbn [length] in L; lia|exact E]. }
          subst kj. destruct (Hc c' Ec Aj) as (m2 & I2 & S2). exists m2. split; [|exact S2]. cbn [monos]. apply in_or_app. right. apply in_concat. exists (monos c'). split; [apply in_map, in_or_app; right; left; reflexivity|exact I2].
      + apply in_map_iff in I as (n & <- & I). apply choices_in in I as (ys & Fy & ->). rewrite skeys_app, (none_sigmoid (celements bts)) in Es by (intros b Ib; apply NS, elements_in; assumption). cbn [app] in Es.
        destruct (realise_list cts IH cks F Vc (fun c Ic => wf_child _ _ _ _ W Ic) ys Fy s Es Os) as (cks' & Sk & Hk).
        destruct (parts_replace KProd K (bks ++ cks) (bks ++ cks') P) as (K' & SK & P'); [apply Forall2_app; [apply skel_all|exact Sk]|].
        exists K'. split; [exact SK|]. intros p' E A'. destruct (erase_comm _ _ _ _ E) as (ps' & cts' & -> & Ec). inversion A' as [? ? ? ? ? bks' cks2 P2 B' T' F'|]; subst.
        assert (L1 : length cts' = length cts) by (now rewrite <- (map_length erase cts'), Ec, map_length).
        destruct (same_parts KProd bts ps ps' bks bks' cks' cks2 K' P' P2 B B' T T') as [-> ->]; [rewrite <- (Forall2_len _ _ _ F'), L1, (Forall2_len _ _ _ F); symmetry; apply (Forall2_len _ _ _ Sk)|].
        destruct (Hk cts' Ec F') as (xs & Fx & Sx). exists (entries ps' ++ concat xs). split; [cbn [monos]; apply in_map_iff; exists (concat xs); split; [reflexivity|]; apply choices_in; exists xs; auto|].
        rewrite sigs_app, Sx, (sigs_none (entries ps')); [reflexivity|]. exact (entries_none _ _ _ _ T' NS).
    - inversion A as [|? ? ? ? K1 K2 q ND KS Eq BL BR]; subst. destruct V as (V1 & V2 & Vq). cbn [erase expansion] in I.
      assert (X : forall (left : bool) (x : base + pkex) (K0 : vkern), (forall y, x = inr y -> realised y) -> (forall y, x = inr y -> wf (erase y)) -> assigned_branch (fun b => KLeaf left b) ps x K0 -> kvals K0 ->
        forall n, In n (match x with inl b => [[b]] | inr y => expansion (erase y) end) -> forall s0, map fst s0 = map KBase (skeys n) -> of_sigmoids s0 ->
        exists K0', skel K0 K0' /\ forall x' ps', match x', x with inl b, inl b' => b = b' | inr y, inr y' => erase y = erase y' | _, _ => False end -> assigned_branch (fun b => KLeaf left b) ps' x' K0' ->
          exists m2, In m2 (match x' with inl b => [[(KBase b, leaf_values left b ps')]] | inr y => monos y end) /\ sigs m2 = s0).
      { intros left x K0 R Wx Bx V0 n In0 s0 E0 O0. inversion Bx as [key ps1 b q0 Eb|key ps1 y K' Ax]; subst.
        - destruct V0 as [Sb _]. destruct In0 as [<-|[]]. rewrite none_sigmoid in E0 by (intros z [<-|[]]; exact Sb). destruct s0; [|discriminate E0]. exists (VBase b q0). split; [constructor|].
          intros [b'|y] ps' Ex Bx'; [|contradiction]. subst b'. eexists. split; [left; reflexivity|]. unfold sigs. cbn [filter fst sigmoid_key]. now rewrite Sb.
        - destruct (R y eq_refl K0 Ax V0 (Wx y eq_refl) n In0 s0 E0 O0) as (K0' & S0 & H0). exists K0'. split; [exact S0|]. intros [b'|y'] ps' Ex Bx'; [contradiction|]. inversion Bx'; subst. apply H0; assumption. }
      assert (WL : forall y, l = inr y -> wf (erase y)) by (intros y -> k' bts' cts' Hn; apply (W k' bts' cts'); cbn [erase]; apply node_left, Hn).
      assert (WR : forall y, r = inr y -> wf (erase y)) by (intros y -> k' bts' cts' Hn; apply (W k' bts' cts'); cbn [erase]; apply node_right, Hn).
      assert (Y : forall p', erase p' = erase (PChange c ps l r) -> exists ps' l' r', p' = PChange c ps' l' r'
         /\ match l', l with inl b, inl b' => b = b' | inr y, inr y' => erase y = erase y' | _, _ => False end
         /\ match r', r with inl b, inl b' => b = b' | inr y, inr y' => erase y = erase y' | _, _ => False end).
      { intros [k0 b0 p0 c0|c' ps' l' r'] E; cbn [erase] in E; [discriminate E|]. injection E as -> El Er. exists ps', l', r'. split; [reflexivity|]. split; [destruct l', l|destruct r', r]; congruence. }
      apply in_app_or in I as [I|I].
      + apply in_map_iff in I as (n & <- & I). rewrite skeys_app, map_app in Es. apply map_eq_app in Es as (s1 & s2 & -> & E1 & E2). apply of_app in Os as [O1 O2].
        assert (Z : exists q', s2 = [(KBase (change_sigmoid c true), q')] /\ change_values fixed c q').
        { destruct s2 as [|[k0 q'] s2]; [destruct c; discriminate E2|]. destruct s2; [|destruct c; discriminate E2]. destruct c; cbn in E2; injection E2 as ->; (exists q'; split; [reflexivity|]; exact (O2 _ q' (or_introl eq_refl))). }
        destruct Z as (q' & -> & Vq'). destruct (X true l K1 IHl WL BL V1 n) with (s0 := s1) as (K1' & S1 & H1); [destruct l; exact I|exact E1|exact O1|].
        exists (VChange c K1' K2 q'). split; [constructor; [exact S1|apply skel_refl|intros _; exact Vq']|]. intros p' E A'. destruct (Y p' E) as (ps' & l' & r' & -> & El & Er). inversion A' as [|? ? ? ? ? ? ? ND' KS' Eq' BL' BR']; subst.
        destruct (H1 l' ps' El BL') as (m2 & I2 & S2). exists (m2 ++ [(KBase (change_sigmoid c true), own_values c ps')]). split.
        * cbn [monos]. apply in_or_app. left. apply in_map_iff. exists m2. split; [reflexivity|exact I2].
        * rewrite sigs_app, S2, (own_head _ _ _ Eq'). f_equal. unfold sigs. cbn [filter fst sigmoid_key]. destruct c; reflexivity.
      + apply in_map_iff in I as (n & <- & I). rewrite skeys_app, map_app in Es. apply map_eq_app in Es as (s1 & s2 & -> & E1 & E2). apply of_app in Os as [O1 O2].
        assert (Z : exists q', s2 = [(KBase (change_sigmoid c false), q')] /\ change_values fixed c q').
        { destruct s2 as [|[k0 q'] s2]; [destruct c; discriminate E2|]. destruct s2; [|destruct c; discriminate E2]. destruct c; cbn in E2; injection E2 as ->; (exists q'; split; [reflexivity|]; exact (O2 _ q' (or_introl eq_refl))). }
        destruct Z as (q' & -> & Vq'). destruct (X false r K2 IHr WR BR V2 n) with (s0 := s1) as (K2' & S1 & H1); [destruct r; exact I|exact E1|exact O1|].
        exists (VChange c K1 K2' q'). split; [constructor; [apply skel_refl|exact S1|intros _; exact Vq']|]. intros p' E A'. destruct (Y p' E) as (ps' & l' & r' & -> & El & Er). inversion A' as [|? ? ? ? ? ? ? ND' KS' Eq' BL' BR']; subst.
        destruct (H1 r' ps' Er BR') as (m2 & I2 & S2). exists (m2 ++ [(KBase (change_sigmoid c false), own_values c ps')]). split.
        * cbn [monos]. apply in_or_app. right. apply in_map_iff. exists m2. split; [reflexivity|exact I2].
        * rewrite sigs_app, S2, (own_head _ _ _ Eq'). f_equal. unfold sigs. cbn [filter fst sigmoid_key]. destruct c; reflexivity.
  Qed.
End Order.
