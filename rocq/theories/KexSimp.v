(** Proofs about simplification and normal forms. *)
From Coq Require Import List Bool Arith ZArith Lia Permutation.
From Verif Require Import Py UtilModel UtilSpec UtilProofs KexModel KexSpec KexProofs.
Import ListNotations.
Local Open Scope Z_scope.

Definition nonneg (c : counter) : Prop := forall b, 0 <= cget c b.
Lemma wf_nn c : wf_counter c -> nonneg c.
Proof. intros W b. apply wf_nonneg, W. Qed.
Lemma wf_nodup c : wf_counter c -> nodup c.
Proof. intros [N _]; exact N. Qed.

(** ** Counts after simplifying the base terms *)
Section WithOffset.
  Variable offset : bool.

  Lemma simp_base_nodup k c n : nodup c -> nodup (simp_base offset k c n).
  Proof.
    intros N. destruct k; simpl.
    - unfold simp_base_sum. apply cpos_nodup.
      repeat match goal with |- nodup (if ?b then _ else _) => destruct b | |- nodup (cset _ _ _) => apply cset_nodup end; exact N.
    - unfold simp_base_prod. destruct (0 <? cget c bWN).
      + apply cpos_nodup, nodup_filter, cset_nodup, N.
      + apply cpos_nodup.
        repeat match goal with |- nodup (if ?b then _ else _) => destruct b | |- nodup (cset _ _ _) => apply cset_nodup end; exact N.
  Qed.
  Lemma simp_base_wf k c n : nodup c -> wf_counter (simp_base offset k c n).
  Proof.
    intros N. destruct k; simpl.
    - unfold simp_base_sum. apply cpos_wf.
      repeat match goal with |- nodup (if ?b then _ else _) => destruct b | |- nodup (cset _ _ _) => apply cset_nodup end; exact N.
    - unfold simp_base_prod. destruct (0 <? cget c bWN).
      + apply cpos_wf, nodup_filter, cset_nodup, N.
      + apply cpos_wf.
        repeat match goal with |- nodup (if ?b then _ else _) => destruct b | |- nodup (cset _ _ _) => apply cset_nodup end; exact N.
  Qed.

  Lemma cget_simp_sum c b n : nodup c -> nonneg c ->
    cget (simp_base offset KSum c n) b =
      match b with
      | bWN => Z.min 1 (cget c bWN)
      | bC => if offset && (0 <? cget c bLIN) then 0 else Z.min 1 (cget c bC)
      | _ => cget c b
      end.
  Proof.
    intros N NN. simpl. unfold simp_base_sum.
    set (c1 := if 1 <? cget c bWN then cset c bWN 1 else c).
    assert (N1 : nodup c1) by (subst c1; destruct (1 <? cget c bWN); [apply cset_nodup|]; exact N).
    assert (G1 : forall x, cget c1 x = match x with bWN => Z.min 1 (cget c bWN) | _ => cget c x end).
    { intros x. subst c1. destruct (Z.ltb_spec 1 (cget c bWN)); [rewrite cget_cset|]; destruct x; simpl; try lia; reflexivity. }
    set (c2 := if 1 <? cget c1 bC then cset c1 bC 1 else c1).
    assert (N2 : nodup c2) by (subst c2; destruct (1 <? cget c1 bC); [apply cset_nodup|]; exact N1).
    assert (G2 : forall x, cget c2 x = match x with bWN => Z.min 1 (cget c bWN) | bC => Z.min 1 (cget c bC) | _ => cget c x end).
    { intros x. subst c2. pose proof (G1 bC) as GC. destruct (Z.ltb_spec 1 (cget c1 bC)); [rewrite cget_cset|]; rewrite G1 in *;
        destruct x; simpl in *; try lia; reflexivity. }
    set (c3 := if offset && (0 <? cget c2 bLIN) then cset c2 bC 0 else c2).
    assert (N3 : nodup c3) by (subst c3; destruct (offset && (0 <? cget c2 bLIN)); [apply cset_nodup|]; exact N2).
    rewrite (cget_cpos _ _ N3).
    assert (G3 : cget c3 b = match b with bWN => Z.min 1 (cget c bWN)
                                        | bC => if offset && (0 <? cget c bLIN) then 0 else Z.min 1 (cget c bC)
                                        | _ => cget c b end).
    { subst c3. rewrite (G2 bLIN). destruct (offset && (0 <? cget c bLIN)) eqn:E; [rewrite cget_cset|]; rewrite G2;
        destruct b; simpl; reflexivity. }
    rewrite G3. pose proof (NN b) as Hb. pose proof (NN bC) as HC. clear - Hb HC. destruct b; try lia. destruct (offset && _); lia.
  Qed.

  Definition lone_c (c : counter) (n : nat) : bool :=
    (csum c + Z.of_nat n) - sigmoid_count c =? cget c bC.

  Lemma cget_simp_prod c b n : nodup c -> nonneg c ->
    cget (simp_base offset KProd c n) b =
      if 0 <? cget c bWN then
        match b with bWN => 1 | bC | bSE | bPER => 0 | _ => cget c b end
      else
        match b with
        | bC => if 0 <? cget c bC then (if lone_c c n then 1 else 0) else 0
        | bSE => Z.min 1 (cget c bSE)
        | _ => cget c b
        end.
  Proof.
    intros N NN. simpl. unfold simp_base_prod. destruct (Z.ltb_spec 0 (cget c bWN)) as [W|W].
    - rewrite cget_cpos by (apply nodup_filter, cset_nodup, N).
      rewrite cget_filter by (apply cset_nodup, N). rewrite cget_cset. pose proof (NN b).
      destruct b; simpl; lia.
    - unfold lone_c.
      set (c1 := if 0 <? cget c bC then _ else c).
      assert (N1 : nodup c1) by (subst c1; destruct (0 <? cget c bC); [apply cset_nodup|]; exact N).
      assert (G1 : forall x, cget c1 x = match x with
          | bC => if 0 <? cget c bC then (if (csum c + Z.of_nat n) - sigmoid_count c =? cget c bC then 1 else 0) else 0
          | _ => cget c x end).
      { intros x. subst c1. pose proof (NN bC). destruct (Z.ltb_spec 0 (cget c bC)); [rewrite cget_cset|];
          destruct x; simpl; try lia; reflexivity. }
      set (c2 := if 1 <? cget c1 bSE then cset c1 bSE 1 else c1).
      assert (N2 : nodup c2) by (subst c2; destruct (1 <? cget c1 bSE); [apply cset_nodup|]; exact N1).
      rewrite (cget_cpos _ _ N2).
      assert (G2 : cget c2 b = match b with
          | bC => if 0 <? cget c bC then (if (csum c + Z.of_nat n) - sigmoid_count c =? cget c bC then 1 else 0) else 0
          | bSE => Z.min 1 (cget c bSE)
          | _ => cget c b end).
      { subst c2. pose proof (G1 bSE) as GS. destruct (Z.ltb_spec 1 (cget c1 bSE)); [rewrite cget_cset|]; rewrite G1 in *;
          destruct b; simpl in *; try lia; try reflexivity. }
      rewrite G2. pose proof (NN b). destruct b; try lia. destruct (0 <? cget c bC); [|lia]. destruct (_ =? _); lia.
  Qed.

  Lemma sigmoid_count_expand c : sigmoid_count c = cget c bS + cget c bSr + cget c bSI + cget c bSIr.
  Proof. unfold sigmoid_count; simpl; lia. Qed.
  Lemma lone_c_spec c n : nodup c -> nonneg c -> cget c bWN = 0 ->
    (lone_c c n = true <-> n = 0%nat /\ cget c bLIN = 0 /\ cget c bSE = 0 /\ cget c bPER = 0).
  Proof.
    intros N NN W. unfold lone_c. rewrite (csum_bsum _ N), bsum_expand, sigmoid_count_expand, Z.eqb_eq.
    pose proof (NN bLIN). pose proof (NN bSE). pose proof (NN bPER). lia.
  Qed.

  Lemma simp_base_nonneg k c n : nodup c -> nonneg (simp_base offset k c n).
  Proof. intros N b. apply wf_nonneg, simp_base_wf, N. Qed.

  Lemma simp_base_card k c n : nodup c -> nonneg c -> cardinality offset k (simp_base offset k c n) n.
  Proof.
    intros N NN. destruct k.
    - unfold cardinality. rewrite !cget_simp_sum by assumption. repeat split; try lia.
      + destruct (offset && _); lia.
      + intros -> H. simpl. destruct (Z.ltb_spec 0 (cget c bLIN)); lia.
    - unfold cardinality. rewrite !cget_simp_prod by assumption.
      pose proof (NN bSE) as HSE. pose proof (NN bWN) as HWN.
      destruct (Z.ltb_spec 0 (cget c bWN)) as [W|W]; repeat split; try lia.
      + destruct (0 <? cget c bC); [|lia]. destruct (lone_c c n); lia.
      + destruct (0 <? cget c bC); [|lia]. destruct (lone_c c n) eqn:L; [|lia].
        apply lone_c_spec in L; [tauto|assumption..|lia].
      + destruct (0 <? cget c bC); [|lia]. destruct (lone_c c n) eqn:L; [|lia].
        apply lone_c_spec in L; [|assumption..|lia]. destruct L as (_ & L1 & L2 & L3).
        intros b Hb Hs. rewrite cget_simp_prod by assumption.
        destruct (Z.ltb_spec 0 (cget c bWN)); [lia|]. destruct b; try discriminate; try congruence; lia.
  Qed.

  (** Simplified base terms are left alone. *)
  Lemma cset_same c b : 0 < cget c b -> cset c b (cget c b) = c.
  Proof.
    unfold cset, cget. destruct (dict_get base_eqb c b) as [n|] eqn:E; [|lia]. intros _.
    induction c as [|[k v] t IH]; simpl in *; [discriminate|]. destruct (base_eqb k b); [congruence|].
    f_equal. apply IH. exact E.
  Qed.
  Lemma cset_zero_cpos c b : cget c b = 0 -> wf_counter c -> cpos (cset c b 0) = c.
  Proof.
    intros E W. assert (Hn : ~ In b (map fst c)).
    { intros C. apply in_map_iff in C as ([b' n] & Eb & Hin). simpl in Eb; subst b'.
      destruct W as [N W]. rewrite (cget_in c b n N Hin) in E. specialize (W b n Hin). lia. }
    rewrite <- (wf_cpos c W) at 2. unfold cset. clear E W. induction c as [|[k v] t IH]; simpl in *; [reflexivity|].
    destruct (base_eqb k b) eqn:Ek; [apply base_eqb_spec in Ek; tauto|]. simpl.
    rewrite IH by tauto. reflexivity.
  Qed.
  Lemma filter_all {A} (p : A -> bool) l : (forall x, In x l -> p x = true) -> filter p l = l.
  Proof.
    induction l as [|x t IH]; simpl; intros H; [reflexivity|]. rewrite (H x) by auto. f_equal. apply IH. auto.
  Qed.
  Lemma simp_base_fix k c n : wf_counter c -> cardinality offset k c n -> simp_base offset k c n = c.
  Proof.
    intros W H. pose proof (wf_nn _ W) as NN. destruct k; simpl.
    - destruct H as (H1 & H2 & H3). unfold simp_base_sum.
      destruct (Z.ltb_spec 1 (cget c bWN)); [lia|]. destruct (Z.ltb_spec 1 (cget c bC)); [lia|].
      destruct offset; simpl; [|apply wf_cpos, W].
      destruct (Z.ltb_spec 0 (cget c bLIN)); [|apply wf_cpos, W]. apply cset_zero_cpos; auto.
    - destruct H as (H1 & H2 & H3 & H4). unfold simp_base_prod.
      destruct (Z.ltb_spec 0 (cget c bWN)) as [Wn|Wn].
      + destruct (H1 Wn) as (E1 & E2 & E3 & E4). rewrite <- E1 at 1. rewrite cset_same by exact Wn.
        rewrite filter_all; [apply wf_cpos, W|]. intros [b m] Hin. simpl.
        destruct W as [N W]. pose proof (W b m Hin) as Hm. rewrite <- (cget_in c b m N Hin) in Hm.
        destruct b; try reflexivity; lia.
      + destruct (Z.ltb_spec 0 (cget c bC)) as [Hc|Hc].
        * destruct (H4 Hc) as (-> & Hz).
          assert (L : lone_c c 0 = true).
          { apply lone_c_spec; [apply wf_nodup, W|exact NN|specialize (NN bWN); lia|].
            repeat split; apply Hz; (discriminate || reflexivity). }
          unfold lone_c in L. rewrite L. assert (Ec : cset c bC 1 = c).
          { pose proof (cset_same c bC Hc) as Es. replace (cget c bC) with 1 in Es by lia. exact Es. }
          rewrite !Ec.
          destruct (Z.ltb_spec 1 (cget c bSE)); [lia|]. apply wf_cpos, W.
        * destruct (Z.ltb_spec 1 (cget c bSE)); [lia|]. apply wf_cpos, W.
  Qed.

  (** ** absorb_homogeneous *)
  Definition kids (e : kex) : list kex := match e with Comm _ _ cts => cts | Change _ _ _ => [] end.
  Definition bts_of (e : kex) : counter := match e with Comm _ bts _ => bts | Change _ _ _ => [] end.

  Lemma keq_kind a b k : keq a b = true -> is_kind k a = is_kind k b.
  Proof. intros H. apply keq_spec in H. destruct H; reflexivity. Qed.

  Lemma filter_cons_split {A} (p : A -> bool) l x t :
    filter p l = x :: t -> exists l1 l2, l = l1 ++ x :: l2 /\ filter p l1 = [] /\ filter p l2 = t /\ p x = true.
  Proof.
    induction l as [|y l IH]; simpl; [discriminate|]. destruct (p y) eqn:E.
    - intros [= -> <-]. exists [], l; auto.
    - intros H. destruct (IH H) as (l1 & l2 & -> & F1 & F2 & Hx). exists (y :: l1), l2; simpl; rewrite E; auto.
  Qed.
  Lemma filter_nil_iff {A} (p : A -> bool) l : filter p l = [] <-> forall x, In x l -> p x = false.
  Proof.
    induction l as [|y l IH]; simpl; [tauto|]. destruct (p y) eqn:E; split.
    - discriminate.
    - intros H. specialize (H y (or_introl eq_refl)). congruence.
    - intros H x [<-|Hx]; [exact E|apply IH; auto].
    - intros H. apply IH; auto.
  Qed.

  Lemma absorb_one_exact k b cur app hc hs :
    filter (is_kind k) cur = hc :: hs ->
    exists cur', absorb_one offset k (b, cur ++ app) hc
                 = (simp_base offset k (cupdate b (bts_of hc)) (length (cur ++ app)), cur' ++ app ++ kids hc)
      /\ filter (is_kind k) cur' = hs
      /\ filter (fun e => negb (is_kind k e)) cur' = filter (fun e => negb (is_kind k e)) cur.
  Proof.
    intros F. destruct (filter_cons_split _ _ _ _ F) as (l1 & l2 & -> & F1 & F2 & Hk).
    exists (l1 ++ l2). repeat split.
    - destruct hc as [k' hb hcs|]; [|discriminate]. unfold absorb_one. simpl fst; simpl snd. f_equal.
      assert (R : list_remove (fun y => keq y (Comm k' hb hcs)) (((l1 ++ Comm k' hb hcs :: l2) ++ app) ++ hcs)
                  = Some (l1 ++ (l2 ++ app) ++ hcs)).
      { rewrite <- !app_assoc. simpl. clear F. rewrite filter_nil_iff in F1. induction l1 as [|y l1 IH]; simpl.
        - rewrite keq_refl. reflexivity.
        - destruct (keq y (Comm k' hb hcs)) eqn:E.
          + apply (keq_kind _ _ k) in E. rewrite Hk, (F1 y) in E by (left; auto). discriminate.
          + rewrite IH by (intros; apply F1; right; auto). reflexivity. }
      rewrite R. simpl. rewrite <- !app_assoc. reflexivity.
    - rewrite filter_app, F1, F2. reflexivity.
    - rewrite !filter_app. simpl. rewrite Hk. reflexivity.
  Qed.

  (** Base terms after absorbing the same-type composites [hs], [ns] being the numbers of composites counted meanwhile. *)
  Definition absorb_bts (k : kind) (b : counter) (hs : list kex) (ns : list nat) : counter :=
    fold_left (fun acc hn => simp_base offset k (cupdate acc (bts_of (fst hn))) (snd hn)) (combine hs ns) b.

  Lemma absorb_fold k hs : forall b cur app, filter (is_kind k) cur = hs ->
    exists ns, length ns = length hs /\ Forall (fun n => (0 < n)%nat) ns /\
      fold_left (absorb_one offset k) hs (b, cur ++ app)
      = (absorb_bts k b hs ns, filter (fun e => negb (is_kind k e)) cur ++ app ++ concat (map kids hs)).
  Proof.
    induction hs as [|hc hs IH]; intros b cur app F.
    - exists []. repeat split; [constructor|]. simpl. rewrite app_nil_r. f_equal. f_equal.
      symmetry. apply filter_all. intros x Hx. rewrite filter_nil_iff in F. rewrite (F x Hx). reflexivity.
    - destruct (absorb_one_exact k b cur app hc hs F) as (cur' & E & F' & Fn).
      destruct (IH (simp_base offset k (cupdate b (bts_of hc)) (length (cur ++ app))) cur' (app ++ kids hc) F') as (ns & Ln & Pn & E').
      exists (length (cur ++ app) :: ns). repeat split.
      + simpl; congruence.
      + constructor; [|exact Pn]. destruct cur; [discriminate|]. simpl; lia.
      + cbn [fold_left]. rewrite E, E'. rewrite Fn. f_equal. simpl. rewrite <- !app_assoc. reflexivity.
  Qed.
  Lemma absorb_homogeneous_spec k bts cts :
    exists ns, length ns = length (filter (is_kind k) cts) /\ Forall (fun n => (0 < n)%nat) ns /\
      absorb_homogeneous offset k bts cts
      = (absorb_bts k bts (filter (is_kind k) cts) ns,
         filter (fun e => negb (is_kind k e)) cts ++ concat (map kids (filter (is_kind k) cts))).
  Proof.
    unfold absorb_homogeneous. destruct (absorb_fold k (filter (is_kind k) cts) bts cts [] eq_refl) as (ns & L & P & E).
    exists ns. rewrite app_nil_r in E. auto.
  Qed.

  Lemma absorb_bts_inv (I : counter -> Prop) k b hs ns :
    I b -> (forall acc h n, In h hs -> In n ns -> I acc -> I (simp_base offset k (cupdate acc (bts_of h)) n)) ->
    I (absorb_bts k b hs ns).
  Proof.
    unfold absorb_bts. revert b ns; induction hs as [|h hs IH]; intros b ns Hb Hs; simpl; [exact Hb|].
    destruct ns as [|n ns]; simpl; [exact Hb|]. apply IH.
    - apply Hs; simpl; auto.
    - intros; apply Hs; simpl; auto.
  Qed.
  Lemma absorb_bts_wf k b hs ns : wf_counter b -> wf_counter (absorb_bts k b hs ns).
  Proof.
    intros W. apply absorb_bts_inv; [exact W|]. intros acc h n _ _ Wa. apply simp_base_wf, cupdate_nodup, wf_nodup, Wa.
  Qed.

  (** ** extract *)
  Lemma wf_csum_zero c : wf_counter c -> csum c = 0 -> c = [].
  Proof.
    intros W H. destruct c as [|[b n] t]; [reflexivity|]. exfalso.
    assert (0 <= csum t). { rewrite <- celements_length; [lia|]. intros b' m Hm. destruct W as [_ W].
      specialize (W b' m (or_intror Hm)). lia. }
    rewrite csum_cons in H. simpl in H. destruct W as [_ W]. specialize (W b n (or_introl eq_refl)). lia.
  Qed.
  Lemma wf_tail kv c : wf_counter (kv :: c) -> wf_counter c.
  Proof. intros [N W]; split; [inversion N; auto|]. intros; eapply W; right; eauto. Qed.
  Lemma wf_csum_nonneg c : wf_counter c -> 0 <= csum c.
  Proof. intros W. rewrite <- celements_length; [lia|]. intros b' m Hm. destruct W as [_ W]. specialize (W b' m Hm). lia. Qed.
  Lemma wf_csum_one c : wf_counter c -> csum c = 1 -> exists b, c = [(b, 1)].
  Proof.
    intros W H. destruct c as [|[b n] t]; [discriminate|].
    pose proof (wf_csum_nonneg t (wf_tail _ _ W)). rewrite csum_cons in H; simpl in H.
    destruct W as [N W]. pose proof (W b n (or_introl eq_refl)). assert (n = 1) by lia. subst.
    rewrite (wf_csum_zero t) by (auto; try lia; eapply wf_tail; split; eauto). eauto.
  Qed.
  Lemma extract_spec k bts cts : wf_counter bts ->
    (exists b, bts = [(b, 1)] /\ cts = [] /\ extract (Comm k bts cts) = inl b)
    \/ (exists c, bts = [] /\ cts = [c] /\ extract (Comm k bts cts) = inr c)
    \/ (terms bts cts <> 1 /\ extract (Comm k bts cts) = inr (Comm k bts cts)).
  Proof.
    intros W. rewrite terms_csum by (apply wf_nodup, W). pose proof (wf_csum_nonneg _ W) as Hp. unfold extract.
    destruct (Z.eqb_spec (csum bts) 1) as [E|E]; cbn [andb].
    - destruct (wf_csum_one _ W E) as (b & ->). destruct cts as [|c cts]; cbn [length Nat.eqb]; [left; eauto|].
      right; right. split; [cbn [csum fold_left snd length]; lia|reflexivity].
    - destruct (Z.eqb_spec (csum bts) 0) as [E0|E0]; cbn [andb].
      + rewrite (wf_csum_zero _ W E0) in *. destruct cts as [|c [|c' cts]]; cbn [length Nat.eqb].
        * right; right. split; [cbn [csum fold_left snd length]; lia|reflexivity].
        * right; left; eauto.
        * right; right. split; [cbn [csum fold_left snd length]; lia|reflexivity].
      + right; right. split; [|reflexivity]. lia.
  Qed.
  Lemma singleton_comm k bts cts : singleton (Comm k bts cts) <-> terms bts cts = 1.
  Proof. split; [intros (? & ? & ? & [= <- <- <-] & H); exact H|unfold singleton; eauto]. Qed.
  Lemma not_singleton_change c l r : ~ singleton (Change c l r).
  Proof. intros (? & ? & ? & E & _). discriminate. Qed.
  Definition wf_top (e : kex) : Prop := wf_counter (bts_of e).
  Lemma extract_self e : wf_top e -> ~ singleton e -> extract e = inr e.
  Proof.
    intros W H. destruct e as [k bts cts|]; [|reflexivity]. rewrite singleton_comm in H.
    destruct (extract_spec k bts cts W) as [(b & -> & -> & _)|[(c & -> & -> & _)|(_ & E)]]; [| |exact E].
    - exfalso; apply H. rewrite terms_bsum, bsum_expand. rewrite !cget_cons. destruct b; reflexivity.
    - exfalso; apply H. reflexivity.
  Qed.
  Lemma extract_inr e x : wf_top e -> extract e = inr x -> x = e \/ kids e = [x].
  Proof.
    intros W. destruct e as [k bts cts|]; [|simpl; intros [= <-]; auto].
    destruct (extract_spec k bts cts W) as [(b & _ & _ & ->)|[(c & _ & -> & ->)|(_ & ->)]]; intros [= <-]; auto.
  Qed.

  (** ** absorb_singletons *)
  Lemma kexs_of_in l x : In x (kexs_of l) <-> In (inr x) l.
  Proof.
    unfold kexs_of. rewrite in_concat. split.
    - intros (m & Hm & Hx). apply in_map_iff in Hm as (y & <- & Hy). destruct y; simpl in Hx; [tauto|].
      destruct Hx as [<-|[]]. exact Hy.
    - intros H. exists [x]. split; [|left; auto]. apply in_map_iff. exists (inr x). auto.
  Qed.
  Lemma singles_self cts : (forall c, In c cts -> wf_top c /\ ~ singleton c) ->
    kexs_of (map extract cts) = cts /\ bases_of (map extract cts) = [].
  Proof.
    unfold kexs_of, bases_of. induction cts as [|c t IH]; intros H; simpl; [auto|].
    destruct (H c (or_introl eq_refl)) as [W S]. rewrite (extract_self c W S). simpl.
    destruct IH as [-> ->]; [intros; apply H; right; auto|]. auto.
  Qed.

  (** ** Shape of a simplified node *)
  Definition raised (k : kind) (cts : list kex) : list kex :=
    filter (fun e => negb (is_kind k e)) cts ++ concat (map kids (filter (is_kind k) cts)).
  Lemma simp_node_spec k bts cts :
    exists ns, length ns = length (filter (is_kind k) cts) /\ Forall (fun n => (0 < n)%nat) ns /\
      let hb := absorb_bts k bts (filter (is_kind k) cts) ns in
      let ex := map extract (raised k cts) in
      let n := length (kexs_of ex) in
      simp_node offset k bts cts
      = Comm k (simp_base offset k (simp_base offset k (cupdate_list hb (bases_of ex)) n) n) (kexs_of ex).
  Proof.
    destruct (absorb_homogeneous_spec k bts cts) as (ns & L & P & E). exists ns. split; [exact L|]. split; [exact P|].
    unfold simp_node, absorb_singletons. rewrite E. reflexivity.
  Qed.
  Lemma raised_in k cts x : In x (raised k cts) -> exists c, In c cts /\ (x = c \/ In x (kids c)).
  Proof.
    unfold raised. rewrite in_app_iff. intros [H|H].
    - apply filter_In in H as [H _]. eauto.
    - apply in_concat in H as (m & Hm & Hx). apply in_map_iff in Hm as (c & <- & Hc). apply filter_In in Hc as [Hc _]. eauto.
  Qed.
  Lemma simp_node_bts_wf k bts cts : wf_counter bts -> wf_counter (bts_of (simp_node offset k bts cts)).
  Proof.
    intros W. destruct (simp_node_spec k bts cts) as (ns & _ & _ & E). cbv zeta in E. rewrite E. simpl bts_of.
    apply simp_base_wf, simp_base_nodup, cupdate_list_nodup, wf_nodup, absorb_bts_wf, W.
  Qed.

  (** ** Cardinalities (C06) *)
  Lemma wf_sub e x : wf e -> node x e -> wf x.
  Proof. intros H Hn k bts cts Hx. eapply H. eapply node_trans; eauto. Qed.
  Lemma wf_top_of e : wf e -> wf_top e.
  Proof. intros H. destruct e; simpl; [eapply H; constructor|]. split; [constructor|intros ? ? []]. Qed.
  Lemma kids_node x e : In x (kids e) -> node x e.
  Proof. destruct e; simpl; [intros H; eapply node_comm; [exact H|constructor]|tauto]. Qed.

  Definition card_node (n : kex) : Prop :=
    match n with Comm k bts cts => wf_counter bts /\ cardinality offset k bts (length cts) | Change _ _ _ => True end.
  Lemma simp_node_cts k bts cts x :
    (forall c, In c cts -> wf c) -> In x (kids (simp_node offset k bts cts)) ->
    exists c, In c cts /\ node x c.
  Proof.
    intros Wc. destruct (simp_node_spec k bts cts) as (ns & _ & _ & E). cbv zeta in E. rewrite E. simpl kids.
    rewrite kexs_of_in, in_map_iff. intros (y & Ey & Hy). apply raised_in in Hy as (c & Hc & Hy).
    exists c; split; [exact Hc|].
    assert (Ny : node y c) by (destruct Hy as [->|Hy]; [constructor|apply kids_node, Hy]).
    apply extract_inr in Ey.
    - destruct Ey as [->|Ey]; [exact Ny|]. eapply node_trans; [|exact Ny]. apply kids_node. rewrite Ey; left; auto.
    - apply wf_top_of. eapply wf_sub; [apply Wc, Hc|exact Ny].
  Qed.
  Lemma simplify_card e : wf e -> wf (simplify offset e) /\ forall n, node n (simplify offset e) -> card_node n.
  Proof.
    assert (Hmain : wf e -> forall n, node n (simplify offset e) -> card_node n).
    2:{ intros W. split; [|apply Hmain, W]. intros k bts cts Hn. apply (Hmain W) in Hn. apply Hn. }
    induction e using kex_ind'; intros W n.
    - cbn [simplify]. set (cs := map (simplify offset) cts).
      assert (Hcs : forall c, In c cs -> wf c /\ forall n, node n c -> card_node n).
      { intros c Hc. apply in_map_iff in Hc as (c0 & <- & Hc0).
        assert (W0 : wf c0) by (eapply wf_sub; [exact W|eapply node_comm; [exact Hc0|constructor]]).
        split; [|apply H; auto]. intros k' b' c' Hn. apply (H c0 Hc0 W0) in Hn. apply Hn. }
      intros Hn. destruct (simp_node offset k bts cs) as [k' b' c'|] eqn:E.
      2:{ destruct (simp_node_spec k bts cs) as (ns & _ & _ & E'). cbv zeta in E'. congruence. }
      apply node_comm_inv in Hn as [->|(x & Hx & Hn)].
      + destruct (simp_node_spec k bts cs) as (ns & _ & _ & E'). cbv zeta in E'. rewrite E in E'.
        injection E' as -> -> ->.
        assert (Wb : wf_counter (absorb_bts k bts (filter (is_kind k) cs) ns))
          by (apply absorb_bts_wf; eapply W; constructor).
        set (hb := absorb_bts k bts (filter (is_kind k) cs) ns) in *.
        simpl. split.
        * apply simp_base_wf, simp_base_nodup, cupdate_list_nodup, wf_nodup, Wb.
        * apply simp_base_card.
          -- apply simp_base_nodup, cupdate_list_nodup, wf_nodup, Wb.
          -- apply simp_base_nonneg, cupdate_list_nodup, wf_nodup, Wb.
      + destruct (simp_node_cts k bts cs x) as (c & Hc & Hxc).
        { intros c Hc. apply Hcs, Hc. }
        { rewrite E. exact Hx. }
        destruct (Hcs c Hc) as [_ G]. apply G. eapply node_trans; eauto.
    - cbn [simplify]. intros Hn. apply node_change_inv in Hn as [->|Hn]; [exact I|].
      assert (HB : forall (b : branch) x, (forall y, b = inr y -> wf y -> forall n, node n (simplify offset y) -> card_node n) ->
                 (forall y, b = inr y -> wf y) ->
                 match b with inl b0 => inl b0 | inr x => extract (simplify offset x) end = inr x -> node n x -> card_node n).
      { intros [b|y] x Hy Wy Ex Hnx; [discriminate|].
        assert (wf_top (simplify offset y)).
        { destruct (simplify offset y) as [k b' c'|] eqn:Es; [|split; [constructor|intros ? ? []]].
          specialize (Hy y eq_refl (Wy y eq_refl) (Comm k b' c')). rewrite Es in Hy. apply Hy. constructor. }
        apply extract_inr in Ex; [|assumption].
        apply (Hy y eq_refl (Wy y eq_refl)). destruct Ex as [->|Ex]; [exact Hnx|].
        eapply node_trans; [exact Hnx|]. apply kids_node. rewrite Ex; left; auto. }
      destruct Hn as [(x & Ex & Hnx)|(x & Ex & Hnx)].
      + eapply HB; [exact H| |exact Ex|exact Hnx]. intros y ->. eapply wf_sub; [exact W|]. apply node_left; constructor.
      + eapply HB; [exact H0| |exact Ex|exact Hnx]. intros y ->. eapply wf_sub; [exact W|]. apply node_right; constructor.
  Qed.

  (** ** Normal forms *)
  Definition normal' (e : kex) : Prop :=
    match e with
    | Comm k bts cts => wf_counter bts /\ cardinality offset k bts (length cts)
        /\ forall c, In c cts -> normal offset c /\ ~ singleton c /\ is_kind k c = false
    | Change _ l r => forall x, l = inr x \/ r = inr x -> normal offset x /\ ~ singleton x
    end.
  Lemma normal_iff e : normal offset e <-> normal' e.
  Proof.
    destruct e as [k bts cts|c l r]; split.
    - intros H. destruct (H _ (node_self _)) as (W & Hc & Hk). split; [exact W|]. split; [exact Hc|].
      intros c Hin. split; [|apply Hk, Hin]. intros n Hn. apply H. eapply node_comm; eauto.
    - intros (W & Hc & Hk) n Hn. apply node_comm_inv in Hn as [->|(c & Hin & Hn)].
      + split; [exact W|]. split; [exact Hc|]. intros c Hin. destruct (Hk c Hin) as (_ & ? & ?); auto.
      + apply (Hk c Hin). exact Hn.
    - intros H x Hx. split; [|apply (H _ (node_self _)), Hx]. intros n Hn. apply H.
      destruct Hx as [->| ->]; [apply node_left|apply node_right]; exact Hn.
    - intros H n Hn. apply node_change_inv in Hn as [->|[(x & -> & Hn)|(x & -> & Hn)]].
      + intros x Hx. apply H, Hx.
      + apply (H x); auto.
      + apply (H x); auto.
  Qed.
  Lemma normal_wf e : normal offset e -> wf e.
  Proof. intros H k bts cts Hn. apply H in Hn. apply Hn. Qed.
  Lemma normal_wf_top e : normal offset e -> wf_top e.
  Proof. intros H. apply wf_top_of, normal_wf, H. Qed.

  (** pre-normal: as normal, but the top node may have composites of its own type. *)
  Definition pnf (e : kex) : Prop :=
    match e with
    | Comm k bts cts => wf_counter bts /\ cardinality offset k bts (length cts)
        /\ forall c, In c cts -> normal offset c /\ ~ singleton c
    | Change _ l r => forall x, l = inr x \/ r = inr x -> normal offset x /\ ~ singleton x
    end.
  Lemma normal_pnf e : normal offset e -> pnf e.
  Proof.
    intros H. apply normal_iff in H. destruct e; [|exact H]. destruct H as (W & Hc & Hk).
    split; [exact W|]. split; [exact Hc|]. intros c Hin. destruct (Hk c Hin) as (? & ? & _); auto.
  Qed.

  Lemma simp_node_no_homog k bts cts :
    wf_counter bts -> cardinality offset k bts (length cts) ->
    (forall c, In c cts -> wf_top c /\ ~ singleton c /\ is_kind k c = false) ->
    simp_node offset k bts cts = Comm k bts cts.
  Proof.
    intros W Hc Hk. destruct (simp_node_spec k bts cts) as (ns & L & _ & E). cbv zeta in E. rewrite E.
    assert (F : filter (is_kind k) cts = []) by (apply filter_nil_iff; intros x Hx; apply Hk, Hx).
    assert (R : raised k cts = cts).
    { unfold raised. rewrite F. simpl. rewrite app_nil_r. apply filter_all. intros x Hx.
      destruct (Hk x Hx) as (_ & _ & ->). reflexivity. }
    rewrite F, R in *. destruct (singles_self cts) as [-> ->].
    { intros c Hin. destruct (Hk c Hin) as (? & ? & _); auto. }
    simpl. rewrite !simp_base_fix; auto.
    all: try (rewrite simp_base_fix; auto).
  Qed.

  Lemma normal_fix e : normal offset e -> simplify offset e = e.
  Proof.
    induction e using kex_ind'; intros N; apply normal_iff in N.
    - destruct N as (W & Hc & Hk). cbn [simplify].
      assert (E : map (simplify offset) cts = cts).
      { rewrite <- (map_id cts) at 2. apply map_ext_in. intros c Hin. apply H; [exact Hin|]. apply Hk, Hin. }
      rewrite E. apply simp_node_no_homog; auto. intros c Hin. destruct (Hk c Hin) as (Nc & S & K).
      split; [apply normal_wf_top, Nc|auto].
    - cbn [simplify]. f_equal.
      + destruct l as [b|x]; [reflexivity|]. destruct (N x) as [Nx Sx]; [auto|].
        rewrite (H x eq_refl Nx). apply extract_self; [apply normal_wf_top, Nx|exact Sx].
      + destruct r as [b|x]; [reflexivity|]. destruct (N x) as [Nx Sx]; [auto|].
        rewrite (H0 x eq_refl Nx). apply extract_self; [apply normal_wf_top, Nx|exact Sx].
  Qed.

  (** Composites raised from normal ones are normal and not of kind k; those that are not children of a same-type
      composite may still be singletons. *)
  Lemma raised_normal k cts x :
    (forall c, In c cts -> normal offset c) -> In x (raised k cts) -> normal offset x /\ is_kind k x = false.
  Proof.
    intros Hn. unfold raised. rewrite in_app_iff. intros [H|H].
    - apply filter_In in H as [H K]. split; [apply Hn, H|]. destruct (is_kind k x); [discriminate|reflexivity].
    - apply in_concat in H as (m & Hm & Hx). apply in_map_iff in Hm as (c & <- & Hc). apply filter_In in Hc as [Hc K].
      specialize (Hn c Hc). apply normal_iff in Hn. destruct c as [k' b' c'|]; [|discriminate].
      simpl in K. apply kind_eqb_spec in K; subst k'. destruct Hn as (_ & _ & G). destruct (G x Hx) as (? & _ & ?); auto.
  Qed.
  Lemma simp_node_pnf k bts cts : wf_counter bts -> (forall c, In c cts -> normal offset c) -> pnf (simp_node offset k bts cts).
  Proof.
    intros W Hn. destruct (simp_node_spec k bts cts) as (ns & _ & _ & E). cbv zeta in E. rewrite E. clear E.
    set (hb := absorb_bts k bts (filter (is_kind k) cts) ns).
    assert (Wb : wf_counter hb) by (apply absorb_bts_wf, W).
    split; [apply simp_base_wf, simp_base_nodup, cupdate_list_nodup, wf_nodup, Wb|]. split.
    - apply simp_base_card; [apply simp_base_nodup|apply simp_base_nonneg]; apply cupdate_list_nodup, wf_nodup, Wb.
    - intros c Hin. rewrite kexs_of_in, in_map_iff in Hin. destruct Hin as (y & Ey & Hy).
      apply (raised_normal _ _ _ Hn) in Hy as [Ny Ky]. pose proof (normal_wf_top _ Ny) as Wy.
      destruct y as [k' b' c'|c0 l r].
      + destruct (extract_spec k' b' c' Wy) as [(b & _ & _ & E)|[(x & E1 & E2 & E)|(T & E)]]; rewrite E in Ey; try discriminate.
        * injection Ey as <-. apply normal_iff in Ny. destruct Ny as (_ & _ & G). destruct (G x) as (? & ? & _); [subst; left; auto|]. auto.
        * injection Ey as <-. split; [exact Ny|]. rewrite singleton_comm. exact T.
      + injection Ey as <-. split; [exact Ny|]. apply not_singleton_change.
  Qed.
  Lemma pnf_change c l r :
    (forall x, l = inr x -> normal offset (simplify offset x)) -> (forall x, r = inr x -> normal offset (simplify offset x)) ->
    pnf (simplify offset (Change c l r)).
  Proof.
    intros Hl Hr. cbn [simplify].
    assert (HB : forall (b : branch) x, (forall y, b = inr y -> normal offset (simplify offset y)) ->
       match b with inl b0 => inl b0 | inr y => extract (simplify offset y) end = inr x -> normal offset x /\ ~ singleton x).
    { intros [b|y] x Hy Ex; [discriminate|]. specialize (Hy y eq_refl). pose proof (normal_wf_top _ Hy) as Wy.
      destruct (simplify offset y) as [k' b' c'|c0 l0 r0].
      - destruct (extract_spec k' b' c' Wy) as [(b & _ & _ & E)|[(z & E1 & E2 & E)|(T & E)]]; rewrite E in Ex; try discriminate.
        + injection Ex as <-. apply normal_iff in Hy. destruct Hy as (_ & _ & G). destruct (G z) as (? & ? & _); [subst; left; auto|]. auto.
        + injection Ex as <-. split; [exact Hy|]. rewrite singleton_comm. exact T.
      - injection Ex as <-. split; [exact Hy|]. apply not_singleton_change. }
    intros x [Hx|Hx]; [apply (HB l x Hl Hx)|apply (HB r x Hr Hx)].
  Qed.
  Lemma pnf_simplify e : pnf e -> normal offset (simplify offset e).
  Proof.
    destruct e as [k bts cts|c l r]; intros P.
    - destruct P as (W & Hc & Hk). cbn [simplify].
      assert (E : map (simplify offset) cts = cts).
      { rewrite <- (map_id cts) at 2. apply map_ext_in. intros c Hin. apply normal_fix, Hk, Hin. }
      rewrite E. destruct (simp_node_spec k bts cts) as (ns & _ & _ & E'). cbv zeta in E'.
      pose proof (simp_node_pnf k bts cts W (fun c Hin => proj1 (Hk c Hin))) as Pn. rewrite E' in *.
      assert (S : forall c, In c (raised k cts) -> normal offset c /\ ~ singleton c /\ is_kind k c = false).
      { intros c Hin. destruct (raised_normal k cts c (fun c Hin => proj1 (Hk c Hin)) Hin) as [Nc Kc].
        repeat split; auto. unfold raised in Hin. apply in_app_iff in Hin as [Hin|Hin].
        - apply filter_In in Hin as [Hin _]. apply Hk, Hin.
        - apply in_concat in Hin as (m & Hm & Hx). apply in_map_iff in Hm as (h & <- & Hh). apply filter_In in Hh as [Hh Kh].
          destruct (Hk h Hh) as [Nh _]. apply normal_iff in Nh. destruct h; [|discriminate].
          destruct Nh as (_ & _ & G). apply (G c Hx). }
      destruct (singles_self (raised k cts)) as [R1 R2].
      { intros c Hin. destruct (S c Hin) as (Nc & ? & _). split; [apply normal_wf_top, Nc|auto]. }
      rewrite R1, R2 in *. apply normal_iff. destruct Pn as (W' & C' & _).
      split; [exact W'|]. split; [exact C'|exact S].
    - rewrite normal_fix; apply normal_iff; exact P.
  Qed.
  Lemma pnf_wf e : pnf e -> wf e.
  Proof.
    intros P k bts cts Hn. destruct e as [k0 b0 c0|c l r].
    - apply node_comm_inv in Hn as [[= -> -> ->]|(x & Hx & Hn)]; [apply P|].
      destruct P as (_ & _ & G). eapply normal_wf; [apply (G x Hx)|exact Hn].
    - apply node_change_inv in Hn as [E|[(x & -> & Hn)|(x & -> & Hn)]]; [discriminate| |].
      + eapply normal_wf; [apply (P x)|exact Hn]; auto.
      + eapply normal_wf; [apply (P x)|exact Hn]; auto.
  Qed.
  Lemma pnf_node e n : pnf e -> node n e -> pnf n.
  Proof.
    intros P Hn. destruct e as [k0 b0 c0|c l r].
    - apply node_comm_inv in Hn as [->|(x & Hx & Hn)]; [exact P|].
      destruct P as (_ & _ & G). apply normal_pnf. intros m Hm. apply (proj1 (G x Hx)). eapply node_trans; eauto.
    - apply node_change_inv in Hn as [->|[(x & -> & Hn)|(x & -> & Hn)]]; [exact P| |];
        apply normal_pnf; intros m Hm; apply (proj1 (P x ltac:(auto))); eapply node_trans; eauto.
  Qed.
  Lemma normal_node_of e n : normal offset e -> node n e -> normal offset n.
  Proof. intros H Hn m Hm. apply H. eapply node_trans; eauto. Qed.

  Lemma mk_pnf k bts cts : wf_counter bts -> (forall c, In c cts -> pnf c) -> pnf (mk offset k bts cts).
  Proof.
    intros W H. unfold mk. cbn [simplify]. apply simp_node_pnf; [exact W|]. intros c Hc.
    apply in_map_iff in Hc as (c0 & <- & Hc0). apply pnf_simplify, H, Hc0.
  Qed.
  Lemma mk_change_pnf c l r : (forall x, l = inr x \/ r = inr x -> pnf x) -> pnf (mk_change offset c l r).
  Proof. intros H. apply pnf_change; intros x ->; apply pnf_simplify, H; auto. Qed.
End WithOffset.
