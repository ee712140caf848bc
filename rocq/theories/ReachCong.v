(** Equal expressions have equal expansions (C59). *)
From Coq Require Import List Bool Arith ZArith Lia Permutation.
From Verif Require Import Py UtilModel KexModel KexSpec KexProofs KexSimp KexCong KexMore OpsModel OpsSpec OpsProofs ReachSpec ReachProofs.
Import ListNotations.
Local Open Scope list_scope.
Local Open Scope Z_scope.

(** ** Addresses in reordered expressions *)
Lemma replace_nth k b a x d m : replace_addr (Comm k b (a ++ x :: d)) [length a] m = Some (Comm k b (a ++ m :: d)).
Proof.
  cbn [replace_addr child]. rewrite nth_error_app2, Nat.sub_diag by lia. cbn [nth_error]. f_equal. f_equal.
  rewrite firstn_app, Nat.sub_diag, firstn_O, firstn_all, app_nil_r. f_equal. f_equal.
  rewrite skipn_app, skipn_all2 by lia. replace (S (length a) - length a)%nat with 1%nat by lia. reflexivity.
Qed.
Definition corresponds (e e' : kex) (p p' : addr) : Prop :=
  exists n n', at_addr e p = Some n /\ at_addr e' p' = Some n' /\ reord n n'
    /\ forall m m' t, reord m m' -> replace_addr e (target e p) m = Some t ->
         exists t', replace_addr e' (target e' p') m' = Some t' /\ reord t t'.
Lemma reord_branch_sym l m : reord_branch l m -> reord_branch m l.
Proof. rewrite !reord_branch_inv. destruct l, m; auto. apply reord_sym. Qed.
Lemma addr_reord p : forall e e' n, reord e e' -> at_addr e p = Some n -> exists p', corresponds e e' p p'.
Proof.
  induction p as [|i q IH]; intros e e' n R H.
  - exists [], e, e'. cbn [at_addr target replace_addr]. repeat (split; [reflexivity || exact R|]).
    intros m m' t Rm [= <-]. exists m'. auto.
  - cbn [at_addr] in H. destruct (child e i) as [x|] eqn:E; [|discriminate]. destruct e as [k b c|o l r].
    + cbn [child] in E. apply reord_comm_inv in R as (b' & c' & c'' & -> & Eb & P & F).
      pose proof (nth_error_split c i E) as (a & d & -> & La).
      assert (L : lreord c' (x :: a ++ d)).
      { eapply lreord_trans; [apply lreord_sym; exists c''; split; [exact P|exact F]|]. apply lreord_mid. }
      apply lreord_cons_inv in L as (a' & x' & d' & -> & Rx & L). apply reord_sym in Rx.
      destruct (IH x x' n Rx H) as (q' & n0 & n' & Hn & Hn' & Rn & Hr). subst i. exists (length a' :: q'), n0, n'.
      assert (E' : child (Comm k b' (a' ++ x' :: d')) (length a') = Some x').
      { cbn [child]. rewrite nth_error_app2, Nat.sub_diag by lia. reflexivity. }
      cbn [at_addr]. change (child (Comm k b (a ++ x :: d)) (length a)) with (nth_error (a ++ x :: d) (length a)). rewrite E, E'.
      split; [exact Hn|]. split; [exact Hn'|]. split; [exact Rn|]. intros m m' t Rm Ht.
      assert (T : target (Comm k b (a ++ x :: d)) (length a :: q) = [length a] ++ target x q).
      { cbn [target child]. rewrite E. reflexivity. }
      assert (T' : target (Comm k b' (a' ++ x' :: d')) (length a' :: q') = [length a'] ++ target x' q').
      { cbn [target]. rewrite E'. reflexivity. }
      assert (A1 : at_addr (Comm k b (a ++ x :: d)) [length a] = Some x) by (cbn [at_addr child]; rewrite E; reflexivity).
      assert (A2 : at_addr (Comm k b' (a' ++ x' :: d')) [length a'] = Some x') by (cbn [at_addr]; rewrite E'; reflexivity).
      rewrite T in Ht. rewrite T'. destruct (replace_addr x (target x q) m) as [y|] eqn:Ey.
      2:{ exfalso. cbn [app replace_addr child] in Ht. rewrite E, Ey in Ht. discriminate. }
      rewrite (replace_addr_app _ _ _ _ _ _ A1 Ey), replace_nth in Ht. injection Ht as <-.
      destruct (Hr m m' y Rm Ey) as (y' & Ey' & Ry). rewrite (replace_addr_app _ _ _ _ _ _ A2 Ey'), replace_nth.
      eexists. split; [reflexivity|]. apply reord_comm_iff. split; [exact Eb|].
      eapply lreord_trans; [apply lreord_mid|]. eapply lreord_trans; [|apply lreord_sym, lreord_mid]. apply lreord_cons; [exact Ry|apply lreord_sym, L].
    + apply reord_change_inv in R as (l' & r' & -> & Rl & Rr). destruct i as [|[|i]]; [| |discriminate E].
      * destruct l as [b|y], l' as [b'|y']; apply reord_branch_inv in Rl; try contradiction.
        -- subst b'. cbn [child] in E. injection E as <-. destruct q as [|j q]; [|destruct j; discriminate H].
           exists [0%nat]. do 2 eexists. split; [reflexivity|]. split; [reflexivity|]. split; [apply reord_refl|].
           intros m m' t Rm Ht. assert (Et : t = Change o (inl b) (inr m)) by (destruct r; cbn in Ht; congruence). subst t.
           exists (Change o (inl b) (inr m')). split; [destruct r'; reflexivity|]. constructor; constructor; exact Rm.
        -- cbn [child] in E. injection E as <-. destruct (IH y y' n Rl H) as (q' & n0 & n' & Hn & Hn' & Rn & Hr).
           exists (0%nat :: q'), n0, n'. split; [exact Hn|]. split; [exact Hn'|]. split; [exact Rn|]. intros m m' t Rm Ht.
           cbn [target child replace_addr] in *. destruct (replace_addr y (target y q) m) as [z|] eqn:Ez; [|discriminate].
           injection Ht as <-. destruct (Hr m m' z Rm Ez) as (z' & -> & Rz). eexists. split; [reflexivity|]. constructor; [constructor; exact Rz|exact Rr].
      * assert (T : forall br s z, target (Change o br s) (1%nat :: z) = match child (Change o br s) 1 with Some c => 1%nat :: target c z | None => 1%nat :: z end).
        { intros [] ? ?; reflexivity. }
        destruct r as [b|y], r' as [b'|y']; apply reord_branch_inv in Rr; try contradiction.
        -- subst b'. cbn [child] in E. injection E as <-. destruct q as [|j q]; [|destruct j; discriminate H].
           exists [1%nat]. do 2 eexists. split; [reflexivity|]. split; [reflexivity|]. split; [apply reord_refl|].
           intros m m' t Rm Ht. rewrite T in *. cbn [child target replace_addr] in *. injection Ht as <-.
           eexists. split; [reflexivity|]. constructor; [exact Rl|constructor; exact Rm].
        -- cbn [child] in E. injection E as <-. destruct (IH y y' n Rr H) as (q' & n0 & n' & Hn & Hn' & Rn & Hr).
           exists (1%nat :: q'), n0, n'. split; [exact Hn|]. split; [exact Hn'|]. split; [exact Rn|]. intros m m' t Rm Ht.
           rewrite T in *. cbn [child replace_addr] in *. destruct (replace_addr y (target y q) m) as [z|] eqn:Ez; [|discriminate].
           injection Ht as <-. destruct (Hr m m' z Rm Ez) as (z' & -> & Rz). eexists. split; [reflexivity|]. constructor; [exact Rl|constructor; exact Rz].
Qed.

(** ** Rules on reordered nodes *)
Section Rules.
  Variable offset : bool.
  Lemma mk_cong k b1 b2 c1 c2 : wf_counter b1 -> wf_counter b2 -> (forall x, In x c1 -> wf x) -> (forall x, In x c2 -> wf x) ->
    ceq b1 b2 -> lreord c1 c2 -> reord (mk offset k b1 c1) (mk offset k b2 c2).
  Proof.
    intros W1 W2 H1 H2 E L. apply simplify_reord; [apply wf_comm; auto|apply wf_comm; auto|]. apply reord_comm_iff. auto.
  Qed.
  Lemma mkl_cong k l c1 c2 : (forall x, In x c1 -> wf x) -> (forall x, In x c2 -> wf x) -> lreord c1 c2 -> reord (mkl offset k l c1) (mkl offset k l c2).
  Proof. intros H1 H2 L. apply mk_cong; auto using counter_of_wf. intros x. reflexivity. Qed.
  Lemma mk_change_cong o l1 r1 l2 r2 : (forall x, l1 = inr x \/ r1 = inr x -> wf x) -> (forall x, l2 = inr x \/ r2 = inr x -> wf x) ->
    reord_branch l1 l2 -> reord_branch r1 r2 -> reord (mk_change offset o l1 r1) (mk_change offset o l2 r2).
  Proof. intros H1 H2 Rl Rr. apply simplify_reord; [apply wf_change; auto|apply wf_change; auto|]. constructor; assumption. Qed.
  Lemma cadd_ceq a b c : nodup a -> nodup b -> nodup c -> ceq a b -> ceq (cadd (cpos a) c) (cadd (cpos b) c).
  Proof. intros Na Nb Nc E x. rewrite !cget_cadd, !cget_cpos, E by auto using cpos_nodup. reflexivity. Qed.
  Lemma cadd_ceq2 a b c d : nodup a -> nodup b -> nodup c -> nodup d -> ceq a b -> ceq c d -> ceq (cadd (cpos a) c) (cadd (cpos b) d).
  Proof. intros Na Nb Nc Nd E E' x. rewrite !cget_cadd, !cget_cpos, E, E' by auto using cpos_nodup. reflexivity. Qed.
  Lemma csub_ceq a b l : wf_counter a -> wf_counter b -> ceq a b -> ceq (csub (cpos a) (counter_of l)) (csub (cpos b) (counter_of l)).
  Proof.
    intros Wa Wb E x. pose proof (counter_of_wf l) as Wl. rewrite !cget_csub, !cget_cpos, E; auto using cpos_nodup, wf_nodup.
    all: intros y; apply wf_nonneg, Wl.
  Qed.
  Lemma cpos_ceq a b : nodup a -> nodup b -> ceq a b -> ceq (cpos a) (cpos b).
  Proof. intros Na Nb E x. rewrite !cget_cpos, E by assumption. reflexivity. Qed.

  Lemma in_two (P : kex -> Prop) a b : P a -> P b -> forall x, In x [a; b] -> P x.
  Proof. intros Ha Hb x [<-|[<-|[]]]; assumption. Qed.
  Lemma in_one (P : kex -> Prop) a : P a -> forall x, In x [a] -> P x.
  Proof. intros Ha x [<-|[]]; assumption. Qed.
  Lemma in_app_all (P : kex -> Prop) a b : (forall x, In x a -> P x) -> (forall x, In x b -> P x) -> forall x, In x (a ++ b) -> P x.
  Proof. intros Ha Hb x Hx. apply in_app_iff in Hx as [Hx|Hx]; auto. Qed.
  Lemma lreord_one a b : reord a b -> lreord [a] [b].
  Proof. intros R. apply lreord_cons; [exact R|apply lreord_refl]. Qed.
  Lemma lreord_two a b c d : reord a c -> reord b d -> lreord [a; b] [c; d].
  Proof. intros R S. apply lreord_cons; [exact R|apply lreord_one, S]. Qed.

  (** every result for n has its counterpart for n' *)
  Definition matched (l l' : list kex) : Prop := forall m, In m l -> exists m', In m' l' /\ reord m m'.
  Lemma matched_one a b : reord a b -> matched [a] [b].
  Proof. intros R m [<-|[]]. exists b. split; [left; reflexivity|exact R]. Qed.
  Lemma matched_cons a b l m : reord a b -> matched l m -> matched (a :: l) (b :: m).
  Proof. intros R H x [<-|Hx]; [exists b; split; [left; reflexivity|exact R]|]. destruct (H x Hx) as (y & Hy & Ry). exists y. split; [right; exact Hy|exact Ry]. Qed.
  Lemma matched_app a b c d : matched a b -> matched c d -> matched (a ++ c) (b ++ d).
  Proof.
    intros H1 H2 m Hm. apply in_app_iff in Hm as [Hm|Hm]; [destruct (H1 m Hm) as (m' & H & R)|destruct (H2 m Hm) as (m' & H & R)];
      exists m'; (split; [apply in_app_iff; auto|exact R]).
  Qed.
  Lemma matched_mapk (b1 b2 : counter) (f g : base -> kex) : (forall x, In x (map fst (cpos b1)) -> In x (map fst (cpos b2)) /\ reord (f x) (g x)) ->
    matched (map (fun p => f (fst p)) (cpos b1)) (map (fun p => g (fst p)) (cpos b2)).
  Proof.
    intros H m Hm. apply in_map_iff in Hm as (x & <- & Hx). destruct (H (fst x) (in_map fst _ _ Hx)) as [H1 H2].
    apply in_map_iff in H1 as (y & Ey & Hy). exists (g (fst y)). split; [apply (in_map (fun p => g (fst p))), Hy|rewrite Ey; exact H2].
  Qed.
  Lemma matched_map {A} (f g : A -> kex) l l' : (forall x, In x l -> In x l' /\ reord (f x) (g x)) -> matched (map f l) (map g l').
  Proof. intros H m Hm. apply in_map_iff in Hm as (x & <- & Hx). destruct (H x Hx) as [H1 H2]. exists (g x). split; [apply in_map, H1|exact H2]. Qed.

  Lemma plus_comm_cong k b1 b2 c1 c2 B : wf (Comm k b1 c1) -> wf (Comm k b2 c2) -> ceq b1 b2 -> lreord c1 c2 ->
    reord (mk offset k (cadd (cpos b1) (counter_of [B])) c1) (mk offset k (cadd (cpos b2) (counter_of [B])) c2).
  Proof.
    intros W1 W2 E L. apply wf_comm in W1 as [W1 V1], W2 as [W2 V2]. pose proof (wf_nodup _ W1). pose proof (wf_nodup _ W2).
    apply mk_cong; auto; try (apply cadd_wf; [apply cpos_nodup; assumption|apply counter_of_nodup]).
    apply cadd_ceq; auto using counter_of_nodup.
  Qed.
  Lemma nested_cong k k' b1 b2 c1 c2 B : wf (Comm k b1 c1) -> wf (Comm k b2 c2) -> ceq b1 b2 -> lreord c1 c2 ->
    matched (map (fun bt => mk offset k (csub (cpos b1) (counter_of [bt])) (c1 ++ [mkl offset k' [B; bt] []])) (celements b1))
            (map (fun bt => mk offset k (csub (cpos b2) (counter_of [bt])) (c2 ++ [mkl offset k' [B; bt] []])) (celements b2)).
  Proof.
    intros W1 W2 E L. apply wf_comm in W1 as [W1 V1], W2 as [W2 V2]. pose proof (wf_nodup _ W1). pose proof (wf_nodup _ W2).
    apply matched_map. intros x Hx. split.
    - apply in_celements in Hx; [|assumption]. apply in_celements; [assumption|]. rewrite <- E. exact Hx.
    - assert (Wm : wf (mkl offset k' [B; x] [])) by (apply mk_wf; [apply counter_of_wf|intros ? []]).
      apply mk_cong; try (apply csub_wf; [apply cpos_nodup; assumption|apply counter_of_nodup]);
        try (apply in_app_all; [assumption|apply in_one, Wm]).
      + apply csub_ceq; assumption.
      + apply lreord_app; [exact L|apply lreord_refl].
  Qed.
  Lemma add_nested_cong S S' B : wf S -> wf S' -> reord S S' -> matched (add_nested offset (inr S) (inl B)) (add_nested offset (inr S') (inl B)).
  Proof.
    intros W W' R. destruct S as [k b1 c1|o l r].
    - destruct S' as [k' b2 c2|]; [|inversion R]. assert (k' = k) as -> by (inversion R; auto).
      pose proof (proj1 (reord_comm_iff _ _ _ _ _) R) as [E L]. destruct k; cbn [add_nested add].
      + apply matched_one, plus_comm_cong; assumption.
      + apply matched_cons; [apply mkl_cong; [apply in_one, W|apply in_one, W'|apply lreord_one, R]|]. apply nested_cong; assumption.
    - destruct S' as [|o' l' r']; [inversion R|]. cbn [add_nested add].
      apply matched_one, mkl_cong; [apply in_one, W|apply in_one, W'|apply lreord_one, R].
  Qed.
  Lemma multiply_nested_cong S S' B : wf S -> wf S' -> reord S S' -> matched (multiply_nested offset (inr S) (inl B)) (multiply_nested offset (inr S') (inl B)).
  Proof.
    intros W W' R. destruct S as [k b1 c1|o l r].
    - destruct S' as [k' b2 c2|]; [|inversion R]. assert (k' = k) as -> by (inversion R; auto).
      pose proof (proj1 (reord_comm_iff _ _ _ _ _) R) as [E L]. destruct k; cbn [multiply_nested multiply].
      + apply matched_cons; [apply mkl_cong; [apply in_one, W|apply in_one, W'|apply lreord_one, R]|]. apply nested_cong; assumption.
      + apply matched_one, plus_comm_cong; assumption.
    - destruct S' as [|o' l' r']; [inversion R|]. cbn [multiply_nested multiply].
      apply matched_one, mkl_cong; [apply in_one, W|apply in_one, W'|apply lreord_one, R].
  Qed.
  (** multiplication by an expression *)
  Lemma multiply_expr_cong S S' x : wf S -> wf S' -> wf x -> reord S S' -> matched (multiply_nested offset (inr S) (inr x)) (multiply_nested offset (inr S') (inr x)).
  Proof.
    intros W W' Wx R. assert (E : forall y, multiply_nested offset (inr y) (inr x) = [multiply offset (inr y) (inr x)]) by (intros [[|] ? ?|? ? ?]; reflexivity).
    rewrite !E. apply matched_one. destruct S as [k b1 c1|o l r].
    - destruct S' as [k' b2 c2|]; [|inversion R]. assert (k' = k) as -> by (inversion R; auto).
      pose proof (proj1 (reord_comm_iff _ _ _ _ _) R) as [Eb L].
      pose proof W as Wk. pose proof W' as Wk'. apply wf_comm in Wk as [W1 V1], Wk' as [W2 V2]. pose proof (wf_nodup _ W1). pose proof (wf_nodup _ W2).
      assert (T : lreord [Comm k b1 c1; x] [Comm k b2 c2; x]) by (apply lreord_two; [exact R|apply reord_refl]).
      assert (T1 : forall z, lreord [z; Comm k b1 c1] [z; Comm k b2 c2]) by (intros z; apply lreord_two; [apply reord_refl|exact R]).
      destruct k, x as [[|] b3 c3|o3 l3 r3]; cbn [multiply];
        try (apply mkl_cong; [apply in_two; assumption|apply in_two; assumption|exact T || apply T1]).
      + pose proof (proj1 (wf_comm _ _ _) Wx) as [W3 V3]. apply mk_cong; [apply cpos_wf, wf_nodup, W3|apply cpos_wf, wf_nodup, W3| | | |].
        * apply in_app_all; [exact V3|apply in_one, W].
        * apply in_app_all; [exact V3|apply in_one, W'].
        * intros z; reflexivity.
        * apply lreord_app; [apply lreord_refl|apply lreord_one, R].
      + apply mk_cong; [apply cpos_wf, wf_nodup, W1|apply cpos_wf, wf_nodup, W2| | | |].
        * apply in_app_all; [exact V1|apply in_one, Wx].
        * apply in_app_all; [exact V2|apply in_one, Wx].
        * apply cpos_ceq; assumption.
        * apply lreord_app; [exact L|apply lreord_refl].
      + pose proof (proj1 (wf_comm _ _ _) Wx) as [W3 V3]. pose proof (wf_nodup _ W3).
        apply mk_cong; try (apply cadd_wf; [apply cpos_nodup; assumption|assumption]); try (apply in_app_all; assumption).
        * apply cadd_ceq; assumption.
        * apply lreord_app; [exact L|apply lreord_refl].
      + apply mk_cong; [apply cpos_wf, wf_nodup, W1|apply cpos_wf, wf_nodup, W2| | | |].
        * apply in_app_all; [exact V1|apply in_one, Wx].
        * apply in_app_all; [exact V2|apply in_one, Wx].
        * apply cpos_ceq; assumption.
        * apply lreord_app; [exact L|apply lreord_refl].
    - destruct S' as [|o' l' r']; [inversion R|].
      destruct x as [[|] b3 c3|o3 l3 r3]; cbn [multiply];
        try (apply mkl_cong; [apply in_two; assumption|apply in_two; assumption|apply lreord_two; (exact R || apply reord_refl)]).
      pose proof (proj1 (wf_comm _ _ _) Wx) as [W3 V3]. apply mk_cong; [apply cpos_wf, wf_nodup, W3|apply cpos_wf, wf_nodup, W3| | | |].
      + apply in_app_all; [exact V3|apply in_one, W].
      + apply in_app_all; [exact V3|apply in_one, W'].
      + intros z; reflexivity.
      + apply lreord_app; [apply lreord_refl|apply lreord_one, R].
  Qed.
  Lemma keys_ceq a b x : wf_counter a -> wf_counter b -> ceq a b -> In x (map fst (cpos a)) -> In x (map fst (cpos b)).
  Proof. intros Wa Wb E H. apply (distinct_cpos b Wb). rewrite <- E. apply (distinct_cpos a Wa), H. Qed.
  Lemma swap_counter_nodup a b : nodup (swap_counter a b).
  Proof. apply cset_nodup, cset_nodup. constructor. Qed.
  Lemma swap_base_cong S S' B : wf S -> wf S' -> reord S S' -> matched (swap_base offset S B) (swap_base offset S' B).
  Proof.
    intros W W' R. destruct S as [k b1 c1|o l r].
    - destruct S' as [k' b2 c2|]; [|inversion R]. assert (k' = k) as -> by (inversion R; auto).
      apply reord_comm_iff in R as [E L]. apply wf_comm in W as [W1 V1], W' as [W2 V2]. pose proof (wf_nodup _ W1). pose proof (wf_nodup _ W2).
      cbn [swap_base]. unfold swap_args. rewrite !map_map. apply (matched_mapk b1 b2 (fun x => mk offset k (cadd (cpos b1) (swap_counter x B)) c1) (fun x => mk offset k (cadd (cpos b2) (swap_counter x B)) c2)). intros x Hx. split; [exact (keys_ceq _ _ _ W1 W2 E Hx)|].
      apply mk_cong; auto; try (apply cadd_wf; [apply cpos_nodup; assumption|apply swap_counter_nodup]).
      apply cadd_ceq; auto using swap_counter_nodup.
    - apply reord_change_inv in R as (l' & r' & -> & Rl & Rr). cbn [swap_base].
      rewrite wf_change in W, W'. apply matched_app.
      + destruct l as [b|y], l' as [b'|y']; apply reord_branch_inv in Rl; try contradiction; [subst b'|intros ? []].
        destruct (base_eqb b B); [intros ? []|]. apply matched_one, mk_change_cong; [| |constructor|exact Rr].
        * intros x [?|Hx]; [discriminate|apply W; auto].
        * intros x [?|Hx]; [discriminate|apply W'; auto].
      + destruct r as [b|y], r' as [b'|y']; apply reord_branch_inv in Rr; try contradiction; [subst b'|intros ? []].
        destruct (base_eqb b B); [intros ? []|]. apply matched_one, mk_change_cong; [| |exact Rl|constructor].
        * intros x [Hx|?]; [apply W; auto|discriminate].
        * intros x [Hx|?]; [apply W'; auto|discriminate].
  Qed.
  Lemma change_left o b S S' : wf S -> wf S' -> reord S S' -> reord (mk_change offset o (inr S) (inl b)) (mk_change offset o (inr S') (inl b)).
  Proof. intros W W' R. apply mk_change_cong; [intros x [[= <-]|[= <-]]; assumption|intros x [[= <-]|[= <-]]; assumption|constructor; exact R|constructor]. Qed.
  Lemma change_right o b S S' : wf S -> wf S' -> reord S S' -> reord (mk_change offset o (inl b) (inr S)) (mk_change offset o (inl b) (inr S')).
  Proof. intros W W' R. apply mk_change_cong; [intros x [[= <-]|[= <-]]; assumption|intros x [[= <-]|[= <-]]; assumption|constructor|constructor; exact R]. Qed.
  Lemma change_both o S S' : wf S -> wf S' -> reord S S' -> reord (mk_change offset o (inr S) (inr S)) (mk_change offset o (inr S') (inr S')).
  Proof. intros W W' R. apply mk_change_cong; [intros x [[= <-]|[= <-]]; assumption|intros x [[= <-]|[= <-]]; assumption|constructor; exact R|constructor; exact R]. Qed.
  Lemma one_change_cong S S' o b : wf S -> wf S' -> reord S S' -> matched (one_change offset (inr S) o (Some (inl b))) (one_change offset (inr S') o (Some (inl b))).
  Proof.
    intros W W' R. cbn [one_change branch_eqb]. apply matched_cons; [apply change_left; assumption|apply matched_one, change_right; assumption].
  Qed.
  Lemma both_changes_cong S S' s : wf S -> wf S' -> reord S S' -> match s with Some (inr _) => False | _ => True end ->
    matched (both_changes offset (inr S) s) (both_changes offset (inr S') s).
  Proof.
    intros W W' R Hs. unfold both_changes. cbn [map concat]. destruct s as [[b|]|]; [|contradiction|]; cbn [branch_eqb app].
    - repeat (apply matched_cons; [(apply change_left; assumption) || (apply change_right; assumption)|]). intros ? [].
    - repeat (apply matched_cons; [apply change_both; assumption|]). intros ? [].
  Qed.
  Lemma drop_nth_app {A} (a d : list A) x : drop_nth (length a) (a ++ x :: d) = a ++ d.
  Proof.
    unfold drop_nth. rewrite firstn_app, Nat.sub_diag, firstn_O, firstn_all, app_nil_r. f_equal.
    rewrite skipn_app, skipn_all2 by lia. replace (S (length a) - length a)%nat with 1%nat by lia. reflexivity.
  Qed.
  Lemma remove_cong S S' : wf S -> wf S' -> reord S S' -> matched (remove_a_term offset S) (remove_a_term offset S').
  Proof.
    intros W W' R. destruct S as [k b1 c1|o l r].
    - destruct S' as [k' b2 c2|]; [|inversion R]. assert (k' = k) as -> by (inversion R; auto).
      apply reord_comm_iff in R as [E L]. apply wf_comm in W as [W1 V1], W' as [W2 V2]. pose proof (wf_nodup _ W1). pose proof (wf_nodup _ W2).
      cbn [remove_a_term]. unfold remove_args. rewrite <- (csum_ceq b1 b2), <- (lreord_length c1 c2) by assumption.
      destruct (1 <? _); [|intros ? []]. rewrite !map_app, !map_map. cbn [fst snd]. apply matched_app.
      + apply (matched_mapk b1 b2 (fun x => mk offset k (cadd (cpos b1) [(x, -1)]) c1) (fun x => mk offset k (cadd (cpos b2) [(x, -1)]) c2)). intros x Hx. split; [exact (keys_ceq _ _ _ W1 W2 E Hx)|].
        apply mk_cong; auto; try (apply cadd_wf; [apply cpos_nodup; assumption|apply nodup_single]). apply cadd_ceq; auto using nodup_single.
      + intros m Hm. apply in_map_iff in Hm as (i & <- & Hi). apply in_seq in Hi.
        destruct (nth_error c1 i) as [x|] eqn:Ex; [|apply nth_error_None in Ex; lia].
        destruct (nth_error_split c1 i Ex) as (a & d & -> & <-). rewrite drop_nth_app.
        assert (L' : lreord c2 (x :: a ++ d)) by (eapply lreord_trans; [apply lreord_sym, L|apply lreord_mid]).
        apply lreord_cons_inv in L' as (a' & x' & d' & -> & Rx & L').
        exists (mk offset k (cpos b2) (a' ++ d')). split.
        * apply in_map_iff. exists (length a'). rewrite drop_nth_app. split; [reflexivity|]. apply in_seq.
          apply lreord_length in L. rewrite L, app_length. cbn [length]. lia.
        * apply mk_cong; [apply cpos_wf, wf_nodup, W1|apply cpos_wf, wf_nodup, W2| | |apply cpos_ceq; assumption|apply lreord_sym, L'].
          -- intros y Hy. apply V1. apply in_app_iff in Hy. apply in_app_iff. cbn [In]. tauto.
          -- intros y Hy. apply V2. apply in_app_iff in Hy. apply in_app_iff. cbn [In]. tauto.
    - apply reord_change_inv in R as (l' & r' & -> & Rl & Rr). cbn [remove_a_term map].
      assert (G : forall x y, reord_branch x y -> reord (match x with inl b => mkl offset KSum [b] [] | inr e => e end) (match y with inl b => mkl offset KSum [b] [] | inr e => e end)).
      { intros x y Rxy. apply reord_branch_inv in Rxy. destruct x, y; try contradiction; [subst; apply reord_refl|exact Rxy]. }
      apply matched_cons; [apply G, Rl|]. apply matched_one, G, Rr.
  Qed.
  Lemma del_se_reord x y : wf x -> wf y -> reord x y -> reord (del_se x) (del_se y).
  Proof.
    intros Wx Wy R. destruct x as [k b1 c1|o l r].
    - destruct y as [k' b2 c2|]; [|inversion R]. assert (k' = k) as -> by (inversion R; auto).
      apply reord_comm_iff in R as [E L]. apply wf_comm in Wx as [W1 _], Wy as [W2 _]. cbn [del_se]. apply reord_comm_iff.
      split; [|exact L]. intros z. rewrite !cget_del, E by (apply wf_nodup; assumption). reflexivity.
    - destruct y as [|o' l' r']; [inversion R|]. exact R.
  Qed.
  Lemma chas_ceq a b x : wf_counter a -> wf_counter b -> ceq a b -> chas (cpos a) x = chas (cpos b) x.
  Proof.
    intros Wa Wb E. rewrite (wf_cpos a Wa), (wf_cpos b Wb). destruct (chas b x) eqn:Hb.
    - apply (wf_has b x Wb) in Hb. apply wf_has; [exact Wa|]. rewrite E. exact Hb.
    - destruct (chas a x) eqn:Ha; [|reflexivity]. apply (wf_has a x Wa) in Ha. rewrite E in Ha. apply (wf_has b x Wb) in Ha. congruence.
  Qed.
  Lemma matched_del l l' : (forall x, In x l -> wf x) -> (forall x, In x l' -> wf x) -> matched l l' -> matched (map del_se l) (map del_se l').
  Proof.
    intros W W' H m Hm. apply in_map_iff in Hm as (x & <- & Hx). destruct (H x Hx) as (y & Hy & R). exists (del_se y).
    split; [apply in_map, Hy|]. apply del_se_reord; auto.
  Qed.
  Lemma higher_wf x : In x (higher_kers offset) -> wf x.
  Proof. intros [<-|[<-|[]]]; apply mk_wf; (apply counter_of_wf || intros ? []). Qed.
  Lemma higher_cong S S' : wf S -> wf S' -> reord S S' -> matched (higher_curves offset S) (higher_curves offset S').
  Proof.
    intros W W' R. destruct S as [k b1 c1|o l r].
    - destruct S' as [k' b2 c2|]; [|inversion R]. assert (k' = k) as -> by (inversion R; auto).
      apply reord_comm_iff in R as [E L]. apply wf_comm in W as [W1 V1], W' as [W2 V2]. pose proof (wf_nodup _ W1) as N1. pose proof (wf_nodup _ W2) as N2.
      destruct k; cbn [higher_curves].
      + assert (Hw : forall b c, wf_counter b -> (forall x, In x c -> wf x) -> forall x, In x (map (fun ct => mk offset KSum (cpos b) (c ++ [ct])) (higher_kers offset)) -> wf x).
        { intros b c Wb Vc x Hx. apply in_map_iff in Hx as (y & <- & Hy). apply mk_wf; [apply cpos_wf, wf_nodup, Wb|].
          apply in_app_all; [exact Vc|apply in_one, higher_wf, Hy]. }
        assert (M : matched (map (fun ct => mk offset KSum (cpos b1) (c1 ++ [ct])) (higher_kers offset)) (map (fun ct => mk offset KSum (cpos b2) (c2 ++ [ct])) (higher_kers offset))).
        { apply matched_map. intros x Hx. split; [exact Hx|]. apply higher_wf in Hx.
          apply mk_cong; [apply cpos_wf, N1|apply cpos_wf, N2|apply in_app_all; [exact V1|apply in_one, Hx]|apply in_app_all; [exact V2|apply in_one, Hx]|apply cpos_ceq; assumption|].
          apply lreord_app; [exact L|apply lreord_refl]. }
        rewrite <- (chas_ceq b1 b2 bSE) by assumption. destruct (chas (cpos b1) bSE); [|exact M]. apply matched_del; [apply Hw; assumption|apply Hw; assumption|exact M].
      + rewrite <- (chas_ceq b1 b2 bSE), <- (chas_ceq b1 b2 bPER) by assumption.
        set (ds := [[(bLIN, 2)]; [(bLIN, 3)]; (if chas (cpos b1) bPER then [(bPER, 1)] else [(bPER, 2)])]).
        assert (Nd : forall d, In d ds -> nodup d).
        { intros d [<-|[<-|[<-|[]]]]; try apply nodup_single. destruct (chas (cpos b1) bPER); apply nodup_single. }
        assert (Hw : forall b c, wf_counter b -> (forall x, In x c -> wf x) -> forall x, In x (map (fun d => mk offset KProd (cadd (cpos b) d) c) ds) -> wf x).
        { intros b c Wb Vc x Hx. apply in_map_iff in Hx as (y & <- & Hy). apply mk_wf; [|exact Vc]. apply cadd_wf; [apply cpos_nodup, wf_nodup, Wb|apply Nd, Hy]. }
        assert (M : matched (map (fun d => mk offset KProd (cadd (cpos b1) d) c1) ds) (map (fun d => mk offset KProd (cadd (cpos b2) d) c2) ds)).
        { apply matched_map. intros x Hx. split; [exact Hx|]. apply Nd in Hx.
          apply mk_cong; auto; try (apply cadd_wf; [apply cpos_nodup; assumption|exact Hx]). apply cadd_ceq; assumption. }
        destruct (chas (cpos b1) bSE); [|exact M]. apply matched_del; [apply Hw; assumption|apply Hw; assumption|exact M].
    - apply reord_change_inv in R as (l' & r' & -> & Rl & Rr). cbn [higher_curves]. rewrite wf_change in W, W'. apply matched_app.
      + destruct l as [b|y], l' as [b'|y']; pose proof Rl as Rl'; apply reord_branch_inv in Rl'; try contradiction; [|intros ? []].
        apply matched_map. intros x Hx. split; [exact Hx|]. apply higher_wf in Hx. apply mk_change_cong; [| |constructor; apply reord_refl|exact Rr].
        * intros z [[= <-]|Hz]; [exact Hx|apply W; auto].
        * intros z [[= <-]|Hz]; [exact Hx|apply W'; auto].
      + destruct r as [b|y], r' as [b'|y']; pose proof Rr as Rr'; apply reord_branch_inv in Rr'; try contradiction; [|intros ? []].
        apply matched_map. intros x Hx. split; [exact Hx|]. apply higher_wf in Hx. apply mk_change_cong; [| |exact Rl|constructor; apply reord_refl].
        * intros z [Hz|[= <-]]; [apply W; auto|exact Hx].
        * intros z [Hz|[= <-]]; [apply W'; auto|exact Hx].
  Qed.

  Lemma groups_cong G bases noC : In G (groups offset) -> respects_eq (G bases noC).
  Proof.
    intros HG n n' m W W' R (r & g & Hr & Hg & Hm). apply keq_spec in R.
    assert (K : exists g', In g' (r n') /\ matched g g').
    { apply (groups_incl offset G bases noC r HG) in Hr. cbn [rules_all In] in Hr.
      assert (Km : forall (F : base -> kex -> list kex) l, (forall B, matched (F B n) (F B n')) -> In g (map (fun B => F B n) l) -> exists g', In g' (map (fun B => F B n') l) /\ matched g g').
      { intros F l HF Hl. apply in_map_iff in Hl as (B & <- & HB). exists (F B n'). split; [apply in_map_iff; exists B; auto|apply HF]. }
      assert (K1 : forall (F : kex -> list kex), matched (F n) (F n') -> In g [F n] -> exists g', In g' [F n'] /\ matched g g').
      { intros F HF [<-|[]]. exists (F n'). split; [left; reflexivity|exact HF]. }
      repeat (destruct Hr as [<-|Hr]); [..|destruct Hr].
      - apply (Km (fun B S => add_nested offset (inr S) (inl B))); [|exact Hg]. intros; apply add_nested_cong; assumption.
      - apply (Km (fun B S => multiply_nested offset (inr S) (inl B))); [|exact Hg]. intros; apply multiply_nested_cong; assumption.
      - apply (Km (fun B S => swap_base offset S B)); [|exact Hg]. intros; apply swap_base_cong; assumption.
      - apply (Km (fun B S => both_changes offset (inr S) (Some (inl B)))); [|exact Hg]. intros; apply both_changes_cong; auto.
      - apply (K1 (fun S => both_changes offset (inr S) None)); [|exact Hg]. apply both_changes_cong; auto.
      - apply (K1 (fun S => one_change offset (inr S) CP (Some (inl bLIN)))); [|exact Hg]. apply one_change_cong; auto.
      - apply (K1 (fun S => one_change offset (inr S) CW (Some (inl bC)))); [|exact Hg]. apply one_change_cong; auto.
      - apply (K1 (fun S => one_change offset (inr S) CW (Some (inl bLIN)))); [|exact Hg]. apply one_change_cong; auto.
      - apply (Km (fun B S => multiply_nested offset (inr S) (inr (mkl offset KSum [B; bC] [])))); [|exact Hg]. intros B; apply multiply_expr_cong; auto.
        apply mk_wf; [apply counter_of_wf|intros ? []].
      - apply (Km (fun B S => replace_node offset S (inr (mkl offset KSum [B] [])))); [|exact Hg]. intros B. cbn [replace_node]. apply matched_one, reord_refl.
      - apply (K1 (fun S => remove_a_term offset S)); [|exact Hg]. apply remove_cong; auto.
      - apply (K1 (fun S => higher_curves offset S)); [|exact Hg]. apply higher_cong; auto. }
    destruct K as (g' & Hg' & M). destruct (M m Hm) as (m' & Hm' & Rm). exists m'. split; [exists r, g'; auto|apply keq_spec, Rm].
  Qed.

  Lemma expand_cong_half rules e e' : wf e -> wf e' -> wf_rules rules -> respects_eq rules -> reord e e' ->
    forall x, In x (expand offset rules e) -> exists y, In y (expand offset rules e') /\ reord x y.
  Proof.
    intros W W' Wr Cr R x Hx. destruct (expand_sound offset rules e W Wr x Hx) as (p & n & new & t & Ha & Hp & Wn & Ht & Wt & Rx & _).
    destruct (addr_reord p e e' n R Ha) as (p' & n0 & n' & Hn0 & Hn' & Rn & Hr). rewrite Ha in Hn0. injection Hn0 as <-.
    destruct (Cr n n' new (at_addr_wf _ _ _ W Ha) (at_addr_wf _ _ _ W' Hn') (proj2 (keq_spec _ _) Rn) Hp) as (new' & Hp' & Rnew). apply keq_spec in Rnew.
    destruct (Hr new new' t Rnew Ht) as (t' & Ht' & Rt).
    destruct (expand_covers offset rules e' W' Wr p' n' new' Hn' Hp') as (y & t'' & Hy & Ht'' & Ry). rewrite Ht' in Ht''. injection Ht'' as <-.
    exists y. split; [exact Hy|]. eapply reord_trans; [exact Rx|]. eapply reord_trans; [|apply reord_sym, Ry].
    apply standardise_reord; [exact Wt| |exact Rt]. eapply replace_wf; [exact W'| |exact Ht']. eapply Wr; [exact (at_addr_wf _ _ _ W' Hn')|exact Hp'].
  Qed.
  Lemma expand_cong rules e e' : wf e -> wf e' -> wf_rules rules -> respects_eq rules -> keq e e' = true ->
    same_up_to_eq (expand offset rules e) (expand offset rules e').
  Proof.
    intros W W' Wr Cr E. apply keq_spec in E. split.
    - intros x Hx. destruct (expand_cong_half rules e e' W W' Wr Cr E x Hx) as (y & Hy & R). exists y. rewrite keq_spec. auto.
    - intros y Hy. destruct (expand_cong_half rules e' e W' W Wr Cr (reord_sym _ _ E) y Hy) as (x & Hx & R). exists x. rewrite keq_spec. split; [exact Hx|apply reord_sym, R].
  Qed.
End Rules.
