(** Products with parameters: what new_bases_with_parameters does (C32-C34). *)
From Coq Require Import Reals Lra List Bool Arith ZArith Lia Permutation.
From Verif Require Import Py KexModel KexSpec KexProofs KexSimp KexMore KernModel KernSpec SemModel SemSpec SemProofs SemSimp SemKernel IvModel IvSpec IvProofs ParModel ParSpec ParMatch ParCov.
Import ListNotations.
Local Open Scope list_scope.

(** ** Monomials: the factors of a term, with their values *)
Definition mono : Type := list (pkey * pdict).
Definition occ (m : mono) (b : base) : nat := length (filter (fun e => pkey_eqb (KBase b) (fst e)) m).
Definition entry_cov (e : pkey * pdict) : kern := fun x i j =>
  match fst e with KProduct => value (snd e) pVariance 1 | KBase b => base_cov b (snd e) x i j | _ => 1%R end.
Definition mono_cov (m : mono) : kern := fun x i j => rprods (map (fun e => entry_cov e x i j) m).
Definition key_cov (kl : pkey * list pdict) : kern := fun x i j => mono_cov (map (fun p => (fst kl, p)) (snd kl)) x i j.

Lemma occ_app m n b : occ (m ++ n) b = (occ m b + occ n b)%nat.
Proof. unfold occ. now rewrite filter_app, app_length. Qed.
Lemma occ_cons e m b : occ (e :: m) b = ((if pkey_eqb (KBase b) (fst e) then 1 else 0) + occ m b)%nat.
Proof. unfold occ. cbn [filter]. destruct (pkey_eqb (KBase b) (fst e)); reflexivity. Qed.
Lemma mono_cov_app m n x i j : mono_cov (m ++ n) x i j = (mono_cov m x i j * mono_cov n x i j)%R.
Proof. unfold mono_cov. now rewrite map_app, rprods_app. Qed.
Lemma mono_cov_cons e m x i j : mono_cov (e :: m) x i j = (entry_cov e x i j * mono_cov m x i j)%R.
Proof. reflexivity. Qed.
Lemma rprods_const1 {A} (l : list A) : rprods (map (fun _ => 1%R) l) = 1%R.
Proof. induction l as [|a l IH]; cbn; [reflexivity|]. unfold rprods in IH. rewrite IH. ring. Qed.
Lemma product_cov_keys ps x i j : product_cov ps x i j = rprods (map (fun kl => key_cov kl x i j) ps).
Proof.
  unfold product_cov. f_equal. apply map_ext. intros [k l]. unfold key_cov, mono_cov. cbn [fst snd]. rewrite map_map. unfold entry_cov. cbn [fst snd].
  destruct k; try (symmetry; apply rprods_const1); reflexivity.
Qed.
Lemma product_cov_cons kl ps x i j : product_cov (kl :: ps) x i j = (key_cov kl x i j * product_cov ps x i j)%R.
Proof. now rewrite !product_cov_keys. Qed.
Lemma product_entries ps x i j : product_cov ps x i j = mono_cov (entries ps) x i j.
Proof.
  induction ps as [|[k l] ps IH]; [reflexivity|]. rewrite product_cov_cons, IH. unfold entries. cbn [map concat]. rewrite mono_cov_app. reflexivity.
Qed.
Lemma product_append ps k p x i j : product_cov (pappend ps k p) x i j = (product_cov ps x i j * entry_cov (k, p) x i j)%R.
Proof.
  unfold pappend. assert (E : forall l0, l0 = pars ps k -> product_cov (dict_set pkey_eqb ps k (l0 ++ [p])) x i j = (product_cov ps x i j * entry_cov (k, p) x i j)%R); [|now apply E].
  induction ps as [|[a l] ps IH]; intros l0 ->.
  - cbn [dict_set pars dict_get app]. rewrite product_cov_cons. unfold key_cov, mono_cov. cbn. unfold product_cov. cbn. ring.
  - unfold pars. cbn [dict_set dict_get]. destruct (pkey_eqb a k) eqn:A.
    + apply pkey_eqb_eq in A. subst. rewrite !product_cov_cons. unfold key_cov. cbn [fst snd]. rewrite map_app, mono_cov_app. unfold mono_cov at 2. cbn. ring.
    + rewrite !product_cov_cons. fold (pars ps k). rewrite (IH _ eq_refl). ring.
Qed.
Lemma product_replace ps k l' c x i j : In k (map fst ps) -> key_cov (k, l') x i j = (key_cov (k, pars ps k) x i j * c)%R ->
  product_cov (dict_set pkey_eqb ps k l') x i j = (product_cov ps x i j * c)%R.
Proof.
  induction ps as [|[a l] ps IH]; intros I E; [destruct I|]. unfold pars in E. cbn [dict_get] in E. cbn [dict_set]. destruct (pkey_eqb a k) eqn:A.
  - apply pkey_eqb_eq in A. subst. rewrite !product_cov_cons, E. ring.
  - rewrite !product_cov_cons. fold (pars ps k) in E. rewrite IH; [ring| |exact E]. destruct I as [I|I]; [cbn in I; subst; rewrite pkey_eqb_same in A; discriminate A|exact I].
Qed.
Lemma product_filter f ps x i j : (forall k l, In (k, l) ps -> f (k, l) = false -> key_cov (k, l) x i j = 1%R) -> product_cov (filter f ps) x i j = product_cov ps x i j.
Proof.
  induction ps as [|[k l] ps IH]; intros H; [reflexivity|]. cbn [filter]. rewrite product_cov_cons. destruct (f (k, l)) eqn:F.
  - rewrite product_cov_cons, IH; [reflexivity|]. intros k' l' I. apply H. right. exact I.
  - rewrite IH, (H k l (or_introl eq_refl) F); [ring|]. intros k' l' I. apply H. right. exact I.
Qed.
Lemma product_zero k l ps x i j : In (k, l) ps -> key_cov (k, l) x i j = 0%R -> product_cov ps x i j = 0%R.
Proof. induction ps as [|kl ps IH]; intros I E; [destruct I|]. rewrite product_cov_cons. destruct I as [->|I]; [rewrite E; ring|rewrite IH by assumption; ring]. Qed.

(** ** Dictionaries *)
Lemma pars_in k l (ps : params) : NoDup (map fst ps) -> In (k, l) ps -> pars ps k = l.
Proof.
  induction ps as [|[a w] ps IH]; intros ND I; [destruct I|]. inversion ND as [|? ? NI ND']; subst. unfold pars. cbn [dict_get]. destruct I as [[= -> ->]|I].
  - now rewrite pkey_eqb_same.
  - destruct (pkey_eqb a k) eqn:A; [|now apply IH]. apply pkey_eqb_eq in A. subst. exfalso. apply NI. apply in_map_iff. now exists (k, l).
Qed.
Lemma pars_key k (ps : params) : pars ps k <> [] -> In k (map fst ps).
Proof.
  unfold pars. induction ps as [|[a w] ps IH]; cbn; [intros H; now destruct H|]. destruct (pkey_eqb a k) eqn:A; [apply pkey_eqb_eq in A; auto|auto].
Qed.
Lemma pars_absent k (ps : params) : ~ In k (map fst ps) -> pars ps k = [].
Proof. intros H. destruct (pars ps k) eqn:E; [reflexivity|]. exfalso. apply H, pars_key. rewrite E. discriminate. Qed.
Lemma key_in k (ps : params) : In k (map fst ps) -> In (k, pars ps k) ps.
Proof.
  unfold pars. induction ps as [|[a w] ps IH]; cbn; intros H; [destruct H|]. destruct (pkey_eqb a k) eqn:A; [apply pkey_eqb_eq in A; subst; now left|].
  right. apply IH. destruct H as [->|H]; [rewrite pkey_eqb_same in A; discriminate A|exact H].
Qed.
Lemma has_key k (ps : params) : dict_has pkey_eqb ps k = true <-> In k (map fst ps).
Proof.
  unfold dict_has. induction ps as [|[a w] ps IH]; cbn; [split; [discriminate|intros []]|]. destruct (pkey_eqb a k) eqn:A.
  - apply pkey_eqb_eq in A. split; auto.
  - rewrite IH. split; [auto|]. intros [->|H]; [rewrite pkey_eqb_same in A; discriminate A|exact H].
Qed.
Lemma filter_nodup f (ps : params) : NoDup (map fst ps) -> NoDup (map fst (filter f ps)).
Proof.
  induction ps as [|kl ps IH]; cbn; intros ND; [constructor|]. inversion ND as [|? ? NI ND']; subst. destruct (f kl); [|auto]. cbn. constructor; [|auto].
  intros I. apply NI. apply in_map_iff in I as (y & <- & I). apply filter_In in I as [I _]. apply in_map, I.
Qed.
(** Filters on the key. *)
Lemma pars_filter (g : pkey -> bool) (ps : params) k : pars (filter (fun kl => g (fst kl)) ps) k = if g k then pars ps k else [].
Proof.
  unfold pars. induction ps as [|[a w] ps IH]; cbn; [destruct (g k); reflexivity|]. destruct (g a) eqn:G; cbn; destruct (pkey_eqb a k) eqn:A.
  - apply pkey_eqb_eq in A. subst. now rewrite G.
  - exact IH.
  - apply pkey_eqb_eq in A. subst. rewrite G in IH. rewrite IH, G. reflexivity.
  - exact IH.
Qed.
Lemma keys_filter (g : pkey -> bool) (ps : params) k : In k (map fst (filter (fun kl => g (fst kl)) ps)) <-> In k (map fst ps) /\ g k = true.
Proof.
  rewrite !in_map_iff. split.
  - intros (kl & <- & I). apply filter_In in I as [I G]. split; [now exists kl|exact G].
  - intros ((kl & <- & I) & G). exists kl. split; [reflexivity|]. apply filter_In. now split.
Qed.
Lemma dict_del_filter (ps : params) k : dict_del pkey_eqb ps k = filter (fun kl => negb (pkey_eqb (fst kl) k)) ps.
Proof. reflexivity. Qed.

(** ** Counts of the factors of a product after simplification *)
Definition simp_count (n : base -> Z) (b : base) : Z :=
  (if 0 <? n bWN then match b with bWN => 1 | bC | bSE | bPER => 0 | _ => n b end
   else match b with
        | bC => if 0 <? n bC then (if (n bLIN <=? 0) && (n bSE <=? 0) && (n bPER <=? 0) then 1 else 0) else 0
        | bSE => Z.min 1 (n bSE)
        | _ => n b
        end)%Z.
Lemma simp_count_ext n n' : (forall b, b <> bWN -> n b = n' b) -> ((0 < n bWN)%Z <-> (0 < n' bWN)%Z) -> (forall b, 0 <= n b)%Z -> (forall b, 0 <= n' b)%Z ->
  forall b, simp_count n b = simp_count n' b.
Proof.
  intros E W P P' b. unfold simp_count. rewrite !(E bC), !(E bLIN), !(E bSE), !(E bPER) by discriminate.
  destruct (Z.ltb_spec 0 (n bWN)), (Z.ltb_spec 0 (n' bWN)); try lia; destruct b; try reflexivity; try (apply E; discriminate). specialize (P bWN). specialize (P' bWN). lia.
Qed.
Ltac counts := repeat match goal with
  | |- context [Z.ltb ?a ?b] => destruct (Z.ltb_spec a b)
  | |- context [Z.leb ?a ?b] => destruct (Z.leb_spec a b)
  | H : context [Z.ltb ?a ?b] |- _ => destruct (Z.ltb_spec a b)
  | H : context [Z.leb ?a ?b] |- _ => destruct (Z.leb_spec a b)
  end; cbn [andb] in *; try lia.
Lemma simp_count_add n n' : (forall b, 0 <= n b)%Z -> (forall b, 0 <= n' b)%Z -> forall b, simp_count (fun x => simp_count n x + n' x)%Z b = simp_count (fun x => n x + n' x)%Z b.
Proof.
  intros P P' b. pose proof (P bWN). pose proof (P bC). pose proof (P bLIN). pose proof (P bSE). pose proof (P bPER). pose proof (P b).
  pose proof (P' bWN). pose proof (P' bC). pose proof (P' bLIN). pose proof (P' bSE). pose proof (P' bPER). pose proof (P' b).
  unfold simp_count. destruct b; counts.
Qed.
Lemma simp_count_nonneg n : (forall b, 0 <= n b)%Z -> forall b, (0 <= simp_count n b <= n b)%Z.
Proof. intros P b. pose proof (P b). pose proof (P bSE). pose proof (P bC). unfold simp_count. destruct b; counts. Qed.
Lemma simp_count_pos n b : (forall b, 0 <= n b)%Z -> is_sigmoid b = true -> simp_count n b = n b.
Proof. intros P S. unfold simp_count. destruct b; try discriminate S; destruct (_ <? _)%Z; reflexivity. Qed.
Lemma simp_count_factor n : (forall b, 0 <= n b)%Z -> (exists b, is_sigmoid b = false /\ 0 < n b)%Z -> exists b, is_sigmoid b = false /\ (0 < simp_count n b)%Z.
Proof.
  intros P (b & S & H). destruct (Z.ltb_spec 0 (n bWN)) as [W|W]; [exists bWN; split; [reflexivity|]; unfold simp_count; counts|].
  destruct (Z.ltb_spec 0 (n bPER)); [exists bPER; split; [reflexivity|]; unfold simp_count; counts|].
  destruct (Z.ltb_spec 0 (n bSE)); [exists bSE; split; [reflexivity|]; unfold simp_count; counts|].
  destruct (Z.ltb_spec 0 (n bLIN)); [exists bLIN; split; [reflexivity|]; unfold simp_count; counts|].
  exists bC. split; [reflexivity|]. destruct b; try discriminate S; try lia. unfold simp_count. counts.
Qed.
Lemma simp_prod_count c b : wf_counter c -> cget (simp_base_prod c 0) b = simp_count (cget c) b.
Proof.
  intros W. assert (NN : nonneg c) by (intros x; apply wf_nonneg, W). pose proof (cget_simp_prod true c b 0 (wf_nodup _ W) NN) as E. cbn [simp_base] in E. rewrite E. unfold simp_count.
  destruct (0 <? cget c bWN)%Z eqn:EW; [reflexivity|]. apply Z.ltb_ge in EW. pose proof (NN bWN). destruct b; try reflexivity. destruct (Z.ltb_spec 0 (cget c bC)) as [Hc|Hc]; [|reflexivity].
  destruct (lone_c c 0) eqn:L.
  - apply lone_c_spec in L; [|apply wf_nodup, W|exact NN|lia]. destruct L as (_ & A & B & D). counts.
  - destruct ((cget c bLIN <=? 0) && (cget c bSE <=? 0) && (cget c bPER <=? 0))%Z eqn:Z; [exfalso|reflexivity].
    apply andb_prop in Z as [Z Z3]. apply andb_prop in Z as [Z1 Z2]. apply Z.leb_le in Z1, Z2, Z3.
    assert (T : lone_c c 0 = true); [|congruence]. apply lone_c_spec; [apply wf_nodup, W|exact NN|lia|].
    pose proof (NN bLIN). pose proof (NN bSE). pose proof (NN bPER). repeat split; lia.
Qed.
