(** Exactly which expressions can always be described after a fit (C34). *)
From Coq Require Import Ascii String Reals Lra List Bool Arith ZArith Lia Permutation.
From Verif Require Import Py KexModel KexSpec KexProofs KernModel SemModel IvModel IvSpec IvProofs IvText ParModel ParSpec ParMatch ParMatch2 ParCov ParInv ParInv2 ParInv3 ParGroup ParComp ParSop ParSop2 ParSop3 ParProofs ParWit IvShape IvExact ParMore.
Import ListNotations.
Local Open Scope list_scope.
Notation length := Datatypes.length.

(** ** Counting *)
Lemma times_app b l l' : times b (l ++ l') = (times b l + times b l')%nat.
Proof. unfold times. now rewrite filter_app, app_length. Qed.
Lemma times_one b c : times b [c] = if base_eqb b c then 1%nat else 0%nat.
Proof. unfold times. cbn. destruct (base_eqb b c); reflexivity. Qed.
Lemma firsts_in l b : In b (firsts l) <-> In b l.
Proof.
  induction l as [|a l IH]; [reflexivity|]. cbn [firsts In]. rewrite filter_In, IH. split.
  - intros [->|[H _]]; auto.
  - intros [->|H]; [auto|]. destruct (base_eqb a b) eqn:E; [apply base_eqb_spec in E; auto|]. right. auto.
Qed.
Lemma firsts_nodup l : NoDup (firsts l).
Proof.
  induction l as [|a l IH]; [constructor|]. cbn [firsts]. constructor.
  - intros I. apply filter_In in I as [_ E]. rewrite base_eqb_refl in E. discriminate E.
  - apply NoDup_filter, IH.
Qed.
Lemma firsts_snoc l b : firsts (l ++ [b]) = if existsb (base_eqb b) l then firsts l else firsts l ++ [b].
Proof.
  induction l as [|a l IH]; [reflexivity|]. cbn [app firsts existsb]. rewrite IH. destruct (base_eqb b a) eqn:E; cbn [orb].
  - apply base_eqb_spec in E. subst a. destruct (existsb (base_eqb b) l); [reflexivity|]. rewrite filter_app. cbn [filter]. rewrite base_eqb_refl. cbn [negb]. now rewrite app_nil_r.
  - destruct (existsb (base_eqb b) l); [reflexivity|]. rewrite filter_app. cbn [filter]. destruct (base_eqb a b) eqn:E'; [apply base_eqb_spec in E'; subst; rewrite base_eqb_refl in E; discriminate E|]. reflexivity.
Qed.
Lemma exists_in b l : existsb (base_eqb b) l = true <-> In b l.
Proof. rewrite existsb_exists. split; [intros (x & I & E); apply base_eqb_spec in E; now subst|intros I; exists b; split; [exact I|apply base_eqb_refl]]. Qed.
Lemma counted_new l b : ~ In b l -> counted (l ++ [b]) = counted l ++ [(b, 1%nat)].
Proof.
  intros N. unfold counted. rewrite firsts_snoc. destruct (existsb (base_eqb b) l) eqn:E; [apply exists_in in E; contradiction|]. rewrite map_app. cbn [map]. f_equal.
  - apply map_ext_in. intros c I. rewrite times_app, times_one. apply (proj1 (firsts_in l c)) in I. destruct (base_eqb c b) eqn:C; [apply base_eqb_spec in C; subst c; exact (False_ind _ (N I))|]. f_equal. lia.
  - rewrite times_app, times_one, base_eqb_refl. replace (times b l) with 0%nat; [reflexivity|]. unfold times. clear -N. induction l as [|a l IH]; [reflexivity|]. cbn [filter]. destruct (base_eqb b a) eqn:E; [apply base_eqb_spec in E; subst; exfalso; apply N; left; reflexivity|]. apply IH. intros I. apply N. right. exact I.
Qed.
Lemma counted_old l b : In b l -> exists s1 n s2, counted l = s1 ++ (b, n) :: s2 /\ counted (l ++ [b]) = s1 ++ (b, S n) :: s2 /\ ~ In b (map fst s1) /\ ~ In b (map fst s2) /\ (0 < n)%nat.
Proof.
  intros I. pose proof (proj2 (firsts_in l b) I) as J. apply in_split in J as (l1 & l2 & E). pose proof (firsts_nodup l) as ND. rewrite E in ND. apply NoDup_remove_2 in ND.
  exists (map (fun c => (c, times c l)) l1), (times b l), (map (fun c => (c, times c l)) l2). unfold counted. rewrite firsts_snoc, (proj2 (exists_in b l) I), E, !map_app. cbn [map].
  assert (O : forall c, c <> b -> times c (l ++ [b]) = times c l).
  { intros c D. rewrite times_app, times_one. destruct (base_eqb c b) eqn:C; [apply base_eqb_spec in C; contradiction|]. lia. }
  split; [reflexivity|]. split; [|split; [|split]].
  - f_equal; [|f_equal].
    + apply map_ext_in. intros c Ic. rewrite O; [reflexivity|]. intros ->. apply ND, in_or_app. left. exact Ic.
    + f_equal. rewrite times_app, times_one, base_eqb_refl. lia.
    + apply map_ext_in. intros c Ic. rewrite O; [reflexivity|]. intros ->. apply ND, in_or_app. right. exact Ic.
  - rewrite map_map. cbn [fst]. rewrite map_id. intros Ic. apply ND, in_or_app. left. exact Ic.
  - rewrite map_map. cbn [fst]. rewrite map_id. intros Ic. apply ND, in_or_app. right. exact Ic.
  - unfold times. assert (F : In b (filter (base_eqb b) l)) by (apply filter_In; split; [exact I|apply base_eqb_refl]). destruct (filter (base_eqb b) l); [destruct F|cbn; lia].
Qed.

(** ** Sigmoids of monomials *)
Definition sigs (m : mono) : mono := filter (fun e => sigmoid_key (fst e)) m.
Definition skeys (l : list base) : list base := filter is_sigmoid l.
Lemma sigs_app m n : sigs (m ++ n) = sigs m ++ sigs n.
Proof. apply filter_app. Qed.
Lemma skeys_app m n : skeys (m ++ n) = skeys m ++ skeys n.
Proof. apply filter_app. Qed.
Lemma fold_sigs m : forall acc, fold_left gstep (sigs m) acc = fold_left gstep m acc.
Proof.
  induction m as [|e m IH]; intros acc; [reflexivity|]. unfold sigs in *. cbn [filter fold_left]. destruct (sigmoid_key (fst e)) eqn:S; [cbn [fold_left]; apply IH|].
  rewrite IH. f_equal. unfold gstep. now rewrite S.
Qed.
Lemma group_sigs m : group (sigs m) = group m.
Proof. apply fold_sigs. Qed.
Definition lengths (d : params) : list (pkey * nat) := map (fun e => (fst e, length (snd e))) d.
Definition as_keys (s : list (base * nat)) : list (pkey * nat) := map (fun bn => (KBase (fst bn), snd bn)) s.
Lemma keys_lengths d s : lengths d = as_keys s -> map fst d = map KBase (map fst s).
Proof.
  intros E. assert (X : map fst (lengths d) = map fst (as_keys s)) by (now rewrite E). unfold lengths, as_keys in X. rewrite !map_map in X. cbn [fst] in X. rewrite map_map. exact X.
Qed.
Lemma kbase_in b l : In (KBase b) (map KBase l) <-> In b l.
Proof. rewrite in_map_iff. split; [intros (x & [= ->] & I); exact I|intros I; exists b; auto]. Qed.
(** Dictionaries with these lengths are the groups of some monomials. *)
Lemma ungroup l : Forall (fun b => is_sigmoid b = true) l -> forall d, lengths d = as_keys (counted l) ->
  exists s, map fst s = map KBase l /\ group s = d /\ forall k p, In (k, p) s -> exists ps, In (k, ps) d /\ In p ps.
Proof.
  induction l as [|b l IH] using rev_ind; intros F d E.
  - destruct d; [|discriminate E]. exists []. split; [reflexivity|]. split; [reflexivity|]. intros k p [].
  - apply Forall_app in F as [F Fb]. inversion Fb as [|? ? Sb _]; subst.
    assert (SB : sigmoid_key (KBase b) = true) by exact Sb.
    destruct (in_dec base_eq_dec b l) as [I|I].
    + destruct (counted_old l b I) as (s1 & n & s2 & E1 & E2 & N1 & N2 & Pn). rewrite E2 in E. unfold as_keys in E. rewrite map_app in E. cbn [map fst snd] in E.
      unfold lengths in E. apply map_eq_app in E as (d1 & d0 & -> & Ed1 & Ed0). destruct d0 as [|[k w] d2]; [discriminate Ed0|]. cbn [map fst snd] in Ed0.
      injection Ed0 as Ek Lw Ed2. subst k. assert (Wn : w <> []) by (intros ->; discriminate Lw). destruct (exists_last Wn) as (w' & q & ->). rewrite app_length in Lw. cbn [length] in Lw.
      destruct (IH F (d1 ++ (KBase b, w') :: d2)) as (s & Es & G & Hs).
      { rewrite E1. unfold as_keys, lengths. rewrite !map_app. cbn [map fst snd]. rewrite Ed1, Ed2. f_equal. f_equal. f_equal. lia. }
      assert (ND1 : ~ In (KBase b) (map fst d1)). { rewrite (keys_lengths d1 s1 Ed1). rewrite kbase_in. exact N1. }
      exists (s ++ [(KBase b, q)]). split; [rewrite !map_app, Es; reflexivity|]. split.
      * rewrite group_snoc, G. unfold gstep. cbn [fst snd]. rewrite SB. apply append_old, ND1.
      * intros k p J. apply in_app_or in J as [J|[J|[]]].
        -- destruct (Hs k p J) as (ps & Jd & Jp). apply in_app_or in Jd as [Jd|[Jd|Jd]].
           ++ exists ps. split; [apply in_or_app; left; exact Jd|exact Jp].
           ++ assert (k = KBase b) by congruence. assert (ps = w') by congruence. subst. exists (w' ++ [q]). split; [apply in_or_app; right; left; reflexivity|apply in_or_app; left; exact Jp].
           ++ exists ps. split; [apply in_or_app; right; right; exact Jd|exact Jp].
        -- assert (k = KBase b) by congruence. assert (p = q) by congruence. subst. exists (w' ++ [q]). split; [apply in_or_app; right; left; reflexivity|apply in_or_app; right; left; reflexivity].
    + rewrite counted_new in E by exact I. unfold as_keys in E. rewrite map_app in E. cbn [map fst snd] in E. unfold lengths in E. apply map_eq_app in E as (d1 & d0 & -> & Ed1 & Ed0).
      destruct d0 as [|[k w] d2]; [discriminate Ed0|]. destruct d2; [|discriminate Ed0]. cbn [map fst snd] in Ed0. injection Ed0 as Ek Lw. subst k. destruct w as [|q [|]]; try discriminate Lw.
      destruct (IH F d1 Ed1) as (s & Es & G & Hs). exists (s ++ [(KBase b, q)]). split; [rewrite !map_app, Es; reflexivity|]. split.
      * rewrite group_snoc, G. unfold gstep. cbn [fst snd]. rewrite SB. apply append_new. rewrite (keys_lengths d1 _ Ed1), kbase_in. intros J. apply in_map_iff in J as ([c n] & Ec & J). cbn in Ec. subst c.
        unfold counted in J. apply in_map_iff in J as (c & Ec & J). injection Ec as -> _. apply I, firsts_in, J.
      * intros k p J. apply in_app_or in J as [J|[J|[]]].
        -- destruct (Hs k p J) as (ps & Jd & Jp). exists ps. split; [apply in_or_app; left; exact Jd|exact Jp].
        -- assert (k = KBase b) by congruence. assert (p = q) by congruence. subst. exists [q]. split; [apply in_or_app; right; left; reflexivity|left; reflexivity].
Qed.
Lemma group_lengths m : lengths (group m) = as_keys (counted (skeys (factors m))).
Proof.
  induction m as [|[k p] m IH] using rev_ind; [reflexivity|]. rewrite group_snoc, factors_app, skeys_app. unfold gstep. cbn [fst snd]. unfold factors at 2. cbn [map concat]. unfold factor. cbn [fst]. rewrite app_nil_r.
  destruct k as [b| | |]; cbn [sigmoid_key]; try (cbn [skeys filter]; rewrite app_nil_r; exact IH). unfold skeys at 2. cbn [filter].
  destruct (is_sigmoid b) eqn:S; [|rewrite app_nil_r; exact IH]. pose proof (keys_lengths _ _ IH) as K.
  destruct (in_dec base_eq_dec b (skeys (factors m))) as [I|I].
  - destruct (counted_old _ b I) as (s1 & n & s2 & E1 & E2 & N1 & N2 & Pn). rewrite E1 in IH, K. rewrite E2. unfold lengths, as_keys in IH. rewrite map_app in IH. apply map_eq_app in IH as (d1 & d0 & Eg & Ed1 & Ed0).
    destruct d0 as [|[k w] d2]; [discriminate Ed0|]. cbn [map fst snd] in Ed0. injection Ed0 as Ek Lw Ed2. subst k. rewrite Eg.
    rewrite append_old; [|rewrite (keys_lengths d1 s1 Ed1), kbase_in; exact N1]. unfold lengths, as_keys. rewrite !map_app. cbn [map fst snd]. rewrite Ed1, Ed2, app_length. cbn [length]. f_equal. f_equal. f_equal. lia.
  - rewrite counted_new by exact I. rewrite append_new.
    + unfold lengths, as_keys in *. rewrite !map_app, IH. reflexivity.
    + rewrite K, kbase_in. intros J. apply in_map_iff in J as ([c n] & Ec & J). cbn in Ec. subst c. unfold counted in J. apply in_map_iff in J as (c & Ec & J). injection Ec as -> _. apply I, firsts_in, J.
Qed.
Lemma lengths_shape d s : (forall k ps, In (k, ps) d -> sigmoid_key k = true) -> (lengths d = as_keys s <-> shape d = s).
Proof.
  unfold lengths, as_keys, shape. revert s. induction d as [|[k ps] d IH]; intros s H; [destruct s; cbn; split; congruence|]. cbn [map flat_map fst snd]. pose proof (H k ps (or_introl eq_refl)) as Sk.
  destruct k as [b| | |]; try discriminate Sk. cbn [sigmoid_key] in Sk. rewrite Sk. cbn [app]. specialize (IH (tl s) (fun k ps I => H k ps (or_intror I))). destruct s as [|[c n] s]; [cbn; split; discriminate|]. cbn [map tl fst snd] in *. split.
  - intros E. injection E as -> <- E. f_equal. apply IH, E.
  - intros E. injection E as -> <- E. f_equal. apply IH, E.
Qed.
Lemma group_shape m : shape (group m) = counted (skeys (factors m)).
Proof. apply lengths_shape; [intros k ps I; apply (proj2 (group_facts m) k ps I)|apply group_lengths]. Qed.
Lemma sg_shape d : shape (sg d) = shape d.
Proof. exact (only_shape d). Qed.
Lemma sg_sigmoidals fixed d : sigmoidals fixed (sg d) = sigmoidals fixed d.
Proof. exact (only_sigmoidals fixed d). Qed.

(** ** Choices *)
Lemma choices_in {A} (ls : list (list (list A))) n : In n (choices ls) <-> exists xs, Forall2 (fun x l => In x l) xs ls /\ n = concat xs.
Proof.
  revert n. induction ls as [|l ls IH]; intros n.
  - split; [intros [<-|[]]; exists []; split; [constructor|reflexivity]|]. intros (xs & F & ->). inversion F; subst. left. reflexivity.
  - unfold choices in *. cbn [fold_right]. rewrite in_concat. split.
    + intros (y & Hy & Hn). apply in_map_iff in Hy as (m & <- & Im). apply in_map_iff in Hn as (n' & <- & In'). apply IH in In' as (xs & F & ->). exists (m :: xs). split; [constructor; assumption|reflexivity].
    + intros (xs & F & ->). inversion F as [|x ? xs' ? Ix F']; subst. eexists. split; [apply in_map_iff; exists x; split; [reflexivity|exact Ix]|]. apply in_map_iff. exists (concat xs'). split; [reflexivity|]. apply IH. exists xs'. auto.
Qed.
Lemma concat_sigs xs : sigs (concat xs) = concat (map sigs xs).
Proof. induction xs as [|x xs IH]; [reflexivity|]. cbn [concat map]. now rewrite sigs_app, IH. Qed.
Lemma concat_skeys xs : skeys (concat xs) = concat (map skeys xs).
Proof. induction xs as [|x xs IH]; [reflexivity|]. cbn [concat map]. now rewrite skeys_app, IH. Qed.
Lemma none_sigmoid l : (forall b, In b l -> is_sigmoid b = false) -> skeys l = [].
Proof. unfold skeys. induction l as [|b l IH]; intros H; [reflexivity|]. cbn [filter]. rewrite (H b (or_introl eq_refl)). apply IH. intros c I. apply H. right. exact I. Qed.
