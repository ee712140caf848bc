(** Names of the parameters of fitted kernels: every component name is different. *)
From Coq Require Import String Ascii Reals List Bool Arith ZArith Lia DecimalString DecimalNat.
From Verif Require Import Py KexModel KexSpec KexProofs SemModel IvModel ParModel ParSpec.
Import ListNotations.
Local Open Scope list_scope.

(** ** Strings *)
Lemma sapp_assoc (a b c : string) : ((a ++ b) ++ c = a ++ b ++ c)%string.
Proof. induction a as [|x a IH]; cbn; [reflexivity|now rewrite IH]. Qed.
Lemma sapp_nil_r (a : string) : (a ++ "" = a)%string.
Proof. induction a as [|x a IH]; cbn; [reflexivity|now rewrite IH]. Qed.
Lemma sapp_cancel (p a b : string) : (p ++ a = p ++ b)%string -> a = b.
Proof. induction p as [|x p IH]; cbn; [auto|]. intros H; injection H; auto. Qed.
Lemma seqb_prefix (p a b : string) : String.eqb (p ++ a) (p ++ b) = String.eqb a b.
Proof. induction p as [|x p IH]; cbn; [reflexivity|]. now rewrite Ascii.eqb_refl. Qed.
Fixpoint no_dot (s : string) : bool := match s with EmptyString => true | String c t => negb (Ascii.eqb c ".") && no_dot t end.
Lemma no_dot_app a b : no_dot (a ++ b) = no_dot a && no_dot b.
Proof. induction a as [|x a IH]; cbn; [reflexivity|]. rewrite IH. now rewrite andb_assoc. Qed.
Lemma dot_split a b s t : no_dot a = true -> no_dot b = true -> ((a ++ ".") ++ s = (b ++ ".") ++ t)%string -> a = b /\ s = t.
Proof.
  revert b; induction a as [|x a IH]; intros b; destruct b as [|y b]; cbn; intros A B H.
  - split; [reflexivity|]. now injection H.
  - injection H as Hx H. subst y. cbn in B. discriminate B.
  - injection H as Hx H. subst x. cbn in A. discriminate A.
  - injection H as Hx H. subst y. apply andb_true_iff in A as [_ A]. apply andb_true_iff in B as [_ B].
    destruct (IH b A B H) as [-> ->]. split; reflexivity.
Qed.

Lemma no_dot_uint d : no_dot (NilEmpty.string_of_uint d) = true.
Proof. induction d; cbn; auto. Qed.
Lemma nat_str_inj a b : nat_str a = nat_str b -> a = b.
Proof.
  unfold nat_str. intros H. assert (E : Some (Nat.to_uint a) = Some (Nat.to_uint b)) by (rewrite <- !NilEmpty.usu; now rewrite H).
  injection E as E. now apply DecimalNat.Unsigned.to_uint_inj.
Qed.
Lemma postfix_inj a b : postfix a = postfix b -> a = b.
Proof.
  destruct a as [|a], b as [|b]; cbn [postfix]; intros H; try reflexivity; try discriminate H.
  cbn in H. injection H as H. now apply nat_str_inj.
Qed.
Lemma no_dot_postfix k : no_dot (postfix k) = true.
Proof. destruct k as [|k]; [reflexivity|]. unfold postfix. rewrite no_dot_app. unfold nat_str. now rewrite no_dot_uint. Qed.

Section Names.
  Context (offset : bool).
  Inductive named : string -> Prop :=
  | named_base b : is_sigmoid b = false -> named (base_name offset b)
  | named_kind k : named (kind_name k)
  | named_change c : named (change_name c).

  Lemma no_dot_named n : named n -> no_dot n = true.
  Proof. intros [b S|k|c]; [destruct b; try discriminate S; destruct offset; reflexivity|destruct k; reflexivity|destruct c; reflexivity]. Qed.
  Lemma stem_inj n m i j : named n -> named m -> (n ++ postfix i = m ++ postfix j)%string -> n = m /\ i = j.
  Proof.
    intros N M.
    assert (D : n = m -> (n ++ postfix i = m ++ postfix j)%string -> n = m /\ i = j).
    { intros -> E. split; [reflexivity|]. apply sapp_cancel in E. now apply postfix_inj. }
    destruct N as [b S|k|c]; destruct M as [b' S'|k'|c'];
      try (destruct b; try discriminate S); try (destruct b'; try discriminate S'); try destruct k; try destruct k'; try destruct c; try destruct c';
      try (apply D; reflexivity); destruct offset; cbn; intros H; try discriminate H.
  Qed.
  Lemma component_split seen n seen' m s t : named n -> named m ->
    (component_name seen n ++ s = component_name seen' m ++ t)%string -> n = m /\ count_str seen n = count_str seen' m /\ s = t.
  Proof.
    intros N M. unfold component_name. rewrite <- !sapp_assoc. intros H. rewrite !sapp_assoc in H.
    rewrite <- (sapp_assoc n), <- (sapp_assoc m) in H. rewrite <- (sapp_assoc (n ++ _)%string), <- (sapp_assoc (m ++ _)%string) in H.
    apply dot_split in H; [|rewrite no_dot_app, no_dot_postfix, (no_dot_named _ N); reflexivity|rewrite no_dot_app, no_dot_postfix, (no_dot_named _ M); reflexivity].
    destruct H as [H ->]. apply stem_inj in H; [|exact N|exact M]. destruct H as [-> H]. auto.
  Qed.
  Lemma base_name_inj b b' : is_sigmoid b = false -> is_sigmoid b' = false -> base_name offset b = base_name offset b' -> b = b'.
  Proof. destruct b; intros S; try discriminate S; destruct b'; intros S'; try discriminate S'; destruct offset; cbn; intros H; try discriminate H; reflexivity. Qed.
  Lemma base_name_kex b e : is_sigmoid b = false -> base_name offset b <> kex_name e.
  Proof. destruct b; intros S; try discriminate S; destruct e as [[|]|[|]]; destruct offset; cbn; intros H; discriminate H. Qed.
  Lemma kex_named e : named (kex_name e).
  Proof. destruct e as [k b c|c l r]; cbn; constructor. Qed.

  (** ** Looking a name up: the last binding counts *)
  Definition look (l : list (string * R)) (s : string) : option R := dict_get String.eqb (rev l) s.
  Lemma dict_get_app (d d' : list (string * R)) s : dict_get String.eqb (d ++ d') s = match dict_get String.eqb d s with Some v => Some v | None => dict_get String.eqb d' s end.
  Proof. induction d as [|[k v] d IH]; cbn; [reflexivity|]. destruct (String.eqb k s); [reflexivity|exact IH]. Qed.
  Lemma look_app a b s : look (a ++ b) s = match look b s with Some v => Some v | None => look a s end.
  Proof. unfold look. rewrite rev_app_distr. apply dict_get_app. Qed.
  Lemma dict_get_set (d : list (string * R)) k v s : dict_get String.eqb (dict_set String.eqb d k v) s = if String.eqb k s then Some v else dict_get String.eqb d s.
  Proof.
    induction d as [|[k' v'] d IH]; cbn; [reflexivity|].
    destruct (String.eqb_spec k' k); cbn.
    - subst. destruct (String.eqb k s); reflexivity.
    - rewrite IH. destruct (String.eqb_spec k' s), (String.eqb_spec k s); subst; congruence || reflexivity.
  Qed.
  Lemma look_fold (l : list (string * R)) : forall (d : list (string * R)) s, dict_get String.eqb (fold_left (fun d nv => dict_set String.eqb d (fst nv) (snd nv)) l d) s
    = match look l s with Some v => Some v | None => dict_get String.eqb d s end.
  Proof.
    induction l as [|[k v] l IH]; intros d s; [reflexivity|]. cbn [fold_left fst snd]. rewrite IH, dict_get_set.
    change ((k, v) :: l) with ([(k, v)] ++ l). rewrite look_app. destruct (look l s); [reflexivity|]. unfold look; cbn. destruct (String.eqb k s); reflexivity.
  Qed.
  Definition under (p : string) (l : list (string * R)) : list (string * R) := map (fun nv => ((p ++ fst nv)%string, snd nv)) l.
  Lemma look_under p l s : look (under p l) (p ++ s) = look l s.
  Proof.
    unfold look, under. rewrite <- map_rev. induction (rev l) as [|[k v] r IH]; cbn; [reflexivity|]. rewrite seqb_prefix. now rewrite IH.
  Qed.
  Lemma look_other l s : (forall k v, In (k, v) l -> k <> s) -> look l s = None.
  Proof.
    unfold look. intros H. assert (H' : forall k v, In (k, v) (rev l) -> k <> s) by (intros k v I; apply in_rev in I; eauto). clear H.
    induction (rev l) as [|[k v] r IH]; [reflexivity|]. cbn. destruct (String.eqb_spec k s) as [E|E]; [exfalso; eapply H'; [left; reflexivity|exact E]|].
    apply IH. intros k' v' I. apply (H' k' v'). right. exact I.
  Qed.
  Lemma under_app p a b : under p (a ++ b) = under p a ++ under p b.
  Proof. apply map_app. Qed.
  Lemma under_under p q l : under p (under q l) = under (p ++ q) l.
  Proof. unfold under. rewrite map_map. apply map_ext. intros [k v]; cbn. now rewrite sapp_assoc. Qed.
  Lemma under_nil l : under "" l = l.
  Proof. unfold under. rewrite <- (map_id l) at 2. apply map_ext. intros [k v]; reflexivity. Qed.

  (** ** The names of a kernel are those of its parts under their component names *)
  Fixpoint parts_names (seen : list string) (l : list vkern) : list (string * R) :=
    match l with
    | [] => []
    | k :: t => under (component_name seen (vkern_name offset k)) (flat_names offset "" k) ++ parts_names (vkern_name offset k :: seen) t
    end.
  Fixpoint vsize (k : vkern) : nat :=
    match k with
    | VBase _ _ => 1
    | VAdd l | VMul l => S (fold_right (fun k n => vsize k + n) 0 l)
    | VChange _ a b _ => S (vsize a + vsize b)
    end%nat.
  Lemma flat_under_n n : forall k p, (vsize k <= n)%nat -> flat_names offset p k = under p (flat_names offset "" k).
  Proof.
    induction n as [|n IHn]; [intros k; destruct k; cbn; lia|].
    assert (L : forall p l, (fold_right (fun k n => vsize k + n) 0 l <= n)%nat -> forall seen,
      (fix go (seen : list string) (l : list vkern) : list (string * R) :=
           match l with
           | [] => []
           | k :: t => flat_names offset (p ++ component_name seen (vkern_name offset k))%string k ++ go (vkern_name offset k :: seen) t
           end) seen l = under p (parts_names seen l)).
    { intros p l. induction l as [|k l IHl]; intros Hl seen; cbn [parts_names]; [reflexivity|]. cbn [fold_right] in Hl.
      rewrite IHl by lia. rewrite (IHn k) by lia. rewrite under_app, under_under. reflexivity. }
    intros k p Hk. destruct k as [b ps|l|l|c a b ps]; cbn [flat_names]; cbn [vsize] in Hk.
    - unfold own_params, under. rewrite map_map. reflexivity.
    - rewrite (L p l) by lia. rewrite (L ""%string l) by lia. now rewrite under_nil.
    - rewrite (L p l) by lia. rewrite (L ""%string l) by lia. now rewrite under_nil.
    - rewrite !under_app. rewrite (IHn a (p ++ _)%string) by lia. rewrite (IHn b (p ++ _)%string) by lia.
      rewrite (IHn a ("" ++ _)%string) by lia. rewrite (IHn b ("" ++ _)%string) by lia. rewrite !under_under. cbn [String.append].
      f_equal; f_equal. unfold own_params, under. rewrite map_map. reflexivity.
  Qed.
  Lemma flat_under k p : flat_names offset p k = under p (flat_names offset "" k).
  Proof. now apply (flat_under_n (vsize k)). Qed.
  Lemma flat_parts l : (fix go (seen : list string) (l : list vkern) : list (string * R) :=
           match l with
           | [] => []
           | k :: t => flat_names offset ("" ++ component_name seen (vkern_name offset k))%string k ++ go (vkern_name offset k :: seen) t
           end) [] l = parts_names [] l.
  Proof. generalize (@nil string). induction l as [|k l IH]; intros seen; cbn [parts_names]; [reflexivity|]. rewrite IH, flat_under. reflexivity. Qed.
  Lemma flat_add l : flat_names offset "" (VAdd l) = parts_names [] l.
  Proof. apply flat_parts. Qed.
  Lemma flat_mul l : flat_names offset "" (VMul l) = parts_names [] l.
  Proof. apply flat_parts. Qed.
  Lemma flat_change c a b ps : flat_names offset "" (VChange c a b ps) = parts_names [] [a; b] ++ own_params "" ps.
  Proof. cbn [flat_names parts_names]. rewrite !(flat_under _ ("" ++ _)%string). cbn [String.append]. rewrite app_nil_r, <- app_assoc. reflexivity. Qed.

  Definition good_name (k : vkern) : Prop := named (vkern_name offset k).
  Lemma parts_names_keys l : forall seen k v, Forall good_name l -> In (k, v) (parts_names seen l) ->
    exists seen' n s, named n /\ k = (component_name seen' n ++ s)%string /\ (forall m, count_str seen m <= count_str seen' m)%nat.
  Proof.
    induction l as [|x l IH]; intros seen k v F I; [destruct I|]. cbn [parts_names] in I. inversion F as [|? ? Fx Fl]; subst.
    apply in_app_or in I. destruct I as [I|I].
    - unfold under in I. apply in_map_iff in I as ([s w] & E & _). injection E as <- _. exists seen, (vkern_name offset x), s. split; [exact Fx|]. split; [reflexivity|auto].
    - destruct (IH _ _ _ Fl I) as (seen' & n & s & N & E & C). exists seen', n, s. split; [exact N|]. split; [exact E|].
      intros m. specialize (C m). unfold count_str in *. cbn [filter] in C. destruct (String.eqb m (vkern_name offset x)); cbn in C; lia.
  Qed.
  Definition names_of (l : list vkern) : list string := map (vkern_name offset) l.
  (** The values under the name of a part are those of the part. *)
  Lemma look_part l1 : forall seen k l2 s, Forall good_name (l1 ++ k :: l2) ->
    look (parts_names seen (l1 ++ k :: l2)) (component_name (rev (names_of l1) ++ seen) (vkern_name offset k) ++ s) = look (flat_names offset "" k) s.
  Proof.
    induction l1 as [|x l1 IH]; intros seen k l2 s F; cbn [app parts_names names_of map rev].
    - inversion F as [|? ? Fk Fl]; subst. rewrite look_app. rewrite (look_other (parts_names _ l2)); [apply look_under|].
      intros key v I E. destruct (parts_names_keys _ _ _ _ Fl I) as (seen' & n & t & N & -> & C). symmetry in E.
      apply component_split in E; [|exact Fk|exact N]. destruct E as (E & E' & _). subst n. specialize (C (vkern_name offset k)). rewrite <- E' in C.
      unfold count_str in C. cbn [filter] in C. rewrite String.eqb_refl in C. cbn in C. lia.
    - inversion F as [|? ? Fx Fl]; subst. rewrite look_app. fold (names_of l1). rewrite <- app_assoc. cbn [app]. rewrite (IH (vkern_name offset x :: seen) k l2 s Fl).
      destruct (look (flat_names offset "" k) s); [reflexivity|]. apply look_other. intros key v I E. unfold under in I. apply in_map_iff in I as ([t w] & E' & _).
      injection E' as <- _. cbn [fst] in E. apply component_split in E; [|exact Fx|apply Forall_app in Fl as [_ Fl]; inversion Fl; assumption].
      destruct E as (E & E' & _). rewrite <- E in E'. unfold count_str in E'. rewrite filter_app, app_length in E'. cbn [filter] in E'. rewrite String.eqb_refl in E'.
      cbn [length] in E'. lia.
  Qed.
  Lemma look_own l ps n : Forall good_name l -> look (parts_names [] l ++ own_params "" ps) (pname_str n) = look (own_params "" ps) (pname_str n).
  Proof.
    intros F. rewrite look_app. destruct (look (own_params "" ps) (pname_str n)); [reflexivity|]. apply look_other.
    intros k v I E. destruct (parts_names_keys _ _ _ _ F I) as (seen' & m & s & N & -> & _). unfold component_name in E. rewrite !sapp_assoc in E.
    assert (D : no_dot (pname_str n) = true) by (destruct n; reflexivity). rewrite <- E in D. rewrite !no_dot_app in D. cbn in D. rewrite !andb_false_r in D. discriminate D.
  Qed.
  Lemma look_part_change l ps s seen n t : Forall good_name l -> named n -> s = (component_name seen n ++ t)%string ->
    look (parts_names [] l ++ own_params "" ps) s = look (parts_names [] l) s.
  Proof.
    intros F N ->. rewrite look_app. rewrite (look_other (own_params _ _)); [reflexivity|]. intros k v I E. unfold own_params in I. apply in_map_iff in I as ([m w] & E' & _).
    injection E' as <- _. cbn in E. assert (D : no_dot (pname_str m) = true) by (destruct m; reflexivity). rewrite E in D. unfold component_name in D. rewrite !no_dot_app in D.
    cbn in D. rewrite !andb_false_r in D. discriminate D.
  Qed.
  (** The own parameters of a kernel are found under their names. *)
  Lemma look_params ps n : NoDup (map fst ps) -> look (own_params "" ps) (pname_str n) = dict_get pname_eqb ps n.
  Proof.
    intros ND. assert (I : forall a b, pname_str a = pname_str b -> a = b) by (intros [] [] H; try reflexivity; discriminate H).
    assert (S : forall a b, pname_eqb a b = String.eqb (pname_str a) (pname_str b)) by (intros [] []; reflexivity).
    induction ps as [|[m v] ps IH]; [reflexivity|]. inversion ND as [|? ? NI ND']; subst. change ((m, v) :: ps) with ([(m, v)] ++ ps). unfold own_params in *. rewrite map_app, look_app, IH by assumption.
    cbn. unfold look; cbn. rewrite S. destruct (String.eqb_spec (pname_str m) (pname_str n)) as [E|E].
    - apply I in E. subst m. destruct (dict_get pname_eqb ps n) eqn:D; [|reflexivity]. exfalso. apply NI. clear -D S I.
      induction ps as [|[m v] ps IH]; [discriminate D|]. cbn in D. destruct (pname_eqb m n) eqn:E; [left; cbn; rewrite S in E; apply String.eqb_eq in E; now apply I|right; now apply IH].
    - destruct (dict_get pname_eqb ps n); reflexivity.
  Qed.
  Lemma look_get_param_dict k s : dict_get String.eqb (get_param_dict offset k) (("GP_regression." ++ vkern_name offset k ++ ".") ++ s)%string = look (flat_names offset "" k) s.
  Proof. unfold get_param_dict. rewrite look_fold, flat_under, look_under. destruct (look _ s); reflexivity. Qed.
End Names.
