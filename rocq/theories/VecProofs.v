(** Proofs about generated data and drawn curves. *)
From Coq Require Import List ZArith QArith Bool Lia Lqa.
From Verif Require Import Py VecModel VecSpec.
Import ListNotations.
Local Open Scope list_scope.
Local Close Scope Q_scope.

Lemma to_Q_add a b : (to_Q (nadd a b) == to_Q a + to_Q b)%Q.
Proof. destruct a, b; cbn [nadd arith to_Q]; try reflexivity; rewrite inject_Z_plus; reflexivity. Qed.
Lemma to_Q_sub a b : (to_Q (nsub a b) == to_Q a - to_Q b)%Q.
Proof.
  destruct a, b; cbn [nsub arith to_Q]; try reflexivity. unfold Z.sub, Qminus. rewrite inject_Z_plus, inject_Z_opp. reflexivity.
Qed.
Lemma to_Q_mul a b : (to_Q (nmul a b) == to_Q a * to_Q b)%Q.
Proof. destruct a, b; cbn [nmul arith to_Q]; try reflexivity; rewrite inject_Z_mult; reflexivity. Qed.

Lemma nltb_lt a b : nltb a b = true <-> (to_Q a < to_Q b)%Q.
Proof.
  unfold nltb. destruct (to_Q a ?= to_Q b)%Q eqn:E; split; intro H; try discriminate; try reflexivity.
  - rewrite <- Qeq_alt in E. lra.
  - rewrite <- Qlt_alt in E. exact E.
  - rewrite <- Qgt_alt in E. lra.
Qed.
Lemma nltb_ge a b : nltb a b = false <-> (to_Q b <= to_Q a)%Q.
Proof.
  destruct (nltb a b) eqn:E; split; intro H; try discriminate; try reflexivity.
  - apply nltb_lt in E. lra.
  - apply Qnot_lt_le. intro L. apply nltb_lt in L. congruence.
Qed.

(** ** Conversions *)
Lemma truncate_whole q : (exists z, (q == inject_Z z)%Q) <-> (inject_Z (truncate q) == q)%Q.
Proof.
  split.
  - intros [z H]. unfold truncate. destruct q as [n d]. unfold Qeq, inject_Z in *. cbn in *.
    rewrite Z.mul_1_r in H. rewrite H. rewrite Z.quot_mul; lia.
  - intros H. exists (truncate q). symmetry. exact H.
Qed.
Lemma cast_float v : (to_Q (cast true v) == to_Q v)%Q.
Proof. reflexivity. Qed.
Lemma cast_int v : cast false v = Int (match v with Int z => z | Float q => truncate q end).
Proof. destruct v; reflexivity. Qed.
Lemma cast_exact b v : (to_Q (cast b v) == to_Q v)%Q <-> b = true \/ whole v.
Proof.
  destruct b.
  - split; auto. intros _. reflexivity.
  - rewrite cast_int. unfold whole. destruct v as [z | q]; cbn.
    + split; [intros _; right; exists z; reflexivity | reflexivity].
    + split; [intro H; right; exists (truncate q); symmetry; exact H | intros [H | H]; [discriminate | apply truncate_whole, H]].
Qed.

Lemma asarray_values X : length (asarray X) = length X
  /\ forall i x, nth_error X i = Some x -> exists x', nth_error (asarray X) i = Some x' /\ (to_Q x' == to_Q x)%Q.
Proof.
  unfold asarray. split; [apply map_length|]. intros i x H. exists (cast (existsb is_float X) x).
  split; [apply map_nth_error, H|]. destruct (existsb is_float X) eqn:E; [reflexivity|].
  apply cast_exact. right. destruct x as [z | q]; [exists z; reflexivity|].
  exfalso. rewrite <- not_true_iff_false in E. apply E, existsb_exists. exists (Float q). split; [eapply nth_error_In, H | reflexivity].
Qed.

(** ** Data *)
Lemma map2_length {A B C} (f : A -> B -> C) xs ys : length xs = length ys -> length (map2 f xs ys) = length xs.
Proof. revert ys. induction xs; intros [|y ys] H; try discriminate; cbn; auto. Qed.
Lemma map2_nth {A B C} (f : A -> B -> C) xs ys i x y : nth_error xs i = Some x -> nth_error ys i = Some y ->
  nth_error (map2 f xs ys) i = Some (f x y).
Proof.
  revert ys i. induction xs; intros [|b ys] [|i]; cbn; intros H1 H2; try discriminate; [congruence | eauto].
Qed.

Lemma generate_ok f X w nw noise X' Y : generate f X w nw noise = Ok (X', Y) -> length noise = length X ->
  X' = asarray X /\ length Y = length X' /\ exists x0, nth_error X' 0 = Some x0 /\
  forall i x e, nth_error X' i = Some x -> nth_error noise i = Some e ->
    exists y, nth_error Y i = Some y /\ (to_Q y == to_Q (cast (is_float (f x0)) (f x)) * to_Q w + e * to_Q nw)%Q.
Proof.
  unfold generate, vectorize. intros H L. destruct (asarray X) as [|x0 xs] eqn:E; [discriminate|]. cbn [bind] in H.
  assert (LA : length (asarray X) = length X) by apply asarray_values. rewrite E in LA.
  assert (EX : X' = x0 :: xs) by congruence.
  assert (EY : Y = map2 nadd (map (fun y => nmul y w) (map (fun y => cast (is_float (f x0)) (f y)) (x0 :: xs)))
                     (map (fun e => nmul (Float e) nw) noise)) by congruence.
  subst X' Y. clear H. split; [reflexivity|]. split.
  - rewrite map2_length; rewrite !map_length; [reflexivity | lia].
  - exists x0. split; [reflexivity|]. intros i x e Hx He.
    eexists. split.
    + apply map2_nth; [apply map_nth_error, (map_nth_error (fun y => cast (is_float (f x0)) (f y)) i (x0 :: xs) Hx) | apply map_nth_error, He].
    + rewrite to_Q_add, !to_Q_mul. reflexivity.
Qed.

Lemma generate_raises f X w nw noise e : generate f X w nw noise = Raise e <-> X = [] /\ e = EValueError.
Proof.
  unfold generate, vectorize. destruct (asarray X) as [|x xs] eqn:E.
  - destruct X; [|discriminate]. cbn. split; [intros [= <-]; auto | intros [_ ->]; reflexivity].
  - cbn [bind]. split; [discriminate | intros [-> _]; discriminate].
Qed.

Lemma nth_noise {A B} (X : list A) (noise : list B) i x : length noise = length X -> nth_error X i = Some x ->
  exists e, nth_error noise i = Some e.
Proof.
  intros L H. destruct (nth_error noise i) as [e|] eqn:E; [eauto|]. exfalso.
  apply nth_error_None in E. assert (i < length X) by (apply nth_error_Some; congruence). lia.
Qed.

Lemma generate_exact f X w nw noise X' Y : length noise = length X -> ~ (to_Q w == 0)%Q -> generate f X w nw noise = Ok (X', Y) ->
  values_with_noise f X' w nw noise Y
  <-> (exists x, nth_error X' 0 = Some x /\ is_float (f x) = true) \/ (forall x, In x X' -> whole (f x)).
Proof.
  intros L W H. destruct (generate_ok _ _ _ _ _ _ _ H L) as [-> [LY [x0 [H0 V]]]].
  assert (LA : length noise = length (asarray X)) by (rewrite L; symmetry; apply asarray_values).
  split.
  - intros [_ HV]. destruct (is_float (f x0)) eqn:F; [left; eauto|]. right. intros x Hx.
    apply In_nth_error in Hx. destruct Hx as [i Hi]. destruct (nth_noise _ _ _ _ LA Hi) as [e He].
    destruct (HV _ _ _ Hi He) as [y [Hy E1]]. destruct (V _ _ _ Hi He) as [y' [Hy' E2]].
    assert (y' = y) by congruence. subst y'. rewrite E1 in E2.
    assert (E3 : ((to_Q (f x) - to_Q (cast false (f x))) * to_Q w == 0)%Q) by lra.
    apply Qmult_integral in E3. destruct E3 as [E3 | E3]; [|contradiction].
    assert (E4 : (to_Q (cast false (f x)) == to_Q (f x))%Q) by lra.
    apply cast_exact in E4. destruct E4 as [E4 | E4]; [discriminate | exact E4].
  - intros D. split; [exact LY|]. intros i x e Hi He. destruct (V _ _ _ Hi He) as [y [Hy E]]. exists y. split; [exact Hy|].
    rewrite E. assert (C : (to_Q (cast (is_float (f x0)) (f x)) == to_Q (f x))%Q).
    { apply cast_exact. destruct D as [[x1 [H1 F]] | D]; [left; congruence | right; apply D; eapply nth_error_In, Hi]. }
    rewrite C. reflexivity.
Qed.

(** The first value an integer: what the data are then. *)
Lemma generate_truncated f X w nw noise X' Y x0 : length noise = length X -> generate f X w nw noise = Ok (X', Y) ->
  nth_error X' 0 = Some x0 -> is_float (f x0) = false ->
  forall i x e, nth_error X' i = Some x -> nth_error noise i = Some e -> exists y z, nth_error Y i = Some y
    /\ (to_Q y == inject_Z z * to_Q w + e * to_Q nw)%Q
    /\ ((0 <= to_Q (f x))%Q -> (inject_Z z <= to_Q (f x) < inject_Z z + 1)%Q)
    /\ ((to_Q (f x) <= 0)%Q -> (inject_Z z - 1 < to_Q (f x) <= inject_Z z)%Q).
Proof.
  intros L H H0 F i x e Hi He. destruct (generate_ok _ _ _ _ _ _ _ H L) as [-> [LY [x1 [H1 V]]]].
  assert (x1 = x0) by congruence. subst x1. destruct (V _ _ _ Hi He) as [y [Hy E]]. rewrite F, cast_int in E.
  exists y, (match f x with Int z => z | Float q => truncate q end). split; [exact Hy|]. split; [exact E|].
  destruct (f x) as [z | q]; cbn [to_Q]; [split; intro; lra|].
  unfold truncate. destruct q as [n d]. unfold Qle, Qlt, inject_Z. cbn. rewrite ?Z.mul_1_r, ?Pos.mul_1_r.
  pose proof (Z.quot_rem' n (Zpos d)) as QR. split; intro S.
  - pose proof (Z.rem_bound_pos n (Zpos d)). nia.
  - pose proof (Z.rem_bound_pos (- n) (Zpos d)). rewrite Z.rem_opp_l in H2 by lia. nia.
Qed.

(** ** The functions with changes *)
Lemma cp_changes f1 f2 cp lu : changes_at f1 f2 (to_Q cp) (lu = true) (to_Q (f1 cp) - to_Q (f2 cp)) (cp_f f1 f2 cp lu).
Proof.
  intro x. unfold cp_f. destruct (nltb x cp) eqn:E.
  - apply nltb_lt in E. destruct lu; repeat split; intros; try lra; reflexivity.
  - apply nltb_ge in E. destruct lu; repeat split; intros; try lra; try congruence; try reflexivity.
    rewrite to_Q_add, to_Q_sub. ring.
Qed.

Lemma cw_changes f1 f2 s e lu : (to_Q s <= to_Q e)%Q ->
  changes_in f1 f2 (to_Q s) (to_Q e) (lu = true) (to_Q (f1 s) - to_Q (f2 s))
    ((to_Q (f2 e) + (to_Q (f1 s) - to_Q (f2 s))) - to_Q (f1 e)) (cw_f f1 f2 s e lu).
Proof.
  intros O x. unfold cw_f. assert (SE : nltb e s = false) by (apply nltb_ge, O). rewrite SE.
  destruct (nltb x s) eqn:E.
  - apply nltb_lt in E. destruct lu; cbn [orb]; repeat split; intros; try lra; reflexivity.
  - apply nltb_ge in E. destruct (nltb e x) eqn:E'.
    + apply nltb_lt in E'. destruct lu; cbn [orb]; repeat split; intros; try lra; try congruence; try reflexivity.
      rewrite to_Q_add, to_Q_sub, to_Q_add, to_Q_sub. ring.
    + apply nltb_ge in E'. destruct lu; cbn [orb]; repeat split; intros; try lra; try congruence; try reflexivity.
      rewrite to_Q_add, to_Q_sub. ring.
Qed.

(** ** Curves *)
Lemma filter_column {A} (curves : list A) a v : map snd (filter (fun c => Nat.eqb (fst c) v) (combine (seq a (length curves)) curves))
  = if (a <=? v) then firstn 1 (skipn (v - a) curves) else [].
Proof.
  revert a. induction curves as [|c cs IH]; intro a.
  - cbn. rewrite skipn_nil. destruct (a <=? v); reflexivity.
  - cbn [length seq combine filter fst]. destruct (Nat.eqb_spec a v) as [-> | N].
    + cbn [map snd]. rewrite IH. rewrite Nat.leb_refl, Nat.sub_diag. replace (S v <=? v) with false by (symmetry; apply Nat.leb_gt; lia). reflexivity.
    + rewrite IH. destruct (Nat.leb_spec a v) as [L | L].
      * replace (S a <=? v) with true by (symmetry; apply Nat.leb_le; lia). replace (v - a) with (S (v - S a)) by lia. reflexivity.
      * replace (S a <=? v) with false by (symmetry; apply Nat.leb_gt; lia). reflexivity.
Qed.

Lemma first_columns {A} (l : list A) k d : k + d <= length l ->
  flat_map (fun v => map snd (filter (fun c => Nat.eqb (fst c) v) (combine (seq 1 (length l)) l))) (seq (S d) k) = firstn k (skipn d l).
Proof.
  revert d. induction k as [|k IH]; intros d H; [reflexivity|]. cbn [seq flat_map]. rewrite filter_column, IH by lia.
  replace (1 <=? S d) with true by reflexivity. replace (S d - 1) with d by lia.
  assert (E : exists a r, skipn d l = a :: r).
  { destruct (skipn d l) as [|a r] eqn:E; [|eauto]. exfalso. assert (length (skipn d l) = 0) by (rewrite E; reflexivity). rewrite skipn_length in *. lia. }
  destruct E as [a [r E]]. rewrite E. cbn [firstn app]. f_equal. f_equal.
  change (skipn (S d) l) with (skipn (1 + d) l). replace r with (skipn 1 (skipn d l)) by (rewrite E; reflexivity).
  clear. revert d. induction l as [|x l IH]; intros [|d]; try reflexivity. cbn [skipn]. destruct l; [destruct d; reflexivity|]. exact (IH d).
Qed.

Lemma sampled {A} (curves : list A) : sampleCurves curves = firstn (length curves - 1) curves.
Proof.
  unfold sampleCurves. destruct curves as [|c cs]; [reflexivity|].
  replace (skipn 1 (seq 0 (length (c :: cs)))) with (seq 1 (length (c :: cs) - 1)).
  - rewrite (first_columns (c :: cs) (length (c :: cs) - 1) 0); [reflexivity | cbn; lia].
  - cbn. rewrite Nat.sub_0_r. reflexivity.
Qed.

(** ** Witnesses *)
Definition steps (x : num) : num := Int 0.
(** x / 2 is a float in python, also of ints. *)
Definition halves (x : num) : num := Float (to_Q x / 2).
Lemma cut_off : exists X f1 f2 cp X' Y,
  generate_changepoint_data X f1 f2 cp (Int 1) (Int 0) false (repeat 0%Q (length X)) = Ok (X', Y)
  /\ ~ exists g, changes_at f1 f2 (to_Q cp) False 0 g /\ values_with_noise g X' (Int 1) (Int 0) (repeat 0%Q (length X)) Y.
Proof.
  exists [Int 1; Int 2; Int 3], steps, halves, (Int 2). do 2 eexists. split; [vm_compute; reflexivity|].
  intros [g [G [_ V]]]. destruct (V 2 _ _ eq_refl eq_refl) as [y [[= <-] E]].
  destruct (G (Int 3)) as [_ [G2 _]]. rewrite G2 in E; [vm_compute in E; discriminate | vm_compute; discriminate | auto].
Qed.

Lemma generate_inputs f X w nw noise :
  (forall e, generate_data f X w nw noise = Raise e <-> X = [] /\ e = EValueError)
  /\ forall X' Y, generate_data f X w nw noise = Ok (X', Y) ->
     length X' = length X /\ forall i x, nth_error X i = Some x -> exists x', nth_error X' i = Some x' /\ (to_Q x' == to_Q x)%Q.
Proof.
  split; [intro e; apply generate_raises|]. intros X' Y H. unfold generate_data, generate in H.
  destruct (vectorize f (asarray X)); cbn [bind] in H; [|discriminate]. injection H as <- _. apply asarray_values.
Qed.
Lemma one_less : exists curves : list nat, sampleCurves curves <> curves.
Proof. exists [1]. discriminate. Qed.
Lemma changepoint_data f1 f2 cp lu X w nw noise : exists g,
  generate_changepoint_data X f1 f2 cp w nw lu noise = generate_data g X w nw noise
  /\ changes_at f1 f2 (to_Q cp) (lu = true) (to_Q (f1 cp) - to_Q (f2 cp)) g.
Proof. exists (cp_f f1 f2 cp lu). split; [reflexivity | apply cp_changes]. Qed.
Lemma changewindow_data f1 f2 s e lu X w nw noise : (to_Q s <= to_Q e)%Q -> exists g,
  generate_changewindow_data X f1 f2 s e w nw lu noise = generate_data g X w nw noise
  /\ changes_in f1 f2 (to_Q s) (to_Q e) (lu = true) (to_Q (f1 s) - to_Q (f2 s)) ((to_Q (f2 e) + (to_Q (f1 s) - to_Q (f2 s))) - to_Q (f1 e)) g.
Proof. intro O. exists (cw_f f1 f2 s e lu). split; [reflexivity | apply cw_changes, O]. Qed.
