(** Proofs about fit_kex (C84). *)
From Coq Require Import String List Bool Arith ZArith Lia.
From Verif Require Import Py KexModel GpModel GpSpec FitModel FitSpec.
Import ListNotations.
Local Open Scope list_scope.

Lemma element_column {A} (a : array A) n : shape a = [n] -> forall i j,
  element (mk_array (shape a ++ [1]) (elements a)) [i; j] = if j =? 0 then element a [i] else None.
Proof.
  intros E i j. unfold element. cbn [shape elements]. rewrite E. cbn [app position]. destruct (Nat.ltb_spec i n).
  - destruct j as [|j]; cbn [Nat.eqb]; [cbn; f_equal; lia|]. destruct (Nat.ltb_spec (S j) 1); [lia|reflexivity].
  - destruct (j =? 0); reflexivity.
Qed.
Lemma as_column_vector {A} (a : array A) n : shape a = [n] -> column_of a (as_column a).
Proof.
  intros E. exists n. split; [exact E|]. unfold as_column. rewrite E. cbn [Datatypes.length Nat.eqb]. split; [reflexivity|].
  intros i j. rewrite <- (element_column a n E). rewrite E. reflexivity.
Qed.
Lemma as_column_id {A} (a : array A) : Datatypes.length (shape a) <> 1 -> as_column a = a.
Proof. intros H. unfold as_column. destruct (Nat.eqb_spec (Datatypes.length (shape a)) 1); [contradiction|reflexivity]. Qed.
Lemma as_column_data {A} (a : array A) : regression_data a (as_column a).
Proof.
  destruct (Nat.eqb_spec (Datatypes.length (shape a)) 1) as [E|E].
  - right. destruct (shape a) as [|n [|m t]] eqn:S; try discriminate. apply as_column_vector with n, S.
  - left. split; [exact E|apply as_column_id, E].
Qed.
(** The column of a vector is unique, if it has as many elements as its shape says. *)
Lemma nth_error_ext {A} (l m : list A) : Datatypes.length l = Datatypes.length m -> (forall i, i < Datatypes.length l -> nth_error l i = nth_error m i) -> l = m.
Proof.
  revert m. induction l as [|a l IH]; intros [|b m] L H; try discriminate; [reflexivity|]. injection L as L.
  assert (H0 := H 0 ltac:(cbn; lia)). injection H0 as ->. f_equal. apply IH; [exact L|]. intros i Hi. apply (H (S i)). cbn; lia.
Qed.
Lemma column_unique {A} (v c : array A) : column_of v c -> Datatypes.length (elements v) = fold_right Nat.mul 1 (shape v) ->
  Datatypes.length (elements c) = fold_right Nat.mul 1 (shape c) -> c = as_column v.
Proof.
  intros (n & Ev & Ec & H) Lv Lc. rewrite Ev in Lv. rewrite Ec in Lc. cbn in Lv, Lc.
  assert (X : elements c = elements v).
  { apply nth_error_ext; [lia|]. intros i Hi. specialize (H i 0). unfold element in H. rewrite Ev, Ec in H. cbn [position Nat.eqb] in H.
    destruct (Nat.ltb_spec i n); [|lia]. change (0 <? 1) with true in H. cbv iota in H.
    replace ((0 * n + i) * 1 + 0) with i in H by lia. replace (0 * n + i) with i in H by lia. exact H. }
  destruct c as [sc ec]. cbn in *. subst. unfold as_column. rewrite Ev. reflexivity.
Qed.

Section FitKex.
  Context {W P A V C T Sc : Type} (tv : V) (build : W -> array A -> array A -> kex -> W * res P)
          (optimise : W -> P -> Z -> options V -> W * (P * res unit)) (offset : bool).
  Notation fit_kex := (fit_kex (C := C) (Sc := Sc) tv build optimise offset).

  Lemma fit_kex_columns w X Y X' Y' k r score name kw :
    (X' = X \/ column_of X X' /\ consistent X /\ consistent X') -> (Y' = Y \/ column_of Y Y' /\ consistent Y /\ consistent Y') ->
    fit_kex w X Y k r score name kw = fit_kex w X' Y' k r score name kw.
  Proof.
    assert (I : forall a : array A, as_column (as_column a) = as_column a).
    { intros a. unfold as_column. destruct (Nat.eqb_spec (Datatypes.length (shape a)) 1) as [E|E]; cbn [shape].
      - rewrite app_length, E. reflexivity.
      - destruct (Nat.eqb_spec (Datatypes.length (shape a)) 1); [contradiction|reflexivity]. }
    intros HX HY. unfold FitModel.fit_kex. cbv zeta.
    assert (EX : as_column X' = as_column X) by (destruct HX as [-> |(H & L & L')]; [reflexivity|rewrite (column_unique _ _ H L L'); apply I]).
    assert (EY : as_column Y' = as_column Y) by (destruct HY as [-> |(H & L & L')]; [reflexivity|rewrite (column_unique _ _ H L L'); apply I]).
    rewrite EX, EY. reflexivity.
  Qed.

  Lemma fit_kex_ok w X Y k r score name kw w' m : fit_kex w X Y k r score name kw = (w', Ok m) ->
    exists e n X' Y' w1 p p' s,
      k = inr e /\ r = Some n /\ regression_data X X' /\ regression_data Y Y'
      /\ build w X' Y' (initialise offset e) = (w1, Ok p)
      /\ optimise w1 p n (mk_options (Some tv) (lookup "robust" kw) (lookup "optimiser" kw) (without ["optimiser"; "robust"]%string kw)) = (w', (p', Ok tt))
      /\ score p' = Ok s
      /\ kernel_expression m = initialise offset e /\ restarts m = Some n /\ model m = Some p' /\ cached_utility m = Some (s, name)
      /\ forall canonical describe, snd (interpret (T := T) canonical describe m) = description canonical describe (initialise offset e) (Some p').
  Proof.
    unfold FitModel.fit_kex. destruct k as [b|e]; [discriminate|]. cbv zeta. unfold fit_verbose.
    destruct (given "self" kw || given "restarts" kw || given "verbose" kw); [discriminate|]. cbv zeta. unfold fit.
    destruct r as [n|]; [|discriminate]. cbn [kernel_expression with_restarts new].
    destruct (build w (as_column X) (as_column Y) (initialise offset e)) as [w1 [p|x]] eqn:B; [|discriminate].
    destruct (given "num_restarts" (without ["optimiser"; "robust"]%string kw) || given "optimizer" (without ["optimiser"; "robust"]%string kw)); [discriminate|].
    match goal with |- context [optimise ?a ?b ?c ?d] => destruct (optimise a b c d) as [w2 [p' [[]|x]]] eqn:O end; [|discriminate].
    unfold compute_utility. cbn [model with_model]. destruct (score p') as [s|x] eqn:S; [|discriminate].
    intros [= <- <-]. exists e, n, (as_column X), (as_column Y), w1, p, p', s.
    repeat (split; [first [reflexivity|assumption|apply as_column_data]|]).
    intros canonical describe. unfold interpret, sum_of_prods_kex. cbn. destruct (canonical p' (initialise offset e)); reflexivity.
  Qed.

  Lemma fit_kex_refused w X Y e r score name kw :
    (given "verbose" kw = true \/ given "self" kw = true -> fit_kex w X Y (inr e) r score name kw = (w, Raise ETypeError))
    /\ (given "self" kw || given "restarts" kw || given "verbose" kw = false -> r = None -> fit_kex w X Y (inr e) r score name kw = (w, Raise EValueError))
    /\ (given "num_restarts" kw = true \/ given "optimizer" kw = true -> exists w' x, fit_kex w X Y (inr e) r score name kw = (w', Raise x)).
  Proof.
    unfold FitModel.fit_kex. cbv zeta. unfold fit_verbose. split; [|split].
    - intros [-> | ->]; rewrite ?orb_true_r; reflexivity.
    - intros -> ->. reflexivity.
    - assert (G : forall nm, String.eqb "optimiser" nm = false -> String.eqb "robust" nm = false -> given nm kw = true -> given nm (without ["optimiser"; "robust"]%string kw) = true).
      { intros nm H1 H2 Hg. apply existsb_exists in Hg as (q & Hq & Eq). apply existsb_exists. exists q. split; [|exact Eq].
        apply filter_In. split; [exact Hq|]. apply String.eqb_eq in Eq. rewrite Eq. cbn [existsb]. rewrite (String.eqb_sym nm), H1, (String.eqb_sym nm), H2. reflexivity. }
      intros H. destruct (given "self" kw || given "restarts" kw || given "verbose" kw); [eauto|]. cbv zeta. unfold fit.
      destruct r as [n|]; [|cbn; eauto]. cbn [kernel_expression with_restarts new].
      destruct (build w (as_column X) (as_column Y) (initialise offset e)) as [w1 [p|x]]; [|eauto].
      assert (E : given "num_restarts" (without ["optimiser"; "robust"]%string kw) || given "optimizer" (without ["optimiser"; "robust"]%string kw) = true).
      { apply orb_true_iff. destruct H as [H|H]; [left|right]; apply G; auto. }
      rewrite E. eauto.
  Qed.
End FitKex.
