(** Property theorems: generated data and drawn curves. *)
From Coq Require Import List ZArith QArith.
From Verif Require Import Py VecModel VecSpec VecProofs.
Import ListNotations.
Local Open Scope list_scope.
Local Close Scope Q_scope.

(** C78, false: data generated with a change point, without noise, that are not the values of the two functions before and after it. *)
Theorem C78_refuted : exists X f1 f2 cp X' Y,
  generate_changepoint_data X f1 f2 cp (Int 1) (Int 0) false (repeat 0%Q (length X)) = Ok (X', Y)
  /\ ~ exists g, changes_at f1 f2 (to_Q cp) False 0 g /\ values_with_noise g X' (Int 1) (Int 0) (repeat 0%Q (length X)) Y.
Proof. exact cut_off. Qed.
Print Assumptions C78_refuted.

(** The data are the values with noise exactly if the first value is a float or all values are whole numbers. *)
Theorem C78_exactly : forall f X w nw noise X' Y, length noise = length X -> ~ (to_Q w == 0)%Q -> generate_data f X w nw noise = Ok (X', Y) ->
  values_with_noise f X' w nw noise Y
  <-> (exists x, nth_error X' 0 = Some x /\ is_float (f x) = true) \/ (forall x, In x X' -> whole (f x)).
Proof. exact generate_exact. Qed.
Print Assumptions C78_exactly.

(** Otherwise every value is replaced by the whole number next to it towards 0. *)
Theorem C78_truncated : forall f X w nw noise X' Y x0, length noise = length X -> generate_data f X w nw noise = Ok (X', Y) ->
  nth_error X' 0 = Some x0 -> is_float (f x0) = false ->
  forall i x e, nth_error X' i = Some x -> nth_error noise i = Some e -> exists y z, nth_error Y i = Some y
    /\ (to_Q y == inject_Z z * to_Q w + e * to_Q nw)%Q
    /\ ((0 <= to_Q (f x))%Q -> (inject_Z z <= to_Q (f x) < inject_Z z + 1)%Q)
    /\ ((to_Q (f x) <= 0)%Q -> (inject_Z z - 1 < to_Q (f x) <= inject_Z z)%Q).
Proof. exact generate_truncated. Qed.
Print Assumptions C78_truncated.

(** Data with a change point or a change window are data of a function that is one of the given two on each side. *)
Theorem C78_changepoint : forall f1 f2 cp lu X w nw noise, exists g,
  generate_changepoint_data X f1 f2 cp w nw lu noise = generate_data g X w nw noise
  /\ changes_at f1 f2 (to_Q cp) (lu = true) (to_Q (f1 cp) - to_Q (f2 cp)) g.
Proof. exact changepoint_data. Qed.
Print Assumptions C78_changepoint.

Theorem C78_changewindow : forall f1 f2 s e lu X w nw noise, (to_Q s <= to_Q e)%Q -> exists g,
  generate_changewindow_data X f1 f2 s e w nw lu noise = generate_data g X w nw noise
  /\ changes_in f1 f2 (to_Q s) (to_Q e) (lu = true) (to_Q (f1 s) - to_Q (f2 s)) ((to_Q (f2 e) + (to_Q (f1 s) - to_Q (f2 s))) - to_Q (f1 e)) g.
Proof. exact changewindow_data. Qed.
Print Assumptions C78_changewindow.

(** Only empty inputs fail; the inputs returned are those given. *)
Theorem C78_inputs : forall f X w nw noise,
  (forall e, generate_data f X w nw noise = Raise e <-> X = [] /\ e = EValueError)
  /\ forall X' Y, generate_data f X w nw noise = Ok (X', Y) ->
     length X' = length X /\ forall i x, nth_error X i = Some x -> exists x', nth_error X' i = Some x' /\ (to_Q x' == to_Q x)%Q.
Proof. exact generate_inputs. Qed.
Print Assumptions C78_inputs.

(** Lined-up change data that meet the condition: the first value is a float. *)
Example C78_case : exists X' Y,
  generate_changewindow_data [Int 0; Int 1; Int 2; Int 3] halves steps (Int 1) (Int 2) (Int 1) (Int 0) true [0; 0; 0; 0]%Q = Ok (X', Y)
  /\ (exists x, nth_error X' 0 = Some x /\ is_float (cw_f halves steps (Int 1) (Int 2) true x) = true)
  /\ Forall2 (fun y q => (to_Q y == q)%Q) Y [0; 1 # 2; 1 # 2; 1]%Q.
Proof. do 2 eexists. split; [vm_compute; reflexivity|]. split; [exists (Int 0); split; reflexivity | repeat constructor]. Qed.

(** C79, false: as many curves as sampled are drawn. *)
Theorem C79_refuted : exists curves : list nat, sampleCurves curves <> curves.
Proof. exact one_less. Qed.
Print Assumptions C79_refuted.

(** The last one is left out. *)
Theorem C79_partial : forall (A : Type) (curves : list A), sampleCurves curves = firstn (length curves - 1) curves.
Proof. exact @sampled. Qed.
Print Assumptions C79_partial.

Example C79_case : sampleCurves [1; 2; 3; 4; 5] = [1; 2; 3; 4].
Proof. reflexivity. Qed.
