(** C66: the units in which data are given. *)
From Coq Require Import Reals Lra List Bool Arith ZArith.
From Verif Require Import Py KexModel KexSpec KexCheck KernModel KernSpec SemModel SemSpec DataModel PredSpec UnitSpec UnitProofs UnitWit.
Import ListNotations.
Local Open Scope R_scope.

(** Other units of the outputs: any covariance function of an expression, multiplied by a positive number, is one of the same expression. *)
Theorem C66_outputs : forall offset e g c K, wf e -> non_empty e -> sigmoid_free e -> to_kernel e = Ok g -> 0 < c ->
  kernel_family offset g K -> kernel_family offset g (other_outputs c K).
Proof. exact kernel_outputs. Qed.
Print Assumptions C66_outputs.
Example C66_outputs_example : exists g K, wf ex_units_change /\ non_empty ex_units_change /\ sigmoid_free ex_units_change /\ to_kernel ex_units_change = Ok g /\ kernel_family true g K.
Proof. exact (ex_units_ok ex_units_change eq_refl). Qed.

(** Another origin of the inputs: the expression has the same covariance functions, when LIN has a horizontal offset (the default). *)
Theorem C66_origin : forall e g b K, wf e -> non_empty e -> sigmoid_free e -> to_kernel e = Ok g ->
  kernel_family true g K -> kernel_family true g (other_inputs 1 b K).
Proof. exact kernel_shift. Qed.
Print Assumptions C66_origin.
Example C66_origin_example : exists g K, wf ex_units_change /\ non_empty ex_units_change /\ sigmoid_free ex_units_change /\ to_kernel ex_units_change = Ok g /\ kernel_family true g K.
Proof. exact (ex_units_ok ex_units_change eq_refl). Qed.
(** Without the offset it need not. *)
Theorem C66_origin_refuted : exists e g b K, wf e /\ non_empty e /\ sigmoid_free e /\ to_kernel e = Ok g /\
  kernel_family false g K /\ ~ kernel_family false g (other_inputs 1 b K).
Proof. exact shift_without_offset. Qed.
Print Assumptions C66_origin_refuted.

(** Other units of the inputs, for expressions without change points and windows. *)
Theorem C66_inputs_partial : forall offset e g a b K, wf e -> non_empty e -> sigmoid_free e -> to_kernel e = Ok g ->
  a <> 0 -> (offset = false -> b = 0) -> a = 1 \/ change_free e ->
  kernel_family offset g K -> kernel_family offset g (other_inputs a b K).
Proof. exact kernel_inputs. Qed.
Print Assumptions C66_inputs_partial.
Example C66_inputs_example : change_free ex_units /\
  exists g K, wf ex_units /\ non_empty ex_units /\ sigmoid_free ex_units /\ to_kernel ex_units = Ok g /\ kernel_family true g K.
Proof. exact (conj ex_units_free (ex_units_ok ex_units eq_refl)). Qed.
(** With a change point it is false: the slope of changes is fixed, in units of the input. *)
Theorem C66_inputs_refuted : exists e g a K, wf e /\ non_empty e /\ sigmoid_free e /\ to_kernel e = Ok g /\ 0 < a /\
  kernel_family true g K /\ ~ kernel_family true g (other_inputs a 0 K).
Proof. exact scale_with_change. Qed.
Print Assumptions C66_inputs_refuted.

(** The log-likelihoods that can be reached on the data in other units are those in the first units, less the same constant. *)
Theorem C66_likelihood_partial : forall offset e g a b c n x y L, wf e -> non_empty e -> sigmoid_free e -> to_kernel e = Ok g ->
  a <> 0 -> c <> 0 -> (offset = false -> b = 0) -> a = 1 \/ change_free e ->
  (attainable offset g n x y L <-> attainable offset g n (fun i => a * x i + b) (fun i => c * y i) (L - INR n * ln (Rabs c))).
Proof. exact likelihood_units. Qed.
Print Assumptions C66_likelihood_partial.
Example C66_likelihood_example : okb c_kex = true /\ to_kernel c_kex = Ok (GBase bC true) /\
  attainable true (GBase bC true) 2 (fun i => INR i) (fun i => INR i) (- / 2 * (2 / 3) - / 2 * ln 3 - 1 * ln (2 * PI)).
Proof. exact (conj eq_refl (conj eq_refl two_points)). Qed.

(** So two expressions with optimal parameters are ranked in the same way by BIC, AIC and AICc. *)
Theorem C66_ranking_partial : forall offset e1 e2 g1 g2 a b c n x y M1 M2 k1 k2,
  wf e1 -> non_empty e1 -> sigmoid_free e1 -> to_kernel e1 = Ok g1 -> wf e2 -> non_empty e2 -> sigmoid_free e2 -> to_kernel e2 = Ok g2 ->
  a <> 0 -> c <> 0 -> (offset = false -> b = 0) -> a = 1 \/ (change_free e1 /\ change_free e2) ->
  is_lub (attainable offset g1 n x y) M1 -> is_lub (attainable offset g2 n x y) M2 ->
  exists M1' M2', is_lub (attainable offset g1 n (fun i => a * x i + b) (fun i => c * y i)) M1'
    /\ is_lub (attainable offset g2 n (fun i => a * x i + b) (fun i => c * y i)) M2'
    /\ (BIC M1' n k1 < BIC M2' n k2 <-> BIC M1 n k1 < BIC M2 n k2)
    /\ (AIC M1' n k1 < AIC M2' n k2 <-> AIC M1 n k1 < AIC M2 n k2)
    /\ (forall s1 s2 s1' s2', AICc M1 n k1 = Ok s1 -> AICc M2 n k2 = Ok s2 -> AICc M1' n k1 = Ok s1' -> AICc M2' n k2 = Ok s2' -> (s1' < s2' <-> s1 < s2)).
Proof. exact ranking_units. Qed.
Print Assumptions C66_ranking_partial.
Example C66_ranking_example : okb c_kex = true /\ okb wn_kex = true /\ to_kernel c_kex = Ok (GBase bC true) /\ to_kernel wn_kex = Ok (GBase bWN true) /\
  is_lub (attainable true (GBase bC true) 1 (fun _ => 0) (fun _ => 1)) (- / 2 - / 2 * ln (2 * PI)) /\
  is_lub (attainable true (GBase bWN true) 1 (fun _ => 0) (fun _ => 1)) (- / 2 - / 2 * ln (2 * PI)).
Proof. exact (conj eq_refl (conj eq_refl (conj eq_refl (conj eq_refl (conj best_c best_wn))))). Qed.
