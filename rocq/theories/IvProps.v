(** Intervals of change windows and the description of a component: C35, C36, C37. *)
From Coq Require Import String Reals List Bool ZArith.
From Verif Require Import Py KexModel KexSpec KernModel SemModel IvModel IvSpec IvProofs IvOk IvText IvLines IvWit IvShape IvExact.
Import ListNotations.
Local Open Scope R_scope.

(** C35: a point is in one of the reported intervals iff it is on the active side of every sigmoid of the component. *)
Theorem C35_intervals : forall fixed d l x,
  sigmoids_to_intervals fixed d = Ok (Some l) -> (exists v, In v l /\ inside v x) <-> all_active d x.
Proof. exact intervals_exact. Qed.
Print Assumptions C35_intervals.
(** Intervals are reported for exactly the components that have sigmoids. *)
Theorem C35_reported : forall fixed d o, sigmoids_to_intervals fixed d = Ok o ->
  (o = None <-> forall b ps, In (KBase b, ps) d -> is_sigmoid b = false).
Proof. exact intervals_some. Qed.
Print Assumptions C35_reported.
Example C35_example : sigmoids_to_intervals true good =
  Ok (Some [VIv (Iv None (Some 2) None (Some 1)); VIv (Iv (Some (2 + 1)) (Some 8) (Some 1) (Some 1))]).
Proof. exact good_intervals. Qed.

(** C36 is false: the reduction raises KeyError for two windows to be avoided, *)
Theorem C36_refuted : exists d, fitted_sigmoids true d /\ sigmoids_to_intervals true d = Raise EKeyError.
Proof. exact (ex_intro _ two_holes (conj two_holes_fitted two_holes_fail)). Qed.
Print Assumptions C36_refuted.
(** TypeError for two disjoint windows together with a change point, *)
Theorem C36_windows_refuted : exists d, fitted_sigmoids true d /\ sigmoids_to_intervals true d = Raise ETypeError.
Proof. exact (ex_intro _ disjoint_windows (conj disjoint_fitted disjoint_fail)). Qed.
Print Assumptions C36_windows_refuted.
(** and, for a component that is active somewhere, None can be among the intervals *)
Theorem C36_none_refuted : exists d, fitted_sigmoids true d /\ (exists x, all_active d x) /\
  exists l, sigmoids_to_intervals true d = Ok (Some l) /\ In VNone l.
Proof. exact (ex_intro _ with_none (conj with_none_fitted (conj (ex_intro _ 4 with_none_active) with_none_result))). Qed.
Print Assumptions C36_none_refuted.
(** in which case the description raises TypeError. *)
Theorem C36_description_refuted : forall offset fmt, exists d, (forall k ps, In (k, ps) with_none -> In (k, ps) d) /\ NoDup (map fst d) /\
  cardinality offset KProd [(bLIN, 1%Z); (bSIr, 1%Z); (bS, 1%Z); (bSI, 1%Z)] 0 /\
  component [(bLIN, 1%Z); (bSIr, 1%Z); (bS, 1%Z); (bSI, 1%Z)] d /\ complete_params offset d /\
  base_factors_interpretation true offset fmt d = Raise ETypeError.
Proof. exact with_none_text. Qed.
Print Assumptions C36_description_refuted.
(** It succeeds, with actual intervals, when there is at most one window to be avoided, the other sigmoids are active together
    somewhere, and there are no other windows unless the one to be avoided comes last. *)
Theorem C36_partial : forall fixed d,
  fitted_sigmoids fixed d -> at_most_one_SIr d -> common_point d -> windows_before_holes d ->
  exists o, sigmoids_to_intervals fixed d = Ok o /\ forall l, o = Some l -> Forall proper_interval l.
Proof. exact intervals_succeed. Qed.
Print Assumptions C36_partial.
(** It also succeeds whenever there are no windows, only change points. *)
Theorem C36_lines_partial : forall fixed d, fitted_sigmoids fixed d -> no_windows d ->
  exists o, sigmoids_to_intervals fixed d = Ok o /\ forall l, o = Some l -> Forall proper_interval l.
Proof. exact intervals_no_windows. Qed.
Print Assumptions C36_lines_partial.
Example C36_example : fitted_sigmoids true good /\ at_most_one_SIr good /\ common_point good /\ windows_before_holes good.
Proof. exact (conj good_fitted good_common). Qed.

(** Which kinds of components can always be reduced, whatever their parameters: exactly those with at most one window of each type, each
    among the first two types of sigmoids of the component. *)
Theorem C36_exactly : forall fixed s, possible_shape s ->
  (forall d, fitted_sigmoids fixed d -> shape d = s -> reducible fixed d) <-> windows_first s.
Proof. exact shape_exact. Qed.
Print Assumptions C36_exactly.
(** The same for their descriptions. *)
Theorem C36_exactly_described : forall fixed offset s, possible_shape s ->
  (forall bts d fmt, cardinality offset KProd bts 0 -> component bts d -> complete_params offset d -> fitted_sigmoids fixed d -> shape d = s ->
     exists t, base_factors_interpretation fixed offset fmt d = Ok t) <-> windows_first s.
Proof. exact description_exact. Qed.
Print Assumptions C36_exactly_described.
Example C36_exactly_example : possible_shape [(bSIr, 1%nat); (bSI, 1%nat); (bS, 3%nat)] /\ windows_first [(bSIr, 1%nat); (bSI, 1%nat); (bS, 3%nat)]
  /\ possible_shape [(bS, 1%nat); (bSr, 1%nat); (bSI, 1%nat)] /\ ~ windows_first [(bS, 1%nat); (bSr, 1%nat); (bSI, 1%nat)].
Proof. exact shapes_example. Qed.

(** C37: the description of a simplified pure product with a factor that is not a sigmoid raises no ValueError. *)
Theorem C37_no_valueerror : forall fixed offset fmt bts d, cardinality offset KProd bts 0 -> component bts d ->
  base_factors_interpretation fixed offset fmt d <> Raise EValueError.
Proof. exact description_no_valueerror. Qed.
Print Assumptions C37_no_valueerror.
(** If its parameters are there it succeeds whenever the reduction to intervals does. *)
Theorem C37_described : forall fixed offset fmt bts d o, cardinality offset KProd bts 0 -> component bts d -> complete_params offset d ->
  sigmoids_to_intervals fixed d = Ok o -> (forall l, o = Some l -> Forall proper_interval l) ->
  exists t, base_factors_interpretation fixed offset fmt d = Ok t.
Proof. exact description_ok. Qed.
Print Assumptions C37_described.
Example C37_example : forall offset, cardinality offset KProd good_bts 0 /\ component good_bts good /\ complete_params offset good.
Proof. exact good_component. Qed.
