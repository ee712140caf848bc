(** What the description of a model says: C68, C69. *)
From Coq Require Import String Reals List.
From Verif Require Import Py KexModel KexSpec KernModel SemModel IvModel IvSpec IvWit ParModel ParSpec ParWit TextSpec TextProofs TextFinal TextWit.
Import ListNotations.

(** C68: a component is described by its first kind of factor (in the order PER, SE, C, WN, LIN), then by how SE and LIN modify it, then
    by its intervals and by its variance, with their own parameters. *)
Theorem C68_component : forall fixed offset fmt d t, NoDup (map fst d) -> (forall k ps, In (k, ps) d -> ps <> []) ->
  base_factors_interpretation fixed offset fmt d = Ok t -> describes fixed offset fmt d t.
Proof. exact description_says. Qed.
Print Assumptions C68_component.
Example C68_component_example : base_factors_interpretation true true (fun _ => "#"%string) good =
  Ok ("A periodic function with period # and lengthscale #, with polynomially varying amplitude of order 2 with roots #, and #; this component applies until #, "
      ++ "and between # and # (with same change slopes #), and it has overall variance #")%string.
Proof. exact good_text. Qed.
(** The description of a fitted model gives the number of terms of the expression when multiplied out, and describes the components of
    the canonical form in order. *)
Theorem C68_model : forall offset fixed fmt e k p s t, fit_of offset fixed e k p -> sum_of_prods_form offset p = Ok s ->
  get_interpretation offset fixed fmt s = Ok t ->
  exists cts us, sum_of_products s cts /\ Forall2 (fun ct u => describes fixed offset fmt (parameters_of ct) u) cts us
    /\ t = summary (number_of_terms e) us.
Proof. exact interpretation_says. Qed.
Print Assumptions C68_model.
Example C68_model_example : forall fixed fmt, exists k p s t, fit_of true fixed mixed k p /\ sum_of_prods_form true p = Ok s /\ get_interpretation true fixed fmt s = Ok t.
Proof. exact mixed_text. Qed.

(** C69 is false: when slopes are fitted, those of a component between two points are not in its description. *)
Theorem C69_refuted : exists d d', fitted_sigmoids false d /\ fitted_sigmoids false d'
  /\ (exists i i', sigmoids_to_intervals false d = Ok (Some [VIv i]) /\ sigmoids_to_intervals false d' = Ok (Some [VIv i'])
       /\ i_start i = i_start i' /\ i_end i = i_end i' /\ i_sslope i <> i_sslope i' /\ i_eslope i <> i_eslope i')
  /\ forall fmt, exists t, base_factors_interpretation false true fmt d = Ok t /\ base_factors_interpretation false true fmt d' = Ok t.
Proof. exact slopes_witness. Qed.
Print Assumptions C69_refuted.
(** What holds: the slope is there for the intervals with only one end.  Missing: the intervals with two. *)
Theorem C69_partial : forall offset fmt d t l i, NoDup (map fst d) -> (forall k ps, In (k, ps) d -> ps <> []) ->
  sigmoids_to_intervals false d = Ok (Some l) -> base_factors_interpretation false offset fmt d = Ok t ->
  In (VIv i) l -> i_start i = None \/ i_end i = None ->
  exists s, (i_start i = None -> i_eslope i = Some s) /\ (i_end i = None -> i_sslope i = Some s)
    /\ within_text (" (with change slope " ++ fmt s ++ ")") t.
Proof. exact slope_stated. Qed.
Print Assumptions C69_partial.
Example C69_example : forall fmt, NoDup (map fst until_8) /\ (forall k ps, In (k, ps) until_8 -> ps <> [])
  /\ sigmoids_to_intervals false until_8 = Ok (Some [VIv (Iv None (Some 8%R) None (Some 5%R))])
  /\ exists t, base_factors_interpretation false true fmt until_8 = Ok t.
Proof. exact until_8_text. Qed.
