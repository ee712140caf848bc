(** Where sigmoids are active and what the reported intervals contain (C35, C36). *)
From Coq Require Import Reals List Bool.
From Verif Require Import Py KexModel IvModel.
Import ListNotations.
Local Open Scope R_scope.

(** The active side of a sigmoid with these parameters: S is active after its location, Sr before it, SI in the window of
    the given width that starts at the location, SIr outside of that window. *)
Definition active (b : base) (p : pdict) (x : R) : Prop :=
  exists l, pget p pLocation = Ok l /\
  match b with
  | bS => l < x
  | bSr => x < l
  | bSI => exists w, pget p pWidth = Ok w /\ l < x < l + w
  | bSIr => exists w, pget p pWidth = Ok w /\ (x < l \/ l + w < x)
  | _ => False
  end.
(** On the active side of every sigmoid of a component. *)
Definition all_active (d : params) (x : R) : Prop :=
  forall b ps p, In (KBase b, ps) d -> is_sigmoid b = true -> In p ps -> active b p x.

(** The points of a reported interval (open; None is empty). *)
Fixpoint inside (v : val) (x : R) : Prop :=
  match v with
  | VNone => False
  | VIv i => (forall s, i_start i = Some s -> s < x) /\ (forall e, i_end i = Some e -> x < e)
  | VList l => fold_right (fun v P => inside v x \/ P) False l
  end.

(** The parameters that a fitted component stores for its sigmoids: a location, and a positive width for the windows; the
    slopes only if they are not fixed.  A key is there only if there is a sigmoid of that type, and there is one entry for each key. *)
Definition sigmoid_params (fixed : bool) (b : base) (p : pdict) : Prop :=
  (exists l, pget p pLocation = Ok l) /\
  (b = bSI \/ b = bSIr -> exists w, 0 < w /\ pget p pWidth = Ok w) /\
  (fixed = false -> exists s, pget p pSlope = Ok s).
Definition fitted_sigmoids (fixed : bool) (d : params) : Prop :=
  NoDup (map fst d) /\
  forall b ps, In (KBase b, ps) d -> is_sigmoid b = true -> ps <> [] /\ Forall (sigmoid_params fixed b) ps.
(** An actual interval: a dictionary with at least one end, and the slope for each of its ends. *)
Definition proper_interval (v : val) : Prop :=
  exists i, v = VIv i /\ (i_start i <> None \/ i_end i <> None)
            /\ (i_start i <> None -> i_sslope i <> None) /\ (i_end i <> None -> i_eslope i <> None).

(** When the reduction succeeds (C36): at most one SIr sigmoid, the others are active together somewhere, and there is no SI sigmoid
    unless those of type SIr come last. *)
Definition at_most_one_SIr (d : params) : Prop := forall ps, In (KBase bSIr, ps) d -> (length ps <= 1)%nat.
Definition common_point (d : params) : Prop :=
  exists x, forall b ps p, In (KBase b, ps) d -> is_sigmoid b = true -> b <> bSIr -> In p ps -> active b p x.
Definition windows_before_holes (d : params) : Prop :=
  (forall ps, ~ In (KBase bSI, ps) d) \/
  (forall d1 ps d2, d = d1 ++ (KBase bSIr, ps) :: d2 -> forall b ps', In (KBase b, ps') d2 -> is_sigmoid b = false).

(** The stored parameters of a simplified pure product with the given base terms (C37): entries for some of its base terms,
    with at least one dictionary each, at least one of them not a sigmoid, and one for the variance. *)
Definition component (bts : counter) (d : params) : Prop :=
  NoDup (map fst d) /\
  (forall k ps, In (k, ps) d -> ps <> [] /\ (k = KProduct \/ exists b, k = KBase b /\ (0 < cget bts b)%Z)) /\
  (exists b ps, In (KBase b, ps) d /\ is_sigmoid b = false).
(** The dictionaries have the names of the parameters of their base kernels (the variance is stored separately). *)
Definition factor_params (offset : bool) (b : base) (p : pdict) : Prop :=
  match b with
  | bLIN => offset = true -> exists o, pget p pOffset = Ok o
  | bSE => exists l, pget p pLengthscale = Ok l
  | bPER => exists q l, pget p pPeriod = Ok q /\ pget p pLengthscale = Ok l
  | _ => True
  end.
Definition complete_params (offset : bool) (d : params) : Prop :=
  (forall b ps, In (KBase b, ps) d -> Forall (factor_params offset b) ps) /\
  exists p ps v, In (KProduct, p :: ps) d /\ pget p pVariance = Ok v.
(** There are no windows among the sigmoids. *)
Definition no_windows (d : params) : Prop := forall b ps, In (KBase b, ps) d -> b <> bSI /\ b <> bSIr.
(** The types of the sigmoids of a component in the order of their keys, with the number of sigmoids of each. *)
Definition shape (d : params) : list (base * nat) :=
  flat_map (fun e => match fst e with KBase b => if is_sigmoid b then [(b, length (snd e))] else [] | _ => [] end) d.
Definition possible_shape (s : list (base * nat)) : Prop :=
  NoDup (map fst s) /\ forall b n, In (b, n) s -> is_sigmoid b = true /\ (0 < n)%nat.
(** At most one window of each type (SI, SIr), and each of them among the first two types of sigmoids. *)
Definition windows_first (s : list (base * nat)) : Prop :=
  forall i b n, nth_error s i = Some (b, n) -> b = bSI \/ b = bSIr -> n = 1%nat /\ (i <= 1)%nat.
(** The reduction succeeds with actual intervals. *)
Definition reducible (fixed : bool) (d : params) : Prop :=
  exists o, sigmoids_to_intervals fixed d = Ok o /\ forall l, o = Some l -> Forall proper_interval l.
