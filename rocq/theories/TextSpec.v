(** What the description of a component says (C68). *)
From Coq Require Import Ascii String DecimalString Reals List Bool Arith Permutation Sorted.
From Verif Require Import Py KexModel IvModel.
Import ListNotations.
Local Open Scope string_scope.

(** "x", "x, and y", "x, y, and z", ... *)
Definition listing (l : list string) : string :=
  match l with [] => "" | [x] => x | _ => String.concat ", " (removelast l) ++ ", and " ++ last l "" end.
Definition decimal (n : nat) : string := NilEmpty.string_of_uint (Nat.to_uint n).

Section Phrases.
  Context (fixed offset : bool) (fmt : R -> string).
  Definition period_and_lengthscale (c : R * R) : string := "period " ++ fmt (fst c) ++ " and lengthscale " ++ fmt (snd c).
  (** Periodic kernels with these periods and lengthscales, by decreasing period. *)
  Definition periodic_phrase (l : list (R * R)) : string :=
    match l with
    | [] => ""
    | [c] => "A periodic function with " ++ period_and_lengthscale c
    | [c; c'] => "A periodic function with main " ++ period_and_lengthscale c ++ ", then modulated by another periodic function of " ++ period_and_lengthscale c'
    | c :: cs => "A periodic function with main " ++ period_and_lengthscale c ++ ", then repeatedly modulated by " ++ decimal (List.length cs)
                 ++ " more periodic functions (by decreasing period) of " ++ listing (map period_and_lengthscale cs)
    end.
  Definition periods (ps : list pdict) (l : list (R * R)) : Prop :=
    exists qs, Permutation qs ps /\ Forall2 (fun p c => pget p pPeriod = Ok (fst c) /\ pget p pLengthscale = Ok (snd c)) qs l
               /\ StronglySorted (fun c d => (fst d <= fst c)%R) l.
  (** Linear kernels: one or more, with the given words for one and for more; the roots are mentioned if the kernels have an offset. *)
  Definition linear_phrase (one more : string) (ps : list pdict) (t : string) : Prop :=
    exists os, (if offset then Forall2 (fun p o => pget p pOffset = Ok o) ps os else os = []) /\
      t = match ps with
          | [_] => one ++ (if offset then " with horizontal offset " ++ listing (map fmt os) else "")
          | _ => more ++ " of order " ++ decimal (List.length ps) ++ (if offset then " with roots " ++ listing (map fmt os) else "")
          end.
  Definition first_phrase (b : base) (ps : list pdict) (t : string) : Prop :=
    match b with
    | bPER => exists l, periods ps l /\ t = periodic_phrase l
    | bSE => exists p qs l, ps = p :: qs /\ pget p pLengthscale = Ok l /\ t = "A smooth function with lengthscale " ++ fmt l
    | bC => t = "A constant"
    | bWN => t = "Uncorrelated noise"
    | bLIN => linear_phrase "A linear function" "A polynomial function" ps t
    | _ => False
    end.
  Definition later_phrase (b : base) (ps : list pdict) (t : string) : Prop :=
    match b with
    | bSE => exists p qs l, ps = p :: qs /\ pget p pLengthscale = Ok l /\ t = ", whose shape changes smoothly with lengthscale " ++ fmt l
    | bLIN => linear_phrase ", with linearly varying amplitude" ", with polynomially varying amplitude" ps t
    | _ => False
    end.
  (** The intervals of activity; the slopes are as the code prints them. *)
  Definition interval_phrase (v : val) (t : string) : Prop :=
    exists i, v = VIv i /\
    match i_start i, i_end i with
    | None, Some e => if fixed then t = "until " ++ fmt e else exists s, i_eslope i = Some s /\ t = "until " ++ fmt e ++ " (with change slope " ++ fmt s ++ ")"
    | Some s, None => if fixed then t = "from " ++ fmt s else exists r, i_sslope i = Some r /\ t = "from " ++ fmt s ++ " (with change slope " ++ fmt r ++ ")"
    | Some s, Some e =>
        if fixed then exists a b, i_sslope i = Some a /\ i_eslope i = Some b /\
          ((a = b /\ t = "between " ++ fmt s ++ " and " ++ fmt e ++ " (with same change slopes " ++ fmt a ++ ")")
           \/ (a <> b /\ t = "between " ++ fmt s ++ " and " ++ fmt e ++ " (with change slopes " ++ fmt a ++ " and " ++ fmt b ++ ")"))
        else t = "between " ++ fmt s ++ " and " ++ fmt e
    | None, None => False
    end.
  Definition activity_phrase (o : option (list val)) (t : string) : Prop :=
    match o with
    | None => t = "; this component has overall variance "
    | Some l => exists ts, Forall2 interval_phrase l ts /\
                  t = match ts with [] => "" | _ => "; this component applies " ++ listing ts end ++ ", and it has overall variance "
    end.

  (** The kind of factor that is described first. *)
  Definition rank (b : base) : nat := match b with bPER => 0 | bSE => 1 | bC => 2 | bWN => 3 | bLIN => 4 | _ => 5 end.
  Definition leads (d : params) (b : base) (ps : list pdict) : Prop :=
    In (KBase b, ps) d /\ is_sigmoid b = false /\ forall b' ps', In (KBase b', ps') d -> is_sigmoid b' = false -> rank b <= rank b'.
  (** What is said about the factors of kind b, if there are and they are not described first. *)
  Definition further (d : params) (first b : base) (t : string) : Prop :=
    (exists ps, In (KBase b, ps) d /\ b <> first /\ later_phrase b ps t) \/ ((b = first \/ forall ps, ~ In (KBase b, ps) d) /\ t = "").
  (** The whole description. *)
  Definition describes (d : params) (t : string) : Prop :=
    exists b ps t1 t2 t3 o t4 q qs v,
      leads d b ps /\ first_phrase b ps t1 /\ further d b bSE t2 /\ further d b bLIN t3
      /\ (forall b' ps', In (KBase b', ps') d -> b' = b \/ b' = bSE \/ b' = bLIN \/ is_sigmoid b' = true)
      /\ sigmoids_to_intervals fixed d = Ok o /\ activity_phrase o t4
      /\ In (KProduct, q :: qs) d /\ pget q pVariance = Ok v
      /\ t = t1 ++ t2 ++ t3 ++ t4 ++ fmt v.
End Phrases.

(** The description of a fitted model: how many components there are, and each of them on a line of its own. *)
Definition line (t : string) : string := String "010"%char (String "009"%char t).
Definition summary (n : nat) (ts : list string) : string := "The fit kernel consists of " ++ decimal n ++ " components:" ++ String.concat "" (map line ts).

(** A text that contains another one (C69). *)
Definition within_text (x t : string) : Prop := exists a b, t = a ++ x ++ b.
