(** What generated data should be. *)
From Coq Require Import List ZArith QArith.
From Verif Require Import VecModel.
Local Close Scope Q_scope.

(** Every data point is the function's value at the input of the same position, times the weight, plus the weighted noise. *)
Definition values_with_noise (f : num -> num) (X : list num) (w nw : num) (noise : list Q) (Y : list num) : Prop :=
  length Y = length X /\
  forall i x e, nth_error X i = Some x -> nth_error noise i = Some e ->
    exists y, nth_error Y i = Some y /\ (to_Q y == to_Q (f x) * to_Q w + e * to_Q nw)%Q.

(** v is a whole number. *)
Definition whole (v : num) : Prop := exists z, (to_Q v == inject_Z z)%Q.

(** g is f1 before the change and f2 from it on; lined up, f2 is shifted to meet f1 at the change. *)
Definition changes_at (f1 f2 : num -> num) (cp : Q) (lined_up : Prop) (shift : Q) (g : num -> num) : Prop :=
  forall x, ((to_Q x < cp)%Q -> g x = f1 x)
    /\ ((cp <= to_Q x)%Q -> ~ lined_up -> g x = f2 x)
    /\ ((cp <= to_Q x)%Q -> lined_up -> (to_Q (g x) == to_Q (f2 x) + shift)%Q).

(** g is f1 outside the window and f2 inside; lined up, f2 is shifted to meet f1 at the start and f1 is shifted after the window to meet it at
    its end. *)
Definition changes_in (f1 f2 : num -> num) (s e : Q) (lined_up : Prop) (shift shift' : Q) (g : num -> num) : Prop :=
  forall x, ((to_Q x < s)%Q -> g x = f1 x)
    /\ ((s <= to_Q x <= e)%Q -> ~ lined_up -> g x = f2 x)
    /\ ((s <= to_Q x <= e)%Q -> lined_up -> (to_Q (g x) == to_Q (f2 x) + shift)%Q)
    /\ ((e < to_Q x)%Q -> ~ lined_up -> g x = f1 x)
    /\ ((s <= to_Q x)%Q -> (e < to_Q x)%Q -> lined_up -> (to_Q (g x) == to_Q (f1 x) + shift')%Q).
