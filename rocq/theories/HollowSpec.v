(** Products that collapse to nothing (C03). *)
From Coq Require Import List ZArith.
From Verif Require Import Py KexModel KexSpec.
Import ListNotations.
Local Open Scope Z_scope.

(** All base terms are C. *)
Definition only_C (bts : counter) : Prop := forall b, b <> bC -> cget bts b = 0.
(** A product of constants. *)
Definition product_of_C (e : kex) : Prop := exists b, e = Comm KProd b [] /\ only_C b.
