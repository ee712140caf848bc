(** Specification vocabulary: a Sum left in a Sum or a Product in a Product (C05, C18). *)
From Coq Require Import List.
From Verif Require Import KexModel KexSpec OpsSpec.
Import ListNotations.

(** Some Sum of e has a Sum among its composites, or some Product a Product. *)
Definition nested (e : kex) : Prop :=
  exists k bts cts bts' cts', node (Comm k bts cts) e /\ In (Comm k bts' cts') cts.

(** On the way to address p, nothing that is a composite of a Sum simplifies to an expression holding one Sum and nothing else, and
    likewise for Products (C18). *)
Definition no_own_kind (offset : bool) (t : kex) (p : addr) : Prop :=
  forall q i r k bts cts s k' b' c', p = q ++ i :: r -> at_addr t q = Some (Comm k bts cts) -> nth_error cts i = Some s ->
    simplify offset s <> Comm k' [] [Comm k b' c'].
