(** Gradients stored in kernel objects: C55. *)
From Coq Require Import Reals Lra List Bool Arith ZArith.
From Verif Require Import Py KexModel KernModel KernSpec SemModel ObjModel ObjSpec ObjProofs ObjGrad3 ObjGradWit.
Import ListNotations.
Local Open Scope R_scope.

(** C55: false of the parameters of a change operator itself: the gradient stored for the location of CP(LIN, LIN) is not the derivative. *)
Theorem C55_refuted : exists e k o l o1 o2 n x dL i v g K,
  to_kernel e = Ok k /\ new_object k = Ok o /\ optimise true true o l = Ok o1 /\ Forall2 allowed (roles true true k) (map pv (listed true true o1))
  /\ array dL n n (ent dL) /\ symmetric n (ent dL) /\ update_gradients true true o1 dL (column n x) None = Ok o2
  /\ nth_error (map pv (listed true true o1)) i = Some v /\ nth_error (map pg (listed true true o2)) i = Some g
  /\ (forall q, exists oq, assign true true o1 (set_nth i q (map pv (listed true true o1))) = Ok oq /\ computes (kK (kernel_of true oq) (column n x) None) n n (K q))
  /\ ~ is_gradient n n (ent dL) K v g.
Proof. exact location_witness. Qed.
Print Assumptions C55_refuted.
(** What holds, for all kernels, after any assignments and gradient computations, at allowed values, for any data and symmetric weights: gradients
    can be computed, leave the values alone, and the one stored for each listed parameter is the derivative with respect to the value listed.
    Missing: the slope, location and width of change operators that are not themselves inside another. *)
Theorem C55_partial : forall offset fixed k o l o1 n x dL,
  new_object k = Ok o -> optimise offset fixed o l = Ok o1 -> Forall2 allowed (roles offset fixed k) (map pv (listed offset fixed o1)) ->
  array dL n n (ent dL) -> symmetric n (ent dL) ->
  exists o2, update_gradients offset fixed o1 dL (column n x) None = Ok o2 /\ map pv (listed offset fixed o2) = map pv (listed offset fixed o1) /\
    forall i, nth_error (in_operand offset fixed k) i = Some true \/ (exists r, nth_error (roles offset fixed k) i = Some r /\ of_change r = false) ->
      exists v g K, nth_error (map pv (listed offset fixed o1)) i = Some v /\ nth_error (map pg (listed offset fixed o2)) i = Some g
        /\ (forall q, exists oq, assign offset fixed o1 (set_nth i q (map pv (listed offset fixed o1))) = Ok oq
              /\ computes (kK (kernel_of offset oq) (column n x) None) n n (K q))
        /\ is_gradient n n (ent dL) K v g.
Proof. exact optimise_derivatives. Qed.
Print Assumptions C55_partial.
(** (PER * LIN) + CW(SE, C) at other values than the initial ones: all parameters but the last two are covered. *)
Example C55_example : exists k o o1, to_kernel (Comm KSum [] [Comm KProd [(bPER, 1%Z); (bLIN, 1%Z)] []; Change CW (inl bSE) (inl bC)]) = Ok k
  /\ new_object k = Ok o /\ optimise true true o [Assign [1; 3; 4; -2; 2; 1; 4; -5; 3]] = Ok o1
  /\ Forall2 allowed (roles true true k) (map pv (listed true true o1))
  /\ roles true true k = [Variance; Period; PerLengthscale; Offset; Variance; Lengthscale; Variance; Location; Width]
  /\ in_operand true true k = [false; false; false; false; true; true; true; false; false].
Proof.
  eexists _, _, _. split; [reflexivity|]. split; [reflexivity|]. split; [reflexivity|]. split; [|split; reflexivity].
  repeat constructor; cbn; lra.
Qed.
