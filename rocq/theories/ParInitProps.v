(** C31, continued: expressions with random parameters. *)
From Coq Require Import String Reals Lra List Bool ZArith.
From Verif Require Import Py KexModel KexSpec SemModel SemSpec IvModel ParModel ParSpec ParWit ParInitModel ParInit.
Import ListNotations.
Local Open Scope R_scope.

(** C31: init_rand_params does not raise, and gives every base term, product and Change node of the expression the values of its own part of the randomised
    kernel object, whose parameters are not named after a regression model. *)
Theorem C31_random : forall offset fixed e g k, normal offset e -> non_empty e -> to_kernel e = Ok g -> fitted offset fixed g k ->
  exists p, init_rand_params offset fixed k e = Ok p /\ erase p = e /\ assigned p k.
Proof. exact init_assigned. Qed.
Print Assumptions C31_random.
(** LIN * (WN + C), and LIN alone, whose kernel object is not inside a sum. *)
Example C31_random_example : (exists p, fit_of true true wn_lin (wn_lin_fit 2 0 3 5) p /\ init_rand_params true true (wn_lin_fit 2 0 3 5) wn_lin = Ok p)
  /\ init_rand_params true true (VBase bLIN [(pVariance, 2); (pOffset, 7)]) (Comm KSum [(bLIN, 1%Z)] []) = Ok (PComm KSum [(bLIN, 1%Z)] [(KBase bLIN, [[(pVariance, 2); (pOffset, 7)]])] []).
Proof.
  split; [|reflexivity]. exists (wn_lin_pars 2 0 3 5). split; [apply wn_lin_fits; lra|reflexivity].
Qed.
