(** C46 and C49, continued: what diff removes in general, and what a search continued with another utility ranks by. *)
From Coq Require Import String List Bool Arith ZArith Lia Permutation Sorted.
From Verif Require Import Py UtilModel UtilSpec UtilProofs KexModel KexSpec OpsModel SearchModel SearchSpec SearchProofs MixProofs.
Import ListNotations.
Local Open Scope list_scope.
Local Open Scope Z_scope.

(** C46: diff does what is claimed exactly if no listed element after the first missing one is left in the list. *)
Theorem C46_diff_exactly : forall A (eq_dec : forall x y : A, {x = y} + {x <> y}) (eqb : A -> A -> bool), (forall x y, eqb x y = true <-> x = y) -> forall xs ys,
  (forall v, count_occ eq_dec (diff eqb xs ys) v = count_occ eq_dec xs v - count_occ eq_dec ys v)%nat <->
  forall done y rest v, ys = done ++ y :: rest -> (count_occ eq_dec xs y <= count_occ eq_dec done y)%nat -> In v rest ->
    (count_occ eq_dec xs v <= count_occ eq_dec done v)%nat.
Proof. exact @diff_exactly. Qed.
Print Assumptions C46_diff_exactly.
(** What is removed: the listed elements up to the first that is missing. *)
Theorem C46_diff_removes : forall A (eq_dec : forall x y : A, {x = y} + {x <> y}) (eqb : A -> A -> bool), (forall x y, eqb x y = true <-> x = y) -> forall ys xs,
  exists done rest, ys = done ++ rest /\ (forall v, count_occ eq_dec done v <= count_occ eq_dec xs v)%nat
    /\ (forall v, count_occ eq_dec (diff eqb xs ys) v = count_occ eq_dec xs v - count_occ eq_dec done v)%nat
    /\ match rest with [] => True | y :: _ => count_occ eq_dec xs y = count_occ eq_dec done y end.
Proof. exact @diff_exact. Qed.
Print Assumptions C46_diff_removes.
Example C46_diff_removes_example : diff Nat.eqb [1; 2; 1; 3]%nat [3; 1; 3; 2]%nat = [2; 1]%nat.
Proof. reflexivity. Qed.

(** C49: the models of a continued search are ranked by a mixture: those of the first search by its utility, later ones by the new one. *)
Theorem C49_mixed : forall D Sc W (sle : Sc -> Sc -> bool), total_preorder sle ->
  forall (next : W -> nat) (fit : fitter D W), fresh_fitter next fit ->
  forall offset rules utility utility' start rounds beam verbose w w1 st1,
  explore_model_space sle offset fit rules utility start rounds beam verbose w = (w1, Ok st1) ->
  forall offset' rules' rounds' beam' verbose' w2 st2,
  model_search_rounds sle offset' fit rules' utility' rounds' beam' verbose' st1 w1 = (w2, Ok st2) ->
  exists score, (forall m, In m (sorted_models st1) -> score m = utility m)
    /\ (forall m, In m (sorted_models st2) -> ~ In m (sorted_models st1) -> score m = utility' m)
    /\ (forall m, In m (sorted_models st2) -> exists s, score m = Ok s) /\ ranked sle score (sorted_models st2).
Proof. intros D Sc W. exact continued_mixed. Qed.
Print Assumptions C49_mixed.
(** A search continued with another utility, which finds more models. *)
Example C49_mixed_example : exists w1 st1 w2 st2,
  explore_model_space Z.leb true toy_fit toy_rules toy_score toy_start 0 (BInt 1) false toy_world = (w1, Ok st1)
  /\ model_search_rounds Z.leb true toy_fit toy_rules toy_score' 1 [1] false st1 w1 = (w2, Ok st2)
  /\ (0 < Datatypes.length (sorted_models st1) < Datatypes.length (sorted_models st2))%nat.
Proof. do 4 eexists. split; [vm_compute; reflexivity|]. split; [vm_compute; reflexivity|]. vm_compute. lia. Qed.
