(** C03, continued: exactly which constructor calls give an empty expression. *)
From Coq Require Import List Bool Arith ZArith Lia.
From Verif Require Import Py KexModel KexSpec KexProofs KexSimp KexMore HollowSpec HollowProofs.
Import ListNotations.
Local Open Scope Z_scope.

(** C03: SumKE and ProductKE, given at least one term and non-empty composites, give a non-empty expression unless everything is a factor C, at least
    one of them in a product given as a composite. *)
Theorem C03_exactly : forall offset k bts cts,
  wf_counter bts -> 0 < terms bts cts -> (forall c, In c cts -> built offset c /\ non_empty c) ->
  (non_empty (mk offset k bts cts) <-> ~ (k = KProd /\ cts <> [] /\ only_C bts /\ forall c, In c cts -> product_of_C c)).
Proof. exact mk_empty_exactly. Qed.
Print Assumptions C03_exactly.
(** C times a product of C is empty; C times a product of C and a product of PER is not, though a composite has a factor C. *)
Example C03_exactly_example : (forall c, In c [mkl true KProd [bC] []; mkl true KProd [bPER; bPER] []] -> built true c /\ non_empty c)
  /\ product_of_C (mkl true KProd [bC] []) /\ ~ product_of_C (mkl true KProd [bPER; bPER] [])
  /\ mk true KProd [(bC, 1)] [mkl true KProd [bC] []] = Comm KProd [] []
  /\ mk true KProd [(bC, 1)] [mkl true KProd [bC] []; mkl true KProd [bPER; bPER] []] = Comm KProd [(bPER, 2)] [].
Proof.
  split; [|split; [|split; [|split; reflexivity]]].
  - intros c [<-|[<-|[]]]; (split; [apply built_list; intros ? []|]; intros k bts cts Hn; apply node_comm_inv in Hn as [[= -> -> ->]|(x & [] & _)]; reflexivity).
  - exists [(bC, 1)]. split; [reflexivity|]. intros b Hb. destruct b; try reflexivity; congruence.
  - intros (b & E & O). change (mkl true KProd [bPER; bPER] []) with (Comm KProd [(bPER, 2)] []) in E. injection E as <-. specialize (O bPER ltac:(discriminate)). discriminate O.
Qed.
