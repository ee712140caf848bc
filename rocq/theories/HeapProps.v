(** Properties of the objects that make up expressions: C19. *)
From Coq Require Import List Bool Arith ZArith NArith.
From Verif Require Import Py KexModel KexSpec OpsModel HeapModel HeapSpec HeapMain HeapProofs HeapWit.
Import ListNotations.

(** The constructors build new objects with consistent parents, whatever operands they are given (even one object twice, for a Change). *)
Theorem C19_sum_or_product : forall offset h k bts cs es F,
  apart (tree_at h) cs es F -> linked h F -> (forall j, In j F -> N.lt j (next h)) ->
  exists s h' ids, evaluates (fun n => new_comm offset n k bts cs) h s h' /\ untouched h h' /\ constructed h' s (mk offset k bts es) ids /\ new_in h h' ids.
Proof. exact constructor_comm. Qed.
Print Assumptions C19_sum_or_product.
Theorem C19_change : forall offset h c l r l' r' F G,
  branch_at h l l' F -> branch_at h r r' G -> linked h F -> linked h G -> (forall j, In j (F ++ G) -> N.lt j (next h)) ->
  exists s h' ids, evaluates (fun n => new_change offset n c l r) h s h' /\ untouched h h' /\ constructed h' s (mk_change offset c l' r') ids /\ new_in h h' ids.
Proof. exact constructor_change. Qed.
Print Assumptions C19_change.
(** _initialise makes everything consistent. *)
Theorem C19_initialise : forall offset h i e ids, constructed h i e ids ->
  exists h' ids', evaluates (fun n => HeapModel.initialise offset n i) h i h' /\ expression h' i (KexModel.initialise offset e) ids' /\ incl ids' ids
    /\ forall j, ~ In j ids -> obj h' j = obj h j.
Proof. exact initialise_links. Qed.
Print Assumptions C19_initialise.
(** expand returns the expressions of the tree model (OpsModel.v), each made of new objects of its own with consistent links, and changes no
    existing object: for expressions in normal form, and so (with C04) for whatever the constructors and _initialise give. *)
Theorem C19_expand : forall offset bases noC h i e ids rules,
  expression h i e ids -> normal offset e ->
  exists rs h' F, evaluates (fun n => HeapModel.expand offset bases noC n rules i) h rs h' /\ untouched h h'
    /\ apart (expression h') rs (OpsModel.expand offset (map (rule_of offset bases noC) rules) e) F /\ new_in h h' F.
Proof. exact expand_normal. Qed.
Print Assumptions C19_expand.
Theorem C19_expand_initialised : forall offset bases noC h i e ids rules,
  constructed h i e ids -> built offset e ->
  exists rs h1 h' ids1 F, evaluates (fun n => HeapModel.initialise offset n i) h i h1 /\ expression h1 i (KexModel.initialise offset e) ids1
    /\ evaluates (fun n => HeapModel.expand offset bases noC n rules i) h1 rs h' /\ untouched h1 h'
    /\ apart (expression h') rs (OpsModel.expand offset (map (rule_of offset bases noC) rules) (KexModel.initialise offset e)) F /\ new_in h1 h' F.
Proof. exact expand_initialised. Qed.
Print Assumptions C19_expand_initialised.
(** The same for expressions that are not in normal form: only equal changes in one Sum or Product have to be (for remove_some_term). *)
Theorem C19_expand_general : forall offset bases noC h i e ids rules,
  expression h i e ids -> wf e -> (In RemoveSomeTerm rules -> equal_changes_normal offset e) ->
  exists rs h' F, evaluates (fun n => HeapModel.expand offset bases noC n rules i) h rs h' /\ untouched h h'
    /\ apart (expression h') rs (OpsModel.expand offset (map (rule_of offset bases noC) rules) e) F /\ new_in h h' F.
Proof. exact ev_expand. Qed.
Print Assumptions C19_expand_general.
(** An expression with two equal changes: an intermediate result for the second one shares a part with it, and is dropped. *)
Example C19_expand_example : expression two_heap 0%N two_changes [0; 1; 2; 3; 4]%N /\ normal true two_changes
  /\ OpsModel.expand true (map (rule_of true [] []) [RemoveSomeTerm]) two_changes
     = [a_change; Comm KSum [] [a_change; Comm KProd [(bLIN, 1%Z); (bPER, 1%Z)] []]; Comm KSum [(bPER, 1%Z)] [a_change];
        Comm KSum [] [Change CP (inl bPER) (inl bPER); a_change]; Comm KSum [] [Change CP (inl bLIN) (inl bPER); a_change]].
Proof. split; [exact two_expression|]. split; [exact two_normal|]. vm_compute. reflexivity. Qed.
Example C19_general_example : expression nested_heap 0%N nested_sum [0; 1]%N /\ wf nested_sum /\ equal_changes_normal true nested_sum /\ constructed nested_heap 0%N nested_sum [0; 1]%N /\ built true nested_sum
  /\ KexModel.initialise true nested_sum = Comm KSum [(bWN, 1%Z); (bLIN, 1%Z); (bPER, 1%Z)] [].
Proof. split; [exact nested_expression|]. split; [exact nested_wf|]. split; [exact nested_changes|]. split; [exact nested_constructed|]. split; [exact nested_built|reflexivity]. Qed.
Example C19_constructor_example : apart (tree_at one_heap) [1%N] [a_change] [1; 2]%N /\ branch_at one_heap (inr 1%N) (inr a_change) [1; 2]%N
  /\ mk true KSum [(bWN, 2%Z)] [a_change] = Comm KSum [(bWN, 1%Z)] [a_change].
Proof.
  split; [apply (apart_cons (tree_at one_heap) 1%N a_change [1; 2]%N [] [] []); [exact one_tree|constructor|intros j _ []]|]. split; [constructor; exact one_tree|reflexivity].
Qed.
