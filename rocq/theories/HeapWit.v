(** Witnesses for C19: a larger recursion limit does not change a result; concrete heaps. *)
From Coq Require Import List Bool Arith ZArith NArith Lia.
From Verif Require Import Py UtilModel KexModel KexSpec KexProofs KexCheck OpsModel HeapModel HeapSpec.
Import ListNotations.

(** ** Recursion limits *)
Definition le_m {A} (m m' : HM A) : Prop := forall h r, m h = Some r -> m' h = Some r.
Lemma le_refl {A} (m : HM A) : le_m m m. Proof. intros h r E. exact E. Qed.
Lemma le_bind {A B} (m m' : HM A) (f f' : A -> HM B) : le_m m m' -> (forall a, le_m (f a) (f' a)) -> le_m (hbind m f) (hbind m' f').
Proof. intros H K h r. unfold hbind. destruct (m h) as [[a h1]|] eqn:E; [|discriminate]. rewrite (H _ _ E). apply K. Qed.
Lemma le_hmap {A B} (f f' : A -> HM B) l : (forall x, le_m (f x) (f' x)) -> le_m (hmap f l) (hmap f' l).
Proof. intros H. induction l as [|x l IH]; cbn [hmap]; [apply le_refl|]. apply le_bind; [apply H|]. intros y. apply le_bind; [exact IH|]. intros. apply le_refl. Qed.
Lemma le_hbranch {A} (f f' : ref -> HM A) b : (forall x, le_m (f x) (f' x)) -> le_m (hbranch f b) (hbranch f' b).
Proof. intros H. destruct b as [b|i]; cbn [hbranch]; [apply le_refl|]. apply le_bind; [apply H|]. intros. apply le_refl. Qed.
Lemma le_fail {A} (m : HM A) : le_m hfail m. Proof. intros h r E. discriminate E. Qed.
Create HintDb limit.
Ltac le_tac :=
  repeat first
    [ apply le_refl | apply le_fail | solve [eauto with limit] | apply le_bind; [|intros] | apply le_hmap; intros | apply le_hbranch; intros
    | match goal with |- le_m (match ?x with _ => _ end) _ => destruct x end ].
Lemma le_read n : forall i, le_m (read n i) (read (S n) i). Proof. induction n as [|n IH]; intros i; [apply le_fail|]. change (read (S (S n)) i) with (let* o := get i in match data o with BComm k bts cts => let* es := hmap (read (S n)) cts in hret (Comm k bts es) | BChange c l r => let* l' := hbranch (read (S n)) l in let* r' := hbranch (read (S n)) r in hret (Change c l' r') end). cbn [read]. le_tac. Qed.
Global Hint Resolve le_read : limit.
Lemma le_equal n a b : le_m (equal n a b) (equal (S n) a b). Proof. unfold equal. le_tac. Qed.
Global Hint Resolve le_equal : limit.
Lemma le_remove n c l : le_m (remove n c l) (remove (S n) c l). Proof. induction l as [|y l IH]; cbn [remove]; le_tac. Qed.
Global Hint Resolve le_remove : limit.
Ltac grow n := let m := fresh "m" in let E := fresh in remember (S n) as m eqn:E; cbn; subst m.
Lemma le_set_root n : forall i r, le_m (set_root n i r) (set_root (S n) i r).
Proof. induction n as [|n IH]; intros i r; [apply le_fail|]. remember (S n) as m eqn:E. rewrite E at 1. cbn [set_root]. subst m. le_tac. Qed.
Global Hint Resolve le_set_root : limit.
Section Limit.
  Context (offset : bool).
  Lemma le_absorb n i c : le_m (absorb offset n i c) (absorb offset (S n) i c). Proof. unfold absorb. le_tac. Qed.
  Hint Resolve le_absorb : limit.
  Lemma le_simplify n : forall i, le_m (simplify offset n i) (simplify offset (S n) i).
  Proof. induction n as [|n IH]; intros i; [apply le_fail|]. remember (S n) as m eqn:E. rewrite E at 1. cbn [simplify]. subst m. le_tac. Qed.
  Hint Resolve le_simplify : limit.
  Lemma le_new_comm n k bts cs : le_m (new_comm offset n k bts cs) (new_comm offset (S n) k bts cs). Proof. unfold new_comm. le_tac. Qed.
  Hint Resolve le_new_comm : limit.
  Lemma le_new_list n k bs cs : le_m (new_list offset n k bs cs) (new_list offset (S n) k bs cs). Proof. apply le_new_comm. Qed.
  Lemma le_new_change n c l r : le_m (new_change offset n c l r) (new_change offset (S n) c l r). Proof. unfold new_change. le_tac. Qed.
  Hint Resolve le_new_list le_new_change : limit.
  Lemma le_traverse n : forall i, le_m (traverse offset n i) (traverse offset (S n) i).
  Proof. induction n as [|n IH]; intros i; [apply le_fail|]. remember (S n) as m eqn:E. rewrite E at 1. cbn [traverse]. subst m. le_tac. Qed.
  Hint Resolve le_traverse : limit.
  Lemma le_the_list m m' : le_m m m' -> le_m (the_list m) (the_list m'). Proof. intros H. unfold the_list. le_tac. Qed.
  Lemma le_remove_a_term n s : le_m (remove_a_term offset n s) (remove_a_term offset (S n) s). Proof. unfold remove_a_term. le_tac. Qed.
  Hint Resolve le_remove_a_term : limit.
  Lemma le_reassign n i a b : le_m (reassign_child n i a b) (reassign_child (S n) i a b). Proof. unfold reassign_child. le_tac. Qed.
  Hint Resolve le_reassign : limit.
  Lemma le_replaced n a b : le_m (new_tree_with_self_replaced n a b) (new_tree_with_self_replaced (S n) a b). Proof. unfold new_tree_with_self_replaced. le_tac. Qed.
  Hint Resolve le_replaced : limit.
  Lemma le_remove_rule bases noC n s : le_m (apply_rule offset bases noC n RemoveSomeTerm s) (apply_rule offset bases noC (S n) RemoveSomeTerm s).
  Proof. cbn [apply_rule]. unfold deep_apply. le_tac. Qed.
  Hint Resolve le_remove_rule : limit.
  Lemma le_unique n l : le_m (unique_refs n l) (unique_refs (S n) l). Proof. unfold unique_refs. le_tac. Qed.
  Hint Resolve le_unique : limit.
  Lemma le_standardise n : forall i, le_m (standardise offset n i) (standardise offset (S n) i).
  Proof. induction n as [|n IH]; intros i; [apply le_fail|]. remember (S n) as m eqn:E. rewrite E at 1. cbn [standardise]. subst m. le_tac. Qed.
  Hint Resolve le_standardise : limit.
  Lemma le_remove_expand bases noC n i : le_m (expand offset bases noC n [RemoveSomeTerm] i) (expand offset bases noC (S n) [RemoveSomeTerm] i).
  Proof. unfold expand, expand_node, roots. cbn [hmap]. le_tac. Qed.
  Lemma remove_expand_result bases noC n i h rs h' : expand offset bases noC n [RemoveSomeTerm] i h = Some (rs, h') ->
    evaluates (fun n => expand offset bases noC n [RemoveSomeTerm] i) h rs h'.
  Proof. intros E. exists n. intros m Hm. induction Hm as [|m Hm IH]; [exact E|]. apply le_remove_expand, IH. Qed.
End Limit.

(** ** CP(LIN * PER, PER) + CP(LIN * PER, PER) *)
Definition a_change : kex := Change CP (inr (Comm KProd [(bLIN, 1%Z); (bPER, 1%Z)] [])) (inl bPER).
Definition two_changes : kex := Comm KSum [] [a_change; a_change].
Definition two_heap : heap :=
  Heap 5%N (fun j =>
    match j with
    | 0 => Obj (Some 0) None (BComm KSum [] [1; 3])
    | 1 => Obj (Some 0) (Some 0) (BChange CP (inr 2) (inl bPER))
    | 2 => Obj (Some 0) (Some 1) (BComm KProd [(bLIN, 1%Z); (bPER, 1%Z)] [])
    | 3 => Obj (Some 0) (Some 0) (BChange CP (inr 4) (inl bPER))
    | _ => Obj (Some 0) (Some 3) (BComm KProd [(bLIN, 1%Z); (bPER, 1%Z)] [])
    end%N).
Lemma two_expression : expression two_heap 0%N two_changes [0; 1; 2; 3; 4]%N.
Proof.
  assert (Q : forall P : ref -> Prop, P 0%N -> P 1%N -> P 2%N -> P 3%N -> P 4%N -> forall j, In j [0; 1; 2; 3; 4]%N -> P j).
  { intros P P0 P1 P2 P3 P4 j [<-|[<-|[<-|[<-|[<-|[]]]]]]; assumption. }
  split; [|split].
  - apply (at_comm two_heap 0%N KSum [] [1; 3]%N [a_change; a_change] [1; 2; 3; 4]%N); [reflexivity| |cbn; intros K; repeat (destruct K as [K|K]; [discriminate|]); exact K].
    assert (T : forall i k, data (obj two_heap i) = BChange CP (inr k) (inl bPER) -> i <> k -> data (obj two_heap k) = BComm KProd [(bLIN, 1%Z); (bPER, 1%Z)] [] -> tree_at two_heap i a_change [i; k]).
    { intros i k Hi N Hk. apply (at_change two_heap i CP (inr k) (inl bPER) _ _ [k] []); [exact Hi| |constructor|intros j _ []|cbn; intros [K|[]]; congruence].
      constructor. apply (at_comm _ _ _ _ [] [] []); [exact Hk|constructor|intros []]. }
    apply (apart_cons (tree_at two_heap) 1%N a_change [1; 2]%N [3%N] [a_change] [3; 4]%N); [apply T; [reflexivity|discriminate|reflexivity]| |].
    + apply (apart_cons (tree_at two_heap) 3%N a_change [3; 4]%N [] [] []); [apply T; [reflexivity|discriminate|reflexivity]|constructor|intros j _ []].
    + intros j [<-|[<-|[]]] [K|[K|[]]]; discriminate K.
  - split; [reflexivity|]. split.
    + intros n c Hn. revert c. revert n Hn. apply (Q (fun n => forall c, In c (children (data (obj two_heap n))) -> parent (obj two_heap c) = Some n)); cbn; intros c K;
        repeat (destruct K as [<-|K]; [reflexivity|]); destruct K.
    + apply (Q (fun n => root (obj two_heap n) = Some 0%N)); reflexivity.
  - apply (Q (fun j => N.lt j (next two_heap))); reflexivity.
Qed.
Lemma two_wf : wf two_changes.
Proof. apply (okb_sound two_changes). reflexivity. Qed.

(** ** PER + CP(LIN * PER, PER) *)
Definition one_change_sum : kex := Comm KSum [(bPER, 1%Z)] [a_change].
Definition one_heap : heap :=
  Heap 3%N (fun j =>
    match j with
    | 0 => Obj (Some 0) None (BComm KSum [(bPER, 1%Z)] [1])
    | 1 => Obj (Some 0) (Some 0) (BChange CP (inr 2) (inl bPER))
    | _ => Obj (Some 0) (Some 1) (BComm KProd [(bLIN, 1%Z); (bPER, 1%Z)] [])
    end%N).
Lemma one_tree : tree_at one_heap 1%N a_change [1; 2]%N.
Proof.
  apply (at_change one_heap 1%N CP (inr 2%N) (inl bPER) _ _ [2%N] []); [reflexivity| |constructor|intros j _ []|cbn; intros [K|[]]; discriminate K].
  constructor. apply (at_comm _ _ _ _ [] [] []); [reflexivity|constructor|intros []].
Qed.
Lemma one_expression : expression one_heap 0%N one_change_sum [0; 1; 2]%N.
Proof.
  assert (Q : forall P : ref -> Prop, P 0%N -> P 1%N -> P 2%N -> forall j, In j [0; 1; 2]%N -> P j) by (intros P P0 P1 P2 j [<-|[<-|[<-|[]]]]; assumption).
  split; [|split].
  - apply (at_comm one_heap 0%N KSum _ [1%N] [a_change] [1; 2]%N); [reflexivity| |cbn; intros K; repeat (destruct K as [K|K]; [discriminate|]); exact K].
    apply (apart_cons (tree_at one_heap) 1%N a_change [1; 2]%N [] [] []); [exact one_tree|constructor|intros j _ []].
  - split; [reflexivity|]. split.
    + intros n c Hn. revert c. revert n Hn. apply (Q (fun n => forall c, In c (children (data (obj one_heap n))) -> parent (obj one_heap c) = Some n)); cbn; intros c K;
        repeat (destruct K as [<-|K]; [reflexivity|]); destruct K.
    + apply (Q (fun n => root (obj one_heap n) = Some 0%N)); reflexivity.
  - apply (Q (fun j => N.lt j (next one_heap))); reflexivity.
Qed.

(** ** WN + (LIN + PER), as the constructors leave it *)
Definition nested_sum : kex := Comm KSum [(bWN, 1%Z)] [Comm KSum [(bLIN, 1%Z); (bPER, 1%Z)] []].
Definition nested_heap : heap :=
  Heap 2%N (fun j =>
    match j with
    | 0 => Obj (Some 0) None (BComm KSum [(bWN, 1%Z)] [1])
    | _ => Obj (Some 0) (Some 0) (BComm KSum [(bLIN, 1%Z); (bPER, 1%Z)] [])
    end%N).
Lemma nested_expression : expression nested_heap 0%N nested_sum [0; 1]%N.
Proof.
  assert (Q : forall P : ref -> Prop, P 0%N -> P 1%N -> forall j, In j [0; 1]%N -> P j) by (intros P P0 P1 j [<-|[<-|[]]]; assumption).
  split; [|split].
  - apply (at_comm nested_heap 0%N KSum _ [1%N] [Comm KSum [(bLIN, 1%Z); (bPER, 1%Z)] []] [1]%N); [reflexivity| |cbn; intros K; repeat (destruct K as [K|K]; [discriminate|]); exact K].
    apply (apart_cons (tree_at nested_heap) 1%N (Comm KSum [(bLIN, 1%Z); (bPER, 1%Z)] []) [1]%N [] [] []); [|constructor|intros j _ []]. apply (at_comm _ _ _ _ [] [] []); [reflexivity|constructor|intros []].
  - split; [reflexivity|]. split.
    + intros n c Hn. revert c. revert n Hn. apply (Q (fun n => forall c, In c (children (data (obj nested_heap n))) -> parent (obj nested_heap c) = Some n)); cbn; intros c K;
        repeat (destruct K as [<-|K]; [reflexivity|]); destruct K.
    + apply (Q (fun n => root (obj nested_heap n) = Some 0%N)); reflexivity.
  - apply (Q (fun j => N.lt j (next nested_heap))); reflexivity.
Qed.
Lemma nested_constructed : constructed nested_heap 0%N nested_sum [0; 1]%N.
Proof. destruct nested_expression as (T & (P & L & R) & A). repeat (split; [assumption|]). exact A. Qed.
Lemma nested_built : built true nested_sum.
Proof.
  change nested_sum with (mkl true KSum [bWN] [mkl true KProd [] [mkl true KSum [bLIN; bPER] []]]).
  apply built_list; intros c [<-|[]]; apply built_list; intros c [<-|[]]; apply built_list; intros c [].
Qed.
Lemma nested_wf : wf nested_sum. Proof. apply (okb_sound nested_sum). reflexivity. Qed.
Lemma nested_changes : equal_changes_normal true nested_sum.
Proof.
  intros k bts pre x mid y post Hn _ _. exfalso. apply node_comm_inv in Hn as [Hn|(z & [<-|[]] & Hn)].
  - injection Hn as _ _ Hn. destruct pre as [|p pre]; cbn in Hn; [|destruct pre; discriminate]. destruct mid; discriminate.
  - apply node_comm_inv in Hn as [Hn|(z & [] & _)]. injection Hn as _ _ Hn. destruct pre; discriminate.
Qed.
Lemma two_normal : normal true two_changes. Proof. apply (normalb_sound true two_changes). reflexivity. Qed.
