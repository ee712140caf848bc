(** Lemmas for C19 in the terms of HeapSpec.v. *)
From Coq Require Import List Bool Arith ZArith NArith Lia.
From Verif Require Import Py KexModel KexSpec OpsModel HeapModel HeapSpec HeapBase HeapNew HeapOps KexSimp KexMore HeapCover HeapMain.
Import ListNotations.

Lemma constructor_comm offset h k bts cs es F : apart (tree_at h) cs es F -> linked h F -> (forall j, In j F -> N.lt j (next h)) ->
  exists s h' ids, evaluates (fun n => new_comm offset n k bts cs) h s h' /\ untouched h h' /\ constructed h' s (mk offset k bts es) ids /\ new_in h h' ids.
Proof.
  intros A L Al. destruct (ev_new_comm offset h k bts cs es F A Al L) as (s & h' & E & (X & ids & T & R & L' & P)).
  exists s, h', ids. split; [exact E|]. split; [apply X|]. split; [|exact R]. split; [exact T|]. split; [exact L'|]. split; [exact P|]. intros j Hj. apply R, Hj.
Qed.
Lemma constructor_change offset h c l r l' r' F G : branch_at h l l' F -> branch_at h r r' G -> linked h F -> linked h G -> (forall j, In j (F ++ G) -> N.lt j (next h)) ->
  exists s h' ids, evaluates (fun n => new_change offset n c l r) h s h' /\ untouched h h' /\ constructed h' s (mk_change offset c l' r') ids /\ new_in h h' ids.
Proof.
  intros B1 B2 L1 L2 Al. destruct (ev_new_change offset h c l r l' r' F G) as (s & h' & E & (X & ids & T & R & L' & P)).
  - split; [exact B1|]. split; [|exact L1]. intros j Hj. apply Al, in_app_iff. left. exact Hj.
  - split; [exact B2|]. split; [|exact L2]. intros j Hj. apply Al, in_app_iff. right. exact Hj.
  - exists s, h', ids. split; [exact E|]. split; [apply X|]. split; [|exact R]. split; [exact T|]. split; [exact L'|]. split; [exact P|]. intros j Hj. apply R, Hj.
Qed.
Lemma initialise_links offset h i e ids : constructed h i e ids ->
  exists h' ids', evaluates (fun n => initialise offset n i) h i h' /\ expression h' i (KexModel.initialise offset e) ids' /\ incl ids' ids
    /\ forall j, ~ In j ids -> obj h' j = obj h j.
Proof.
  intros (T & L & P & Al). destruct (ev_initialise offset h i e ids T Al P) as (h' & ids' & E & X & I & _ & O). exists h', ids'. auto.
Qed.
Lemma expand_normal offset bases noC h i e ids rules : expression h i e ids -> normal offset e ->
  exists rs h' F, evaluates (fun n => expand offset bases noC n rules i) h rs h' /\ untouched h h'
    /\ apart (expression h') rs (OpsModel.expand offset (map (rule_of offset bases noC) rules) e) F /\ new_in h h' F.
Proof. intros E N. apply (ev_expand offset bases noC h i e ids rules E); [eapply normal_wf; exact N|]. intros _. apply normal_equal_normal, N. Qed.
Lemma expand_initialised offset bases noC h i e ids rules : constructed h i e ids -> KexSpec.built offset e ->
  exists rs h1 h' ids1 F, evaluates (fun n => initialise offset n i) h i h1 /\ expression h1 i (KexModel.initialise offset e) ids1
    /\ evaluates (fun n => expand offset bases noC n rules i) h1 rs h' /\ untouched h1 h'
    /\ apart (expression h') rs (OpsModel.expand offset (map (rule_of offset bases noC) rules) (KexModel.initialise offset e)) F /\ new_in h1 h' F.
Proof.
  intros C B. destruct (initialise_links offset h i e ids C) as (h1 & ids1 & E1 & X1 & _ & _).
  destruct (expand_normal offset bases noC h1 i _ ids1 rules X1 (proj1 (initialise_normal offset e B))) as (rs & h' & F & E2 & U & A & N). exists rs, h1, h', ids1, F. auto 8.
Qed.
