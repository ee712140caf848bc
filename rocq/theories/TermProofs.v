(** term_count (C77). *)
From Coq Require Import List Bool Arith ZArith Lia.
From Verif Require Import Py UtilModel KexModel KexSpec KexProofs KexSimp KexCong OpsModel OpsSpec OpsProofs SemSpec SemProofs.
Import ListNotations.
Local Open Scope list_scope.
Local Open Scope Z_scope.

Lemma bases_in_length c : (forall b, 0 <= cget c b) -> Z.of_nat (length (bases_in c)) = bsum (cget c).
Proof.
  intros P. unfold bases_in, bsum. induction all_bases as [|b l IH]; [reflexivity|]. cbn [map concat fold_right]. rewrite app_length, repeat_length, Nat2Z.inj_add, IH.
  rewrite Z2Nat.id by apply P. reflexivity.
Qed.
Lemma term_count_terms k b c : wf_counter b -> term_count (Comm k b c) = Some (terms b c).
Proof. intros W. cbn [term_count]. rewrite csum_bsum by apply wf_nodup, W. rewrite terms_bsum. reflexivity. Qed.
Lemma term_count_counts k b c : wf_counter b -> term_count (Comm k b c) = Some (Z.of_nat (length (bases_in b) + length c)).
Proof.
  intros W. rewrite (term_count_terms k b c W), terms_bsum, Nat2Z.inj_add, bases_in_length; [reflexivity|]. intros x. apply wf_nonneg, W.
Qed.
Lemma term_count_keq a b : wf a -> wf b -> keq a b = true -> term_count a = term_count b.
Proof.
  intros Wa Wb E. apply keq_spec in E. destruct a as [k ba ca|o l r].
  - apply reord_comm_inv in E as (b2 & c2 & c2' & -> & Hc & P & F). apply wf_comm in Wa as [Wa _], Wb as [Wb _].
    rewrite !term_count_terms by assumption. rewrite !terms_bsum, !bsum_expand, !Hc. f_equal. f_equal. f_equal.
    rewrite (Permutation.Permutation_length P). clear - F. induction F; cbn; congruence.
  - apply reord_change_inv in E as (l2 & r2 & -> & _). reflexivity.
Qed.
Lemma remove_iff offset k b c : wf_counter b -> (forall x, In x c -> wf x) ->
  (remove_a_term offset (Comm k b c) = [] <-> exists n, term_count (Comm k b c) = Some n /\ n <= 1).
Proof.
  intros W Wc. rewrite (term_count_terms k b c W). cbn [remove_a_term]. unfold remove_args. rewrite csum_bsum by apply wf_nodup, W. rewrite <- terms_bsum.
  destruct (1 <? terms b c) eqn:E.
  - apply Z.ltb_lt in E. split; [|intros (n & [= <-] & L); lia]. intros H. exfalso. apply (f_equal (@length kex)) in H. rewrite map_length, app_length, !map_length, seq_length in H.
    cbn [length] in H. destruct (cpos b) as [|[x n] t] eqn:Eb; cbn [length] in H; [|lia]. rewrite (wf_cpos b W) in Eb. subst b. destruct c; [|cbn [length] in H; lia].
    discriminate E.
  - apply Z.ltb_ge in E. split; [intros _; eexists; split; [reflexivity|exact E]|reflexivity].
Qed.
Lemma single_iff e : wf e -> (singleton e <-> term_count e = Some 1).
Proof.
  intros W. destruct e as [k b c|o l r].
  - rewrite singleton_comm. apply wf_comm in W as [W _]. rewrite (term_count_terms k b c W). split; [intros ->; reflexivity|intros [= H]; exact H].
  - split; [intros (k & b & c & H & _)|]; discriminate.
Qed.
