(** Merging tables of running times (C82). *)
From Coq Require Import String List Bool Arith ZArith QArith Lia Lqa Sorting.Sorted Permutation.
From Verif Require Import Py UtilProofs BenchModel BenchSpec BenchProofs.
Import ListNotations.
Local Open Scope list_scope.
Local Open Scope Q_scope.
Notation length := Datatypes.length.

Notation mle := (fun a b => b_mean a <= b_mean b).
Lemma unique_sorted l : forall l', Permutation l l' -> StronglySorted mle l -> StronglySorted mle l' -> (forall a b, In a l -> In b l -> b_mean a == b_mean b -> a = b) -> l = l'.
Proof.
  induction l as [|a l IH]; intros l' P S S' H; [now apply Permutation_nil in P|]. destruct l' as [|b l']; [apply Permutation_sym, Permutation_nil in P; discriminate P|].
  inversion S as [|? ? Sl Fl]; subst. inversion S' as [|? ? Sl' Fl']; subst. rewrite Forall_forall in Fl, Fl'.
  assert (Ib : In b (a :: l)) by (eapply Permutation_in; [apply Permutation_sym, P|left; reflexivity]). assert (Ia : In a (b :: l')) by (eapply Permutation_in; [exact P|left; reflexivity]).
  assert (E : a = b). { destruct Ib as [E|Ib]; [exact E|]. destruct Ia as [E|Ia]; [now symmetry|]. apply H; [left; reflexivity|right; exact Ib|]. specialize (Fl b Ib). specialize (Fl' a Ia). cbn in Fl, Fl'. lra. }
  subst b. f_equal. apply IH; [now apply Permutation_cons_inv in P|exact Sl|exact Sl'|]. intros x y Ix Iy. apply H; right; assumption.
Qed.
Lemma compare_pos n fs : (3 <= n)%nat -> fs <> [] -> positive_times fs -> exists b t rows, py_sorted ble (map (measure n) fs) = b :: t /\ compare_implementations n fs [] = Ok rows /\ map r_bench rows = b :: t /\
  chain (b_mean b) (b_mean1 b) rows /\ 0 < b_mean b /\ 0 < b_mean1 b /\ forall r, In r rows -> r_best r == b_mean (r_bench r) / b_mean b /\ r_best1 r == b_mean1 (r_bench r) / b_mean1 b.
Proof.
  intros N NE P. unfold compare_implementations. rewrite app_nil_r. change (fun a b => Qle_bool (b_mean a) (b_mean b)) with ble. destruct (Nat.ltb_spec n 3); [lia|].
  pose proof (py_sorted_perm ble (map (measure n) fs)) as PM. destruct (py_sorted ble (map (measure n) fs)) as [|b t]; [apply Permutation_nil in PM; destruct fs; [contradiction|discriminate PM]|].
  assert (PP : forall x, In x (b :: t) -> 0 < b_mean x /\ 0 < b_mean1 x) by (intros x I; apply (Permutation_in _ PM), in_map_iff in I as (f & <- & I); apply mean_pos; [exact N|apply P, I]).
  destruct (PP b (or_introl eq_refl)) as [B B1]. destruct (ratio_rows_ok (b_mean b) (b_mean1 b) ltac:(lra) ltac:(lra) (b :: t) (b_mean b) (b_mean1 b) ltac:(lra) ltac:(lra)) as (rows & ER & M & C & R).
  { intros x I. destruct (PP x I). lra. }
  exists b, t, rows. split; [reflexivity|]. split; [exact ER|]. split; [|split; [exact C|split; [exact B|split; [exact B1|exact R]]]]. rewrite M. clear -PP. induction (b :: t) as [|x l IH]; [reflexivity|]. cbn. unfold nz1 at 1.
  rewrite (proj2 (nz_true _)) by (destruct (PP x (or_introl eq_refl)); lra). cbn. f_equal. apply IH. intros y I. apply PP. right. exact I.
Qed.
Lemma merged_chain best best1 rows : forall p, chain (b_mean p) (b_mean1 p) rows -> (forall r, In r rows -> r_best r == b_mean (r_bench r) / best /\ r_best1 r == b_mean1 (r_bench r) / best1) ->
  Forall2 same_row (merged_rows best best1 (Some p) (map r_bench rows)) rows.
Proof.
  induction rows as [|r rows IH]; intros p C R; [constructor|]. destruct C as (C1 & C2 & C). destruct (R r (or_introl eq_refl)) as [R1 R2]. cbn [map merged_rows]. constructor.
  - unfold same_row. cbn [r_bench r_best r_best1 r_next r_next1]. rewrite C1, C2, R1, R2. repeat split; reflexivity.
  - apply IH; [exact C|]. intros x I. apply R. right. exact I.
Qed.
Theorem merge_tables order n groups tables : (3 <= n)%nat -> sorts order -> groups <> [] -> positive_times (concat groups) -> Forall2 (fun fs T => compare_implementations n fs [] = Ok T) groups tables ->
  (forall r r', In r (concat tables) -> In r' (concat tables) -> b_mean (r_bench r) == b_mean (r_bench r') -> r_bench r = r_bench r') ->
  exists T M, compare_implementations n (concat groups) [] = Ok T /\ merge_bench_tables order tables = Ok M /\ Forall2 same_row M T.
Proof.
  intros N O NE P F D.
  assert (PM : Permutation (map r_bench (concat tables)) (map (measure n) (concat groups)) /\ concat groups <> []).
  { clear O D. assert (G : Permutation (map r_bench (concat tables)) (map (measure n) (concat groups)) /\ (groups <> [] -> concat groups <> [])); [|destruct G; auto]. clear NE.
    induction F as [|fs T groups tables E F IH]; [split; [constructor|contradiction]|]. cbn [concat] in *.
    assert (NF : fs <> []) by (intros ->; unfold compare_implementations in E; destruct (Nat.ltb_spec n 3); [lia|]; cbn in E; discriminate E).
    split; [|intros _; destruct fs; [contradiction|discriminate]]. rewrite !map_app. apply Permutation_app; [|apply IH; intros f I; apply P, in_or_app; right; exact I].
    destruct (compare_pos n fs N NF) as (b & t & rows & ES & E' & M & _); [intros f I; apply P, in_or_app; left; exact I|]. rewrite E in E'. injection E' as <-. rewrite M, <- ES. apply py_sorted_perm. }
  destruct PM as [PM NC]. destruct (compare_pos n (concat groups) N NC P) as (b & t & rows & ES & E & M & C & B & B1 & R). exists rows.
  destruct (O (map r_bench (concat tables))) as [OP OS].
  assert (EQ : order (map r_bench (concat tables)) = b :: t).
  { apply unique_sorted.
    - rewrite <- OP, PM, <- ES. apply Permutation_sym, py_sorted_perm.
    - exact OS.
    - rewrite <- ES. pose proof (ble_sorted (map (measure n) (concat groups))) as S. clear -S. induction S as [|a l S IH H]; constructor; [exact IH|]. rewrite Forall_forall in *. intros x I. apply mean_le, H, I.
    - intros a a' I I'. apply (Permutation_in _ (Permutation_sym OP)), in_map_iff in I as (r & <- & I). apply (Permutation_in _ (Permutation_sym OP)), in_map_iff in I' as (r' & <- & I'). apply D; assumption. }
  unfold merge_bench_tables. rewrite EQ. eexists. split; [exact E|]. split; [reflexivity|]. destruct rows as [|r rows]; [discriminate M|]. cbn [map] in M. injection M as Mr Mt. subst b. rewrite <- Mt. cbn [merged_rows].
  destruct C as (C1 & C2 & C). destruct (R r (or_introl eq_refl)) as [R1 R2]. constructor.
  - unfold same_row. cbn [r_bench r_best r_best1 r_next r_next1]. rewrite C1, C2, R1, R2. repeat split; try reflexivity; symmetry; unfold Qdiv; apply Qmult_inv_r; lra.
  - apply merged_chain; [exact C|]. intros x I. apply R. right. exact I.
Qed.
