(** Tables of running times (C82). *)
From Coq Require Import String List Bool Arith ZArith QArith Lia Lqa Sorting.Sorted Permutation.
From Verif Require Import Py UtilProofs BenchModel BenchSpec.
Import ListNotations.
Local Open Scope list_scope.
Local Open Scope Q_scope.
Notation length := Datatypes.length.

Definition ble (a b : bench) : bool := Qle_bool (b_mean a) (b_mean b).
Definition nz1 (b : bench) : bool := negb (Qeq_bool (b_mean1 b) 0).

Lemma nz_true q : Qeq_bool q 0 = false <-> ~ q == 0.
Proof. split; [apply Qeq_bool_neq|]. intros H. destruct (Qeq_bool q 0) eqn:E; [apply Qeq_bool_eq in E; contradiction|reflexivity]. Qed.
Lemma div_nz x y : ~ x == 0 -> ~ y == 0 -> ~ x / y == 0.
Proof. intros X Y E. apply X. transitivity (y * (x / y)); [symmetry; apply Qmult_div_r, Y|rewrite E; ring]. Qed.
Lemma qdiv_ok x y : ~ y == 0 -> qdiv x y = Ok (x / y).
Proof. intros H. unfold qdiv. apply nz_true in H. rewrite H. reflexivity. Qed.

Lemma measure_times n f : (3 <= n)%nat -> times_of n f (measure n f).
Proof.
  intros H. destruct n as [|[|[|n]]]; try lia. unfold times_of, measure, timethis, is_mean, is_later_mean. cbn [b_name b_mean b_mean1 b_t0 b_t1 b_t2]. rewrite map_length, seq_length.
  split; [reflexivity|]. split; [|split; [|repeat split; reflexivity]].
  - rewrite Qmult_comm. apply Qmult_div_r. intros E. unfold inject_Z, Qeq in E. cbn [Qnum Qden] in E. lia.
  - replace (tl (map (snd f) (seq 0 (S (S (S n)))))) with (map (snd f) (seq 1 (S (S (S n)) - 1))) by reflexivity.
    rewrite Qmult_comm. apply Qmult_div_r. intros E. unfold inject_Z, Qeq in E. cbn [Qnum Qden] in E. lia.
Qed.
Lemma qsum_nonneg l : (forall q, In q l -> 0 <= q) -> 0 <= qsum l.
Proof. induction l as [|q l IH]; intros H; [cbn; lra|]. cbn [qsum fold_right]. specialize (IH (fun q' I => H q' (or_intror I))). specialize (H q (or_introl eq_refl)). unfold qsum in IH. lra. Qed.
Lemma qsum_pos l : l <> [] -> (forall q, In q l -> 0 < q) -> 0 < qsum l.
Proof.
  destruct l as [|q l]; [contradiction|]. intros _ H. cbn [qsum fold_right]. assert (N := qsum_nonneg l (fun q' I => Qlt_le_weak _ _ (H q' (or_intror I)))). specialize (H q (or_introl eq_refl)). unfold qsum in N. lra.
Qed.
Lemma inject_pos z : (0 < z)%Z -> 0 < inject_Z z.
Proof. intros H. unfold Qlt, inject_Z. cbn. lia. Qed.
Lemma mean_nonneg n f : (3 <= n)%nat -> (forall i, 0 <= snd f i) -> 0 <= b_mean (measure n f).
Proof.
  intros H P. cbn [measure b_mean]. unfold timethis. rewrite map_length, seq_length. apply Qle_shift_div_l; [apply inject_pos; lia|]. rewrite Qmult_0_l. apply qsum_nonneg. intros q I. apply in_map_iff in I as (i & <- & _). apply P.
Qed.
Lemma mean_pos n f : (3 <= n)%nat -> (forall i, 0 < snd f i) -> 0 < b_mean (measure n f) /\ 0 < b_mean1 (measure n f).
Proof.
  intros H P. cbn [measure b_mean b_mean1]. unfold timethis. rewrite map_length, seq_length. split; (apply Qlt_shift_div_l; [apply inject_pos; lia|]); rewrite Qmult_0_l; apply qsum_pos.
  - destruct n; [lia|discriminate].
  - intros q I. apply in_map_iff in I as (i & <- & _). apply P.
  - destruct n as [|[|n]]; try lia; discriminate.
  - intros q I. assert (J : In q (map (snd f) (seq 0 n))) by (destruct (map (snd f) (seq 0 n)); [destruct I|right; exact I]). apply in_map_iff in J as (i & <- & _). apply P.
Qed.
Lemma mean_zero n f : (3 <= n)%nat -> (forall i, 0 <= snd f i) -> b_mean (measure n f) == 0 -> b_mean1 (measure n f) == 0.
Proof.
  intros H P E. destruct (measure_times n f H) as (_ & M & M1 & _). unfold is_mean, is_later_mean in *. rewrite E, Qmult_0_l in M.
  assert (N : 0 <= qsum (map (snd f) (seq 1 (n - 1)))) by (apply qsum_nonneg; intros q I; apply in_map_iff in I as (i & <- & _); apply P).
  assert (S : qsum (map (snd f) (seq 0 n)) == snd f 0%nat + qsum (map (snd f) (seq 1 (n - 1)))) by (destruct n as [|n]; [lia|]; cbn [seq map qsum fold_right]; rewrite Nat.sub_0_r || replace (S n - 1)%nat with n by lia; unfold qsum; reflexivity).
  pose proof (P 0%nat) as P0. assert (Z : qsum (map (snd f) (seq 1 (n - 1))) == 0) by lra. rewrite Z in M1.
  destruct (Qeq_dec (b_mean1 (measure n f)) 0) as [Y|Y]; [exact Y|exfalso].
  apply Qmult_integral in M1 as [M1|M1]; [contradiction|]. pose proof (inject_pos (Z.of_nat n - 1) ltac:(lia)) as I. rewrite M1 in I. lra.
Qed.

Fixpoint chain (last last1 : Q) (rows : list row) : Prop :=
  match rows with
  | [] => True
  | r :: t => r_next r == b_mean (r_bench r) / last /\ r_next1 r == b_mean1 (r_bench r) / last1 /\ chain (b_mean (r_bench r)) (b_mean1 (r_bench r)) t
  end.
Lemma ratio_rows_ok best best1 : ~ best == 0 -> ~ best1 == 0 -> forall l last last1, ~ last == 0 -> ~ last1 == 0 -> (forall b, In b l -> ~ b_mean b == 0) ->
  exists rows, ratio_rows best best1 last last1 l = Ok rows /\ map r_bench rows = filter nz1 l /\ chain last last1 rows
    /\ forall r, In r rows -> r_best r == b_mean (r_bench r) / best /\ r_best1 r == b_mean1 (r_bench r) / best1.
Proof.
  intros B B1. induction l as [|b l IH]; intros last last1 L L1 H; [exists []; split; [reflexivity|]; split; [reflexivity|]; split; [exact I|]; intros r []|].
  assert (Hb := H b (or_introl eq_refl)). assert (Hl := fun b' I => H b' (or_intror I)).
  cbn [ratio_rows]. rewrite (qdiv_ok _ last L). cbn [bind]. rewrite (proj2 (nz_true _) (div_nz _ _ Hb L)). rewrite (qdiv_ok _ last1 L1). cbn [bind filter]. unfold nz1 at 1.
  destruct (Qeq_bool (b_mean1 b) 0) eqn:E.
  - assert (Q0 : Qeq_bool (b_mean1 b / last1) 0 = true) by (apply Qeq_bool_iff; apply Qeq_bool_eq in E; unfold Qdiv; rewrite E; ring). rewrite Q0. cbn [negb]. apply IH; assumption.
  - apply nz_true in E. rewrite (proj2 (nz_true _) (div_nz _ _ E L1)). rewrite (proj2 (nz_true _) Hb). rewrite (qdiv_ok _ best B). cbn [bind]. rewrite (qdiv_ok _ best1 B1). cbn [bind negb].
    destruct (IH (b_mean b) (b_mean1 b) Hb E Hl) as (rows & ER & M & C & R). rewrite ER. cbn [bind]. eexists. split; [reflexivity|]. cbn [map r_bench chain r_next r_next1]. split; [now rewrite M|].
    split; [split; [reflexivity|split; [reflexivity|exact C]]|]. intros r [<-|I]; [cbn [r_best r_best1 r_bench]; split; reflexivity|apply R, I].
Qed.
Lemma chain_nth rows : forall last last1 i r r', (forall r, In r rows -> ~ b_mean (r_bench r) == 0 /\ ~ b_mean1 (r_bench r) == 0) -> chain last last1 rows -> nth_error rows i = Some r -> nth_error rows (S i) = Some r' ->
  r_next r' * b_mean (r_bench r) == b_mean (r_bench r') /\ r_next1 r' * b_mean1 (r_bench r) == b_mean1 (r_bench r').
Proof.
  induction rows as [|a rows IH]; intros last last1 i r r' H C E E'; [destruct i; discriminate E|]. destruct C as (_ & _ & C). destruct i as [|i].
  - injection E as <-. destruct rows as [|b rows]; [discriminate E'|]. injection E' as <-. destruct C as (C1 & C2 & _). destruct (H a (or_introl eq_refl)) as [H1 H2]. rewrite C1, C2. split; rewrite Qmult_comm; apply Qmult_div_r; assumption.
  - eapply (IH _ _ i); [intros x I; apply H; right; exact I|exact C|exact E|exact E'].
Qed.
Lemma ble_sorted l : StronglySorted (fun a b => ble a b = true) (py_sorted ble l).
Proof. apply py_sorted_sorted; unfold ble; [intros x y; destruct (Qlt_le_dec (b_mean y) (b_mean x)); [right|left]; apply Qle_bool_iff; lra|intros x y z; rewrite !Qle_bool_iff; lra]. Qed.
Lemma mean_le a b : ble a b = true <-> b_mean a <= b_mean b.
Proof. apply Qle_bool_iff. Qed.
Lemma filter_sorted {A} (R : A -> A -> Prop) p l : StronglySorted R l -> StronglySorted R (filter p l).
Proof.
  induction 1 as [|a l S IH F]; [constructor|]. cbn. destruct (p a); [|exact IH]. constructor; [exact IH|]. apply Forall_forall. intros x I. apply filter_In in I as [I _]. rewrite Forall_forall in F. apply F, I.
Qed.
Lemma sorted_nth {A} (R : A -> A -> Prop) l : StronglySorted R l -> forall i a b, nth_error l i = Some a -> nth_error l (S i) = Some b -> R a b.
Proof.
  induction 1 as [|x l S IH F]; intros i a b E E'; [destruct i; discriminate E|]. destruct i as [|i]; [|eapply (IH i); eassumption].
  injection E as <-. rewrite Forall_forall in F. apply F. apply (nth_error_In l 0). exact E'.
Qed.
Lemma chain_ranked b t rows : StronglySorted (fun a b => ble a b = true) (b :: t) -> 0 < b_mean b -> ~ b_mean1 b == 0 -> map r_bench rows = filter nz1 (b :: t) -> chain (b_mean b) (b_mean1 b) rows ->
  (forall r, In r rows -> r_best r == b_mean (r_bench r) / b_mean b /\ r_best1 r == b_mean1 (r_bench r) / b_mean1 b) -> ranked rows.
Proof.
  intros S P P1 M C R. assert (HD : filter nz1 (b :: t) = b :: filter nz1 t) by (cbn; unfold nz1 at 1; rewrite (proj2 (nz_true _) P1); reflexivity).
  assert (NZ : forall r, In r rows -> ~ b_mean (r_bench r) == 0 /\ ~ b_mean1 (r_bench r) == 0).
  { intros r I. apply (in_map r_bench) in I. rewrite M in I. apply filter_In in I as [I Z]. unfold nz1 in Z. apply negb_true_iff, nz_true in Z. split; [|exact Z].
    inversion S as [|? ? _ F]; subst. destruct I as [<-|I]; [lra|]. rewrite Forall_forall in F. specialize (F _ I). apply mean_le in F. lra. }
  assert (P0 : ~ b_mean b == 0) by lra.
  split; [|split].
  - intros i r r' E E'. split; [|eapply chain_nth; eassumption]. apply mean_le.
    eapply (sorted_nth _ _ (filter_sorted _ nz1 _ S) i); rewrite <- M; apply map_nth_error; assumption.
  - intros r E. destruct rows as [|r' rows]; [discriminate E|]. injection E as ->. cbn [map] in M. rewrite HD in M. injection M as M _. destruct C as (C1 & C2 & _). rewrite C1, C2, M. split; unfold Qdiv; apply Qmult_inv_r; assumption.
  - intros f r E I. destruct rows as [|r' rows]; [discriminate E|]. injection E as ->. cbn [map] in M. rewrite HD in M. injection M as M _. destruct (R r I) as [R1 R2]. rewrite R1, R2, M. split; rewrite Qmult_comm; apply Qmult_div_r; assumption.
Qed.

Lemma compare_cases n fs own : (3 <= n)%nat -> no_negative_times (fs ++ own) -> fs ++ own <> [] ->
  exists b t, py_sorted ble (map (measure n) (fs ++ own)) = b :: t /\ 0 <= b_mean b /\ (b_mean b == 0 -> b_mean1 b == 0) /\
  (if Qeq_bool (b_mean1 b) 0 then compare_implementations n fs own = Raise (EOther 2)
   else exists rows, compare_implementations n fs own = Ok rows /\ map r_bench rows = filter nz1 (b :: t) /\ ranked rows).
Proof.
  intros N P NE. unfold compare_implementations. change (fun a b => Qle_bool (b_mean a) (b_mean b)) with ble. destruct (Nat.ltb_spec n 3); [lia|]. pose proof (ble_sorted (map (measure n) (fs ++ own))) as S. pose proof (py_sorted_perm ble (map (measure n) (fs ++ own))) as PM.
  destruct (py_sorted ble (map (measure n) (fs ++ own))) as [|b t]; [apply Permutation_nil in PM; destruct (fs ++ own); [contradiction|discriminate PM]|].
  exists b, t. split; [reflexivity|].
  assert (IB : exists f, In f (fs ++ own) /\ measure n f = b) by (assert (I : In b (map (measure n) (fs ++ own))) by (eapply Permutation_in; [exact PM|left; reflexivity]); apply in_map_iff in I as (f & E & I); exists f; auto).
  destruct IB as (f & If & Ef). assert (P0 : 0 <= b_mean b) by (rewrite <- Ef; apply mean_nonneg; [exact N|apply P, If]).
  assert (Z0 : b_mean b == 0 -> b_mean1 b == 0) by (rewrite <- Ef; apply mean_zero; [exact N|apply P, If]).
  split; [exact P0|]. split; [exact Z0|]. destruct (Qeq_bool (b_mean1 b) 0) eqn:E.
  - cbn [ratio_rows]. unfold qdiv at 1. destruct (Qeq_bool (b_mean b) 0) eqn:E0; [reflexivity|]. cbn [bind]. apply nz_true in E0. rewrite (proj2 (nz_true _) (div_nz _ _ E0 E0)). unfold qdiv at 1. rewrite E. reflexivity.
  - apply nz_true in E. assert (B0 : ~ b_mean b == 0) by (intros Z; apply E, Z0, Z). assert (PB : 0 < b_mean b) by (destruct (Qlt_le_dec 0 (b_mean b)); [assumption|exfalso; apply B0; lra]).
    destruct (ratio_rows_ok (b_mean b) (b_mean1 b) B0 E (b :: t) (b_mean b) (b_mean1 b) B0 E) as (rows & ER & M & C & R).
    { inversion S as [|? ? _ F]; subst. intros x [<-|I]; [exact B0|]. rewrite Forall_forall in F. specialize (F _ I). apply mean_le in F. lra. }
    exists rows. split; [exact ER|]. split; [exact M|]. eapply chain_ranked; eassumption.
Qed.
Lemma measured_all n fs : (3 <= n)%nat -> Forall2 (times_of n) fs (map (measure n) fs).
Proof. intros N. induction fs as [|f fs IH]; constructor; [apply measure_times, N|exact IH]. Qed.
Lemma filter_perm {A} (p : A -> bool) l l' : Permutation l l' -> Permutation (filter p l) (filter p l').
Proof. induction 1; cbn; [constructor|destruct (p x); [constructor|]; assumption|destruct (p x), (p y); try reflexivity; constructor|etransitivity; eassumption]. Qed.

Theorem table_rows n fs own rows : no_negative_times (fs ++ own) -> compare_implementations n fs own = Ok rows ->
  exists bs, Forall2 (times_of n) (fs ++ own) bs /\ Permutation (map r_bench rows) (filter (fun b => negb (Qeq_bool (b_mean1 b) 0)) bs) /\ ranked rows.
Proof.
  intros P E. destruct (lt_dec n 3) as [L|L]; [unfold compare_implementations in E; apply Nat.ltb_lt in L; rewrite L in E; discriminate E|].
  assert (D : fs ++ own = [] \/ fs ++ own <> []) by (destruct (fs ++ own); [left; reflexivity|right; discriminate]). destruct D as [Z|NE].
  - exfalso. unfold compare_implementations in E. rewrite Z in E. destruct (Nat.ltb_spec n 3); [lia|]. cbn in E. discriminate E.
  - destruct (compare_cases n fs own ltac:(lia) P NE) as (b & t & ES & _ & _ & H). destruct (Qeq_bool (b_mean1 b) 0); [rewrite H in E; discriminate E|].
    destruct H as (rows' & E' & M & R). rewrite E in E'. injection E' as <-. exists (map (measure n) (fs ++ own)). split; [apply measured_all; lia|]. split; [|exact R]. rewrite M, <- ES. apply filter_perm, py_sorted_perm.
Qed.
Theorem table_all n fs own : (3 <= n)%nat -> fs ++ own <> [] -> positive_times (fs ++ own) ->
  exists rows bs, compare_implementations n fs own = Ok rows /\ Forall2 (times_of n) (fs ++ own) bs /\ Permutation (map r_bench rows) bs /\ ranked rows.
Proof.
  intros N NE P. assert (P' : no_negative_times (fs ++ own)) by (intros f I i; apply Qlt_le_weak, P, I).
  assert (NZ : forall b, In b (map (measure n) (fs ++ own)) -> nz1 b = true).
  { intros b I. apply in_map_iff in I as (f & <- & I). unfold nz1. apply negb_true_iff, nz_true. destruct (mean_pos n f N (P f I)). lra. }
  destruct (compare_cases n fs own N P' NE) as (b & t & ES & _ & _ & H). pose proof (py_sorted_perm ble (map (measure n) (fs ++ own))) as PM. rewrite ES in PM.
  assert (Zb : Qeq_bool (b_mean1 b) 0 = false) by (apply negb_true_iff, NZ; eapply Permutation_in; [exact PM|left; reflexivity]). rewrite Zb in H. destruct H as (rows & E & M & R).
  exists rows, (map (measure n) (fs ++ own)). split; [exact E|]. split; [apply measured_all, N|]. split; [|exact R]. rewrite M.
  assert (F : filter nz1 (b :: t) = b :: t).
  { assert (Q : forall x, In x (b :: t) -> nz1 x = true) by (intros x I; apply NZ; eapply Permutation_in; eassumption). clear -Q. induction (b :: t) as [|x l IH]; [reflexivity|]. cbn. rewrite (Q x (or_introl eq_refl)). f_equal. apply IH. intros y I. apply Q. right. exact I. }
  rewrite F. exact PM.
Qed.
Theorem table_raises n fs own e : no_negative_times (fs ++ own) -> compare_implementations n fs own = Raise e ->
  ((n < 3)%nat /\ e = EAssertionError) \/ ((3 <= n)%nat /\ fs ++ own = [] /\ e = EIndexError) \/
  ((3 <= n)%nat /\ e = EOther 2 /\ exists bs b, Forall2 (times_of n) (fs ++ own) bs /\ In b bs /\ (forall a, In a bs -> b_mean b <= b_mean a) /\ b_mean1 b == 0).
Proof.
  intros P E. destruct (lt_dec n 3) as [L|L]; [left; unfold compare_implementations in E; assert (L' := L); apply Nat.ltb_lt in L'; rewrite L' in E; injection E as <-; auto|right].
  assert (D : fs ++ own = [] \/ fs ++ own <> []) by (destruct (fs ++ own); [left; reflexivity|right; discriminate]). destruct D as [Z|NE].
  - left. split; [lia|]. split; [exact Z|]. unfold compare_implementations in E. rewrite Z in E. destruct (Nat.ltb_spec n 3); [lia|]. cbn in E. injection E as <-. reflexivity.
  - right. split; [lia|]. destruct (compare_cases n fs own ltac:(lia) P NE) as (b & t & ES & _ & _ & H). destruct (Qeq_bool (b_mean1 b) 0) eqn:Z; [|destruct H as (rows & E' & _); rewrite E in E'; discriminate E'].
    rewrite E in H. injection H as ->. split; [reflexivity|]. exists (map (measure n) (fs ++ own)), b. split; [apply measured_all; lia|]. pose proof (py_sorted_perm ble (map (measure n) (fs ++ own))) as PM. rewrite ES in PM.
    split; [eapply Permutation_in; [exact PM|left; reflexivity]|]. split; [|apply Qeq_bool_eq, Z]. pose proof (ble_sorted (map (measure n) (fs ++ own))) as S. rewrite ES in S. inversion S as [|? ? _ F]; subst.
    intros a I. apply (Permutation_in _ (Permutation_sym PM)) in I. destruct I as [<-|I]; [lra|]. rewrite Forall_forall in F. apply mean_le, F, I.
Qed.
