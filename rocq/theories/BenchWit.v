(** Cases for C82. *)
From Coq Require Import String List Bool Arith ZArith QArith Lia Lqa Sorting.Sorted Permutation.
From Verif Require Import Py UtilProofs BenchModel BenchSpec BenchProofs.
Import ListNotations.
Local Open Scope Q_scope.

Definition steady : timed := ("steady"%string, fun _ => 1 # 10).
Definition once : timed := ("once"%string, fun i => match i with O => 1 | _ => 0 end).
Lemma missing_row : exists n fs rows f, (3 <= n)%nat /\ no_negative_times fs /\ compare_implementations n fs [] = Ok rows /\ In f fs /\ forall r, In r rows -> b_name (r_bench r) <> fst f.
Proof.
  exists 3%nat, [steady; once]. eexists. exists once. split; [lia|]. split; [|split; [vm_compute; reflexivity|split; [right; left; reflexivity|]]].
  - intros f [<-|[<-|[]]] i; [cbn; lra|]. destruct i; cbn; lra.
  - intros r [<-|[]]. discriminate.
Qed.

Definition by_mean : list bench -> list bench := py_sorted ble.
Lemma by_mean_sorts : sorts by_mean.
Proof.
  intros l. split; [apply Permutation_sym, py_sorted_perm|]. pose proof (ble_sorted l) as S. unfold by_mean. induction S as [|a t S IH H]; constructor; [exact IH|]. rewrite Forall_forall in *. intros x I. apply mean_le, H, I.
Qed.
Definition quick : timed := ("quick"%string, fun _ => 1).
Definition middle : timed := ("middle"%string, fun _ => 2).
Definition slow : timed := ("slow"%string, fun _ => 4).
Definition slower : timed := ("slower"%string, fun i => match i with O => 12 | _ => 6 end).
Lemma merge_witness : sorts by_mean /\ positive_times (concat [[quick; slow]; [slower; middle]]) /\ exists T1 T2,
  Forall2 (fun fs T => compare_implementations 3 fs [] = Ok T) [[quick; slow]; [slower; middle]] [T1; T2] /\
  (forall r r', In r (concat [T1; T2]) -> In r' (concat [T1; T2]) -> b_mean (r_bench r) == b_mean (r_bench r') -> r_bench r = r_bench r') /\
  exists M, merge_bench_tables by_mean [T1; T2] = Ok M /\ map (fun r => b_name (r_bench r)) M = ["quick"; "middle"; "slow"; "slower"]%string /\ map (fun r => Qred (r_next r)) M = [1; 2; 2; 2].
Proof.
  split; [exact by_mean_sorts|]. split; [intros f [<-|[<-|[<-|[<-|[]]]]] i; try (cbn; lra); destruct i; cbn; lra|]. do 2 eexists. split; [repeat constructor; vm_compute; reflexivity|]. split.
  - intros r r' I I'. cbn [concat app In] in I, I'. destruct I as [<-|[<-|[<-|[<-|[]]]]], I' as [<-|[<-|[<-|[<-|[]]]]]; cbn; intros E; try reflexivity; exfalso; vm_compute in E; discriminate E.
  - eexists. split; [vm_compute; reflexivity|]. split; reflexivity.
Qed.
