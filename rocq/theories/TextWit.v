(** Concrete descriptions (C68). *)
From Coq Require Import Ascii String Reals Lra List Bool Arith ZArith Permutation.
From Verif Require Import Py KexModel KexSpec KernModel SemModel IvModel IvSpec IvWit ParModel ParSpec ParProofs ParWit TextSpec.
Import ListNotations.
Local Open Scope list_scope.
Local Open Scope R_scope.

(** The component of IvWit with numbers replaced by #. *)
Lemma good_text : base_factors_interpretation true true (fun _ => "#"%string) good =
  Ok ("A periodic function with period # and lengthscale #, with polynomially varying amplitude of order 2 with roots #, and #; this component applies until #, "
      ++ "and between # and # (with same change slopes #), and it has overall variance #")%string.
Proof.
  unfold base_factors_interpretation. rewrite good_intervals. cbn. unfold intervals_text. cbn [mapM interval_text vmissing vget bind i_start i_end i_sslope i_eslope]. destruct (Req_EM_T 1 1); [|lra]. reflexivity.
Qed.
(** An expression whose fits are described. *)
Lemma mixed_text fixed fmt : exists k p s t, fit_of true fixed mixed k p /\ sum_of_prods_form true p = Ok s /\ get_interpretation true fixed fmt s = Ok t.
Proof.
  destruct (mixed_fit fixed) as (k & p & _ & F & _). destruct mixed_counts as (_ & _ & B & W). destruct (windowless_interpretation true fixed fmt mixed k p F B W) as (s & t & E & H). exists k, p, s, t. auto.
Qed.

(** A linear component within the window from 2 to 3, with its slope. *)
Definition sloped (r : R) : params := [(KProduct, [[(pVariance, 4)]]); (KBase bLIN, [[(pOffset, 3)]]); (KBase bSI, [[(pLocation, 2); (pSlope, r); (pWidth, 1)]])].
Lemma sloped_fitted r : fitted_sigmoids false (sloped r).
Proof.
  split; [repeat (constructor; [cbn; intuition discriminate|]); constructor|].
  intros b ps [E|[E|[E|[]]]] Hs; try discriminate E; injection E as <- <-; try discriminate Hs. split; [discriminate|]. constructor; [|constructor].
  split; [exists 2; reflexivity|]. split; [intros _; exists 1; split; [lra|reflexivity]|]. intros _. exists r. reflexivity.
Qed.
Lemma sloped_text fmt : exists t, forall r, base_factors_interpretation false true fmt (sloped r) = Ok t.
Proof.
  eexists. intros r.
  assert (E : sigmoids_to_intervals false (sloped r) = Ok (Some [VIv (Iv (Some 2) (Some (2 + 1)) (Some r) (Some r))])) by (unfold sigmoids_to_intervals, sloped; cbn; rl; reflexivity).
  unfold base_factors_interpretation. rewrite E. cbn. reflexivity.
Qed.
Lemma slopes_witness : exists d d', fitted_sigmoids false d /\ fitted_sigmoids false d'
  /\ (exists i i', sigmoids_to_intervals false d = Ok (Some [VIv i]) /\ sigmoids_to_intervals false d' = Ok (Some [VIv i'])
       /\ i_start i = i_start i' /\ i_end i = i_end i' /\ i_sslope i <> i_sslope i' /\ i_eslope i <> i_eslope i')
  /\ forall fmt, exists t, base_factors_interpretation false true fmt d = Ok t /\ base_factors_interpretation false true fmt d' = Ok t.
Proof.
  exists (sloped 1), (sloped 2). split; [apply sloped_fitted|]. split; [apply sloped_fitted|]. split.
  - exists (Iv (Some 2) (Some (2 + 1)) (Some 1) (Some 1)), (Iv (Some 2) (Some (2 + 1)) (Some 2) (Some 2)).
    split; [unfold sigmoids_to_intervals, sloped; cbn; rl; reflexivity|]. split; [unfold sigmoids_to_intervals, sloped; cbn; rl; reflexivity|].
    split; [reflexivity|]. split; [reflexivity|]. split; intros E; injection E as E; lra.
  - intros fmt. destruct (sloped_text fmt) as (t & H). exists t. split; apply H.
Qed.
Definition until_8 : params := [(KProduct, [[(pVariance, 4)]]); (KBase bLIN, [[(pOffset, 3)]]); (KBase bSr, [[(pLocation, 8); (pSlope, 5)]])].
Lemma until_8_text fmt : NoDup (map fst until_8) /\ (forall k ps, In (k, ps) until_8 -> ps <> []) /\ sigmoids_to_intervals false until_8 = Ok (Some [VIv (Iv None (Some 8) None (Some 5))])
  /\ exists t, base_factors_interpretation false true fmt until_8 = Ok t.
Proof.
  assert (E : sigmoids_to_intervals false until_8 = Ok (Some [VIv (Iv None (Some 8) None (Some 5))])) by (unfold sigmoids_to_intervals, until_8; cbn; rl; reflexivity).
  split; [repeat (constructor; [cbn; intuition discriminate|]); constructor|]. split; [intros k ps [H|[H|[H|[]]]]; injection H as <- <-; discriminate|]. split; [exact E|].
  eexists. unfold base_factors_interpretation. rewrite E. cbn. reflexivity.
Qed.
