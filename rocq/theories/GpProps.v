(** Properties of GPModel over all histories of calls: C29, C51, C52.  Everything GPy does is arbitrary. *)
From Coq Require Import String List Bool ZArith Lia.
From Verif Require Import Py KexModel GpModel GpSpec GpProofs.
Import ListNotations.
Local Open Scope list_scope.

(** C29: interpret does not describe the latest fit: after a second fit it still describes the first. *)
Theorem C29_refuted : exists h m, 
  snd (count_after h) = m
  /\ exists p, model m = Some p
  /\ snd (interpret count_canonical count_describe m) <> description count_canonical count_describe (kernel_expression m) (Some p).
Proof. exists [CFit (Some 1%Z); CInterpret; CFit None]. eexists. split; [reflexivity|]. exists 1. split; [reflexivity|]. discriminate. Qed.
Print Assumptions C29_refuted.
(** What holds: ValueError before the first fit; the first description is that of the current fit; all later ones are that of the fit
    that was current when some earlier interpret or sum_of_prods_kex was called.  Missing: that it is the latest. *)
Theorem C29_unfitted : forall W P C T Sc (build : W -> kex -> W * res P) optimise (canonical : P -> kex -> res C) (describe : C -> res T) w k (h : list (call P Sc)) m,
  (forall c, In c h -> ~ is_fit c) -> snd (after build optimise canonical describe w k h) = m ->
  snd (interpret canonical describe m) = Raise EValueError.
Proof. exact @unfitted_interpret. Qed.
Print Assumptions C29_unfitted.
Theorem C29_partial : forall W P C T Sc (build : W -> kex -> W * res P) optimise (canonical : P -> kex -> res C) (describe : C -> res T) w k (h : list (call P Sc)) m,
  (forall c, In c h -> ~ describing c) -> snd (after build optimise canonical describe w k h) = m ->
  snd (interpret canonical describe m) = description canonical describe k (model m).
Proof. exact @first_interpret. Qed.
Print Assumptions C29_partial.
(** The current fit is what the optimisation of the latest fit left, with the restarts given or the last ones given. *)
Theorem C29_latest_partial : forall W P C T Sc (build : W -> kex -> W * res P) optimise (canonical : P -> kex -> res C) (describe : C -> res T) w k (h1 : list (call P Sc)) r h2 w1 n w2 p w3 p' o m,
  (forall c, In c (h1 ++ CFit r :: h2) -> ~ describing c) -> (forall c, In c h2 -> ~ is_fit c) ->
  fst (after build optimise canonical describe w k h1) = w1 -> used_restarts r h1 = Some n -> build w1 k = (w2, Ok p) -> optimise w2 p n = (w3, (p', o)) ->
  snd (after build optimise canonical describe w k (h1 ++ CFit r :: h2)) = m ->
  snd (interpret canonical describe m) = description canonical describe k (Some p').
Proof. exact @latest_interpret. Qed.
Print Assumptions C29_latest_partial.
Theorem C29_later_partial : forall W P C T Sc (build : W -> kex -> W * res P) optimise (canonical : P -> kex -> res C) (describe : C -> res T) w k (h : list (call P Sc)) m t,
  snd (after build optimise canonical describe w k h) = m -> snd (interpret canonical describe m) = Ok t ->
  exists h1 h2 p, h ++ [CInterpret] = h1 ++ h2 /\ (exists c t', h2 = c :: t' /\ describing c)
                  /\ model (snd (after build optimise canonical describe w k h1)) = Some p /\ description canonical describe k (Some p) = Ok t.
Proof. exact @any_interpret. Qed.
Print Assumptions C29_later_partial.
Example C29_example : let h := [CFit None; CUtility (fun p => Ok p) "BIC"; CFit (Some 3%Z); CRead; CFit None] in
  (forall c, In c h -> ~ describing c) /\ snd (interpret count_canonical count_describe (snd (count_after h))) = Ok 1.
Proof. split; [|reflexivity]. intros c [<-|[<-|[<-|[<-|[<-|[]]]]]] H; exact H. Qed.
Example C29_latest_example : let optimise := fun (w p : nat) (n : Z) => (w, (p + 10 * Z.to_nat n, Ok tt)) in
  used_restarts (P := nat) (Sc := nat) None [CFit (Some 2%Z)] = Some 2%Z
  /\ snd (interpret count_canonical count_describe (snd (after (Sc := nat) count_build optimise count_canonical count_describe 0 (Comm KSum [(bWN, 1%Z)] []) [CFit (Some 2%Z); CFit None; CRead]))) = Ok 21.
Proof. split; reflexivity. Qed.

(** C51: fit without a restarts value uses the last one given (also by a failed fit), and raises ValueError if there was none. *)
Theorem C51_restarts : forall W P C T Sc (build : W -> kex -> W * res P) optimise (canonical : P -> kex -> res C) (describe : C -> res T) w k (h : list (call P Sc)) w' m r,
  after build optimise canonical describe w k h = (w', m) ->
  snd (fit build optimise w' m r)
  = match r, last_restarts h with
    | None, None => Raise EValueError
    | Some n, _ | None, Some n => match build w' k with (w1, Raise e) => Raise e | (w1, Ok p) => snd (snd (optimise w1 p n)) end
    end.
Proof. exact @fit_last_restarts. Qed.
Print Assumptions C51_restarts.
Example C51_example : last_restarts (Sc := nat) (P := nat) [CFit (Some 3%Z); CFit (Some 5%Z); CFit None; CInterpret] = Some 5%Z
  /\ last_restarts (Sc := nat) (P := nat) [CFit None; CRead] = None.
Proof. split; reflexivity. Qed.

(** C52: a fit that raises does not leave the previous fit: the new, unoptimised model has replaced it. *)
Theorem C52_refuted : exists h (w' : nat) (m : gpmodel nat nat nat) p, after count_build failing_optimise count_canonical count_describe 0 (Comm KSum [(bWN, 1%Z)] []) h = (w', m)
  /\ model m = Some p /\ exists w2 m2 e, fit count_build failing_optimise w' m None = (w2, m2, Raise e) /\ model m2 <> Some p.
Proof. exists [CFit (Some 4%Z)], 1. eexists. exists 0. split; [reflexivity|]. split; [reflexivity|]. do 3 eexists. split; [reflexivity|]. discriminate. Qed.
Print Assumptions C52_refuted.
(** What holds: failures before the optimisation (in to_kernel or GPRegression) leave it.  Missing: failing optimisations. *)
Theorem C52_partial : forall W P C Sc (build : W -> kex -> W * res P) optimise w (m : gpmodel P C Sc) r w1 e,
  build w (kernel_expression m) = (w1, Raise e) -> model (snd (fst (fit build optimise w m r))) = model m.
Proof. exact @fit_build_fails. Qed.
Print Assumptions C52_partial.
(** Here, a build that fails the second time. *)
Example C52_example : let build := fun (w : nat) (k : kex) => (S w, if Nat.eqb w 0 then Ok w else Raise EKeyError) in
  let (w, m) := after (C := nat) (Sc := nat) build count_optimise count_canonical count_describe 0 (Comm KSum [(bWN, 1%Z)] []) [CFit (Some 4%Z)] in
  model m = Some 0 /\ exists m', fit build count_optimise w m None = (2, m', Raise EKeyError) /\ model m' = Some 0.
Proof. simpl. split; [reflexivity|]. eexists. split; reflexivity. Qed.
