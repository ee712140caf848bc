(** init_rand_params: the parameters of an expression's own kernel object, outside a regression model. *)
From Coq Require Import String Reals List Bool ZArith.
From Verif Require Import Py KexModel SemModel ParModel.
Import ListNotations.
Local Open Scope list_scope.

Section Init.
  Context (offset fixed : bool).
  (** kernelOperations.py:21-24 for a kernel object that is a part of the object named [owner] (with its dot): parameter_names_flat() starts with the names of
      the objects around the kernel. *)
  Definition get_param_dict_in (owner : string) (k : vkern) : list (string * R) :=
    fold_left (fun d nv => dict_set String.eqb d (fst nv) (snd nv)) (flat_names offset (owner ++ vkern_name offset k ++ ".")%string k) [].
  (** kernelOperations.py:38-45 on an expression [e] that is as _initialise() leaves it; [k] is its kernel object after randomize(), which is in no other object. *)
  Definition init_rand_params (k : vkern) (e : kex) : res pkex := match_up offset fixed (get_param_dict_in "" k) true "" e.
End Init.
