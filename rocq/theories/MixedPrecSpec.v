(** What a user expects of the shape and element type of a DISCO layer's output. *)
From Coq Require Import List Arith Bool.
From Verif Require Import MixedPrecModel.
Import ListNotations.

(** A layer as its constructor makes it. *)
Definition layer_wf (l : layer) : Prop :=
  1 <= l_Wo l /\ l_Wi l mod l_Wo l = 0 /\ 1 <= l_K l /\
  (l_opt l = false -> l_fused l = false /\ l_savex l = false /\ l_Ho l <= l_Wi l).

(** The element types a user may combine: without autocast the input and the
    weight agree; with autocast neither is float64. *)
Definition types_ok (ac : autocast) (x w : dtype) : Prop :=
  match ac with
  | None => x = w
  | Some t => t <> F64 /\ x <> F64 /\ w <> F64
  end.
(** The element type of the convolution: the one of the input, or autocast's. *)
Definition conv_dt (ac : autocast) (x : dtype) : dtype := match ac with Some t => t | None => x end.
Definition biased (t : dtype) (b : option dtype) : dtype := match b with Some b => promote t b | None => t end.
