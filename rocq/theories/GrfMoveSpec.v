(** Specification for moved samplers: what a history of calls asked for. *)
From Coq Require Import List.
From Verif Require Import MixedPrecModel GrfMoveModel.
Import ListNotations.

Definition target_of (a : step) : target := match a with Own g => g | Other g => g end.
(** The devices and types a history names, in order *)
Definition devices (h : list step) : list where_ := flat_map (fun a => match g_dev (target_of a) with Some d => [d] | None => [] end) h.
Definition types (h : list step) : list dtype := flat_map (fun a => match g_dt (target_of a) with Some t => [t] | None => [] end) h.
(** The last one named; before the first, the CPU and the type of the constructor *)
Definition device_asked (h : list step) : where_ := last (devices h) None.
Definition type_asked (t : dtype) (h : list step) : dtype := last (types h) t.

Definition ends_own (h : list step) : Prop := h = [] \/ exists h' g, h = h' ++ [Own g].
Definition only_other (h : list step) : Prop := forall a, In a h -> exists g, a = Other g.
