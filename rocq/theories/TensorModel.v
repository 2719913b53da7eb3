(** Dense tensors of arbitrary rank, and the torch operations on them that the
    library uses ([narrow], [split], [cat], [reshape], zero padding, indexing).

    This file models the *externals*: the documented behaviour of torch's
    tensor operations (torch.Tensor.narrow, torch.split, torch.cat,
    torch.Tensor.reshape, torch.zeros).  A tensor is a shape together with a
    function from multi-indices to elements.  Only the values at in-range
    multi-indices are observable; [teq] is that observational equality.
    Memory layout, strides, dtype and device are not modelled. *)
From Coq Require Import List Arith Lia Bool.
Import ListNotations.

Record tensor (A : Type) := mkT { shp : list nat; val : list nat -> A }.
Arguments mkT {A} _ _.
Arguments shp {A} _.
Arguments val {A} _ _.

(** A multi-index is valid for a shape iff it has the same length and every
    component is in range. *)
Definition valid (s i : list nat) : Prop :=
  length i = length s /\ forall d, d < length s -> nth d i 0 < nth d s 0.

(** Observational equality of tensors: same shape, same element at each valid
    multi-index. *)
Definition teq {A} (t u : tensor A) : Prop :=
  shp t = shp u /\ forall i, valid (shp t) i -> val t i = val u i.

(** Replace component [d] of a list (no change when [d] is out of range). *)
Fixpoint upd (d v : nat) (l : list nat) : list nat :=
  match l, d with
  | [], _ => []
  | _ :: l', 0 => v :: l'
  | x :: l', S d' => x :: upd d' v l'
  end.

(** tensor.size(d) *)
Definition dimsz {A} (t : tensor A) (d : nat) : nat := nth d (shp t) 0.
(** tensor.dim() *)
Definition ndim {A} (t : tensor A) : nat := length (shp t).

(** torch.Tensor.narrow(d, off, len): the slice [off, off+len) along [d]. *)
Definition narrow {A} (d off len : nat) (t : tensor A) : tensor A :=
  mkT (upd d len (shp t)) (fun i => val t (upd d (nth d i 0 + off) i)).

(** torch.split(tensor, sections, dim): consecutive slices.  torch raises when
    the sections do not add up to the size of the dimension; see
    [torch_split]. *)
Fixpoint split_from {A} (d off : nat) (sections : list nat) (t : tensor A) : list (tensor A) :=
  match sections with
  | [] => []
  | n :: rest => narrow d off n t :: split_from d (off + n) rest t
  end.

Definition sum_list (l : list nat) : nat := fold_right Nat.add 0 l.

Definition torch_split {A} (t : tensor A) (sections : list nat) (d : nat) : option (list (tensor A)) :=
  if (d <? ndim t) && (sum_list sections =? dimsz t d)
  then Some (split_from d 0 sections t) else None.

(** Concatenation of two tensors along [d]. *)
Definition cat2 {A} (d : nat) (a b : tensor A) : tensor A :=
  mkT (upd d (dimsz a d + dimsz b d) (shp a))
      (fun i => if nth d i 0 <? dimsz a d then val a i
                else val b (upd d (nth d i 0 - dimsz a d) i)).

Definition shape_eqb (s s' : list nat) : bool :=
  if list_eq_dec Nat.eq_dec s s' then true else false.

(** torch.cat(ts, dim): raises on an empty list, on an out of range dimension
    and when two shapes differ in another dimension than [dim]. *)
Fixpoint torch_cat {A} (d : nat) (ts : list (tensor A)) : option (tensor A) :=
  match ts with
  | [] => None
  | [a] => if d <? ndim a then Some a else None
  | a :: rest =>
      match torch_cat d rest with
      | Some b => if (d <? ndim a) && shape_eqb (upd d 0 (shp a)) (upd d 0 (shp b))
                  then Some (cat2 d a b) else None
      | None => None
      end
  end.

(** torch.zeros(shape) / new_zeros, for an element type with a given zero. *)
Definition const_t {A} (z : A) (s : list nat) : tensor A := mkT s (fun _ => z).

(** Elementwise maps. *)
Definition map_t {A B} (f : A -> B) (t : tensor A) : tensor B := mkT (shp t) (fun i => f (val t i)).
Definition map2_t {A B C} (f : A -> B -> C) (t : tensor A) (u : tensor B) : tensor C :=
  mkT (shp t) (fun i => f (val t i) (val u i)).

(** Row-major ravel / unravel of multi-indices. *)
Definition prod_list (l : list nat) : nat := fold_right Nat.mul 1 l.
Fixpoint ravel (s i : list nat) : nat :=
  match s, i with
  | n :: s', k :: i' => k * prod_list s' + ravel s' i'
  | _, _ => 0
  end.
Fixpoint unravel (s : list nat) (k : nat) : list nat :=
  match s with
  | [] => []
  | n :: s' => (k / prod_list s') :: unravel s' (k mod prod_list s')
  end.

(** tensor.reshape(-1, *trailing): collapse the first [k] dims into one. *)
Definition flatten_lead {A} (k : nat) (t : tensor A) : tensor A :=
  let lead := firstn k (shp t) in
  mkT (prod_list lead :: skipn k (shp t))
      (fun i => match i with
                | [] => val t []
                | n :: i' => val t (unravel lead n ++ i')
                end).
(** tensor.reshape( *lead, *trailing): expand dim 0 into the dims [lead].
    torch raises unless the element counts agree; see [torch_unflatten_lead]. *)
Definition unflatten_lead {A} (lead : list nat) (t : tensor A) : tensor A :=
  mkT (lead ++ tl (shp t))
      (fun i => val t (ravel lead (firstn (length lead) i) :: skipn (length lead) i)).
Definition torch_unflatten_lead {A} (lead : list nat) (t : tensor A) : option (tensor A) :=
  if prod_list lead =? dimsz t 0 then Some (unflatten_lead lead t) else None.

(** Monadic helpers for code that may raise. *)
Definition bindo {A B} (o : option A) (f : A -> option B) : option B :=
  match o with Some a => f a | None => None end.
Notation "'do' x <- e ; f" := (bindo e (fun x => f)) (at level 200, x binder, e at level 100, f at level 200).
Definition guard (b : bool) : option unit := if b then Some tt else None.
Fixpoint mapM {A B} (f : A -> option B) (l : list A) : option (list B) :=
  match l with
  | [] => Some []
  | a :: l' => do b <- f a; do bs <- mapM f l'; Some (b :: bs)
  end.
