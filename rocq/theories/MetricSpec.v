(** Independent specification of the segmentation metrics: areas of sets of pixels. *)
From Coq Require Import List Arith Lia Bool Reals ZArith.
From Verif Require Import TensorModel BigSum.
Import ListNotations.
Local Open Scope R_scope.

(** The area of the pixels of an h x w grid that satisfy P, for pixel weights q. *)
Definition area_of (h w : nat) (q : tensor R) (P : nat -> nat -> bool) : R :=
  rsum h (fun k => rsum w (fun j => if P k j then val q [k; j] else 0)).
Definition whole (h w : nat) (q : tensor R) : R := area_of h w q (fun _ _ => true).

(** A pixel counts unless its label is the one to ignore. *)
Definition counts (ig : option Z) (label : Z) : bool := match ig with None => true | Some z => negb (label =? z)%Z end.

(** p is the first of the classes with the largest score. *)
Definition best_class (n : nat) (x : nat -> R) (p : nat) : Prop :=
  (p < n)%nat /\ (forall c, (c < n)%nat -> x c <= x p) /\ forall c, (c < p)%nat -> x c < x p.

(** Areas, in one sample, of the counted pixels of true label t and predicted label o: *)
Section Areas.
Variable h w : nat.
Variable q : tensor R.
Variable ig : option Z.
Variable o t : nat -> nat -> Z.
Definition both (c : Z) : R := area_of h w q (fun k j => counts ig (t k j) && (t k j =? c)%Z && (o k j =? c)%Z).
Definition only_pred (c : Z) : R := area_of h w q (fun k j => counts ig (t k j) && negb (t k j =? c)%Z && (o k j =? c)%Z).
Definition only_true (c : Z) : R := area_of h w q (fun k j => counts ig (t k j) && (t k j =? c)%Z && negb (o k j =? c)%Z).
Definition neither (c : Z) : R := area_of h w q (fun k j => counts ig (t k j) && negb (t k j =? c)%Z && negb (o k j =? c)%Z).
Definition ignored : R := area_of h w q (fun k j => negb (counts ig (t k j))).
Definition correct : R := area_of h w q (fun k j => counts ig (t k j) && (t k j =? o k j)%Z).
Definition wrong : R := area_of h w q (fun k j => counts ig (t k j) && negb (t k j =? o k j)%Z).
End Areas.

(** The classes predicted by the scores [pred] of shape (b, n, h, w). *)
Definition predicts (pred : tensor R) (b n h w : nat) (o : nat -> nat -> nat -> nat) : Prop :=
  forall i k j, (i < b)%nat -> (k < h)%nat -> (j < w)%nat -> best_class n (fun c => val pred [i; c; k; j]) (o i k j).
(** Every pixel that counts has one of the n classes as its label. *)
Definition labelled (truth : tensor Z) (ig : option Z) (b n h w : nat) : Prop :=
  forall i k j, (i < b)%nat -> (k < h)%nat -> (j < w)%nat -> counts ig (val truth [i; k; j]) = true -> (0 <= val truth [i; k; j] < Z.of_nat n)%Z.
(** Totals over the samples. *)
Definition correct_area (q : tensor R) (ig : option Z) (truth : tensor Z) (o : nat -> nat -> nat -> nat) (b h w : nat) : R :=
  rsum b (fun i => correct h w q ig (fun k j => Z.of_nat (o i k j)) (fun k j => val truth [i; k; j])).
Definition wrong_area (q : tensor R) (ig : option Z) (truth : tensor Z) (o : nat -> nat -> nat -> nat) (b h w : nat) : R :=
  rsum b (fun i => wrong h w q ig (fun k j => Z.of_nat (o i k j)) (fun k j => val truth [i; k; j])).
Definition ignored_area (q : tensor R) (ig : option Z) (truth : tensor Z) (b h w : nat) : R :=
  rsum b (fun i => ignored h w q ig (fun k j => val truth [i; k; j])).
