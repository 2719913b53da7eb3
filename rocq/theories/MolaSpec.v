(** Piecewise linear interpolation between pixel centres. *)
From Coq Require Import List Arith Reals.
Local Open Scope R_scope.

(** y is the value at x of the function that is f i at the centre i + 1/2 of pixel i, linear between two
    centres, and constant outside the first and the last centre. *)
Definition interpolates (f : nat -> R) (n : nat) (x y : R) : Prop :=
  (x <= 1 / 2 -> y = f 0%nat) /\ (INR n - 1 / 2 <= x -> y = f (n - 1)%nat) /\
  forall i, (i + 1 < n)%nat -> INR i + 1 / 2 <= x <= INR i + 3 / 2 -> y = f i + (x - INR i - 1 / 2) * (f (i + 1)%nat - f i).
(** The centre of pixel d of out pixels, in units of pixels of n. *)
Definition centre (n out d : nat) : R := (INR d + 1 / 2) * INR n / INR out.
(** Bilinear: along the rows, then along the column of the results. *)
Definition bilinear (f : nat -> nat -> R) (h w : nat) (x y v : R) : Prop :=
  exists r, (forall i, (i < h)%nat -> interpolates (f i) w x (r i)) /\ interpolates r h y v.
(** An image of bytes. *)
Definition grey (h w : nat) (p : nat -> nat -> nat) : Prop := (1 <= h)%nat /\ (1 <= w)%nat /\ forall i j, (p i j <= 255)%nat.
