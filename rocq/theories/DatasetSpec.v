(** Independent specification of the statistics of a dataset of images on the sphere. *)
From Coq Require Import List Arith NArith Lia Bool Reals Ascii String.
From Verif Require Import TensorModel BigSum LossSpec.
Import ListNotations.
Local Open Scope R_scope.

(** The mean of a set of images: every image counts the same, every pixel by its
    area; the variance is the mean squared distance from that mean. *)
Definition data_mean (w : nat -> R) (H W : nat) (xs : list (nat -> nat -> R)) : R :=
  rlsum (fun x => mean_on_sphere w H W x) xs / INR (List.length xs).
Definition data_var (w : nat -> R) (H W : nat) (xs : list (nat -> nat -> R)) : R :=
  rlsum (fun x => mean_on_sphere w H W (fun k j => (x k j - data_mean w H W xs) ^ 2)) xs / INR (List.length xs).

(** The same over the pixels that are not 0. *)
Definition nonzero (x : nat -> nat -> R) (k j : nat) : R := if Req_EM_T (x k j) 0 then 0 else 1.
Definition valid_mean (w : nat -> R) (H W : nat) (xs : list (nat -> nat -> R)) : R :=
  rlsum (fun x => mean_on_mask w H W (nonzero x) x) xs / INR (List.length xs).
Definition valid_var (w : nat -> R) (H W : nat) (xs : list (nat -> nat -> R)) : R :=
  rlsum (fun x => mean_on_mask w H W (nonzero x) (fun k j => (x k j - valid_mean w H W xs) ^ 2)) xs / INR (List.length xs).
(** The weighted number of pixels that are not 0. *)
Definition valid_area (w : nat -> R) (H W : nat) (x : nat -> nat -> R) : R :=
  rsum H (fun k => rsum W (fun j => w k * nonzero x k j)).

(** The smallest and the largest value of any pixel of any image. *)
Definition is_min (H W : nat) (xs : list (nat -> nat -> R)) (v : R) : Prop :=
  (exists x k j, In x xs /\ (k < H)%nat /\ (j < W)%nat /\ x k j = v) /\
  forall x k j, In x xs -> (k < H)%nat -> (j < W)%nat -> v <= x k j.
Definition is_max (H W : nat) (xs : list (nat -> nat -> R)) (v : R) : Prop :=
  (exists x k j, In x xs /\ (k < H)%nat /\ (j < W)%nat /\ x k j = v) /\
  forall x k j, In x xs -> (k < H)%nat -> (j < W)%nat -> x k j <= v.

(** The share of the sphere that the images give to a class, on average. *)
Definition class_share (w : nat -> R) (H W : nat) (sems : list (nat -> nat -> nat)) (c : nat) : R :=
  rlsum (fun s => mean_on_sphere w H W (fun k j => if (s k j =? c)%nat then 1 else 0)) sems / INR (List.length sems).

(** Rows within [hcut] of a pole. *)
Definition polar (H hcut k : nat) : Prop := (k < hcut)%nat \/ (H < k + hcut + 1)%nat.

(** The number in the label file that a colour stands for. *)
Definition colour (p : N * N * N) : N := let '(r, g, b) := p in (r * 65536 + g * 256 + b)%N.
Definition label_number (p : N * N * N) : N := if N.eq_dec (colour p) 855309 then 3341%N else colour p.

(** [c] is the part of the label [s] in front of its first underscore, or the whole
    label when it has none. *)
Fixpoint has_underscore (s : string) : Prop :=
  match s with EmptyString => False | String a r => a = "_"%char \/ has_underscore r end.
Definition names_class (s c : string) : Prop :=
  ~ has_underscore c /\ (s = c \/ exists r, s = (c ++ String "_"%char r)%string).
