(** Independent specification of the segmentation losses. *)
From Coq Require Import List Arith Lia Bool Reals ZArith.
From Verif Require Import TensorModel BigSum MetricSpec.
Import ListNotations.
Local Open Scope R_scope.

(** [p] are the class probabilities of logits [x]: positive, of total one, in the ratio of the exponentials. *)
Definition probabilities (n : nat) (x p : nat -> R) : Prop :=
  (forall c, (c < n)%nat -> 0 < p c) /\ rsum n p = 1 /\ forall c d, (c < n)%nat -> (d < n)%nat -> p c * exp (x d) = p d * exp (x c).
Definition class_probs (prd : tensor R) (b n h w : nat) (P : nat -> nat -> nat -> nat -> R) : Prop :=
  forall i k j, (i < b)%nat -> (k < h)%nat -> (j < w)%nat -> probabilities n (fun c => val prd [i; c; k; j]) (P i k j).
(** [q] holds positive areas of the rows of a sphere of total area one. *)
Definition area_weights (q : tensor R) (h w : nat) : Prop :=
  shp q = [h; 1%nat] /\ (forall k, (k < h)%nat -> 0 < val q [k; 0]%nat) /\ rsum h (fun k => rsum w (fun _ => val q [k; 0]%nat)) = 1.
(** [F] integrated over one sphere; the mean over the samples. *)
Definition part (q : tensor R) (h w : nat) (F : nat -> nat -> R) : R := rsum h (fun k => rsum w (fun j => val q [k; 0]%nat * F k j)).
Definition batch_mean (b : nat) (f : nat -> R) : R := rsum b f / INR b.
(** Cross entropy of class probabilities [p] and a label, the label mixed with the uniform distribution. *)
Definition cross_entropy (n : nat) (wt : nat -> R) (eps : R) (p : nat -> R) (t : nat) : R :=
  (1 - eps) * (- (wt t * ln (p t))) + eps * (rsum n (fun c => - (wt c * ln (p c))) / INR n).
Definition weight_of (weight : option (nat -> R)) (c : nat) : R := match weight with Some wt => wt c | None => 1 end.
(** x to the power g for x >= 0, g >= 0, with 0^0 = 1 *)
Definition power (x g : R) : R := if Req_EM_T g 0 then 1 else if Req_EM_T x 0 then 0 else Rpower x g.
Definition when (b : bool) (x : R) : R := if b then x else 0.

(** Areas in one sample, probabilities P, labels t. *)
Section Sample.
Variables (q : tensor R) (h w : nat) (ig : option Z) (P : nat -> nat -> nat -> R) (t : nat -> nat -> Z).
Definition overlap (c : nat) : R := part q h w (fun k j => when (counts ig (t k j) && (t k j =? Z.of_nat c)%Z) (P k j c)).
Definition predicted (c : nat) : R := part q h w (fun k j => when (counts ig (t k j)) (P k j c)).
Definition labelled_area (c : nat) : R := part q h w (fun k j => when (counts ig (t k j) && (t k j =? Z.of_nat c)%Z) 1).
Definition counted_area : R := part q h w (fun k j => when (counts ig (t k j)) 1).
Definition ignored_part : R := part q h w (fun k j => when (negb (counts ig (t k j))) 1).
(** the probability given to the true class, over the counted pixels *)
Definition hit : R := part q h w (fun k j => when (counts ig (t k j)) (P k j (Z.to_nat (t k j)))).
End Sample.
(** Weighted sum or mean over the classes. *)
Definition over_classes (n : nat) (weight : option (nat -> R)) (x : nat -> R) : R :=
  match weight with Some wt => rsum n (fun c => wt c * x c) | None => rsum n x / INR n end.
(** Dice score of two areas and their overlap *)
Definition dice_score (smooth both total : R) : R := (2 * both + smooth) / (total + smooth).
