(** Segmentation losses of the examples (torch_harmonics/examples/losses.py:58-231). *)
From Coq Require Import List Arith Lia Bool Reals ZArith.
From Verif Require Import TensorModel BigSum TruncModel QuadModel LossModel MetricModel.
Import ListNotations.
Local Open Scope R_scope.

(** All three losses are modelled for predictions of shape (batch, classes, nlat, nlon), integer
    targets of shape (batch, nlat, nlon), one class weight per class and the buffer of shape
    (nlat, 1); other shapes are not modelled (torch broadcasts some and rejects others).  *)
Definition seg_shapes (q : tensor R) (prd : tensor R) (tar : tensor Z) : option (nat * nat * nat * nat) :=
  match shp prd with
  | [b; n; h; w] => do _ <- guard (shape_eqb (shp tar) [b; h; w] && shape_eqb (shp q) [h; 1%nat] && (1 <=? n)%nat); Some (b, n, h, w)
  | _ => None
  end.
(** The logits of one pixel. *)
Definition pixel (x : tensor R) (i k j c : nat) : R := val x [i; c; k; j].
(** torch.nn.functional.one_hot(tar, num_classes=n) raises unless all labels are classes. *)
Definition one_hot_ok (s : list nat) (n : nat) (t : list nat -> Z) : bool := forallb (fun i => (0 <=? t i)%Z && (t i <? Z.of_nat n)%Z) (indices s).

(** losses.py:80-95 [DiceLossS2.__init__], 97-134 [DiceLossS2.forward].  Any other mode string leaves the scores per
    class to the final mean.  A zero denominator gives nan or inf (None). *)
Inductive dmode := DMicro | DMacro | DOther.
Definition class_sum (n : nat) (weight : option (nat -> R)) (x : nat -> R) : R :=
  match weight with Some wt => rsum n (fun c => x c * wt c) | None => rsum n x / INR n end.
Definition dice_loss (q : tensor R) (weight : option (nat -> R)) (smooth : R) (ignore_index : option Z) (md : dmode) (prd : tensor R) (tar : tensor Z) : option R :=
  do s <- seg_shapes q prd tar;
  let '(b, n, h, w) := s in
  let mask i k j := match ignore_index with None => 1%Z | Some z => if (val tar [i; k; j] =? z)%Z then 0%Z else 1%Z end in
  let p i c k j := softmax n (pixel prd i k j) c * IZR (mask i k j) in
  let t i k j := (val tar [i; k; j] * mask i k j)%Z in
  do _ <- guard (one_hot_ok [b; h; w] n (fun i => t (nth 0 i 0%nat) (nth 1 i 0%nat) (nth 2 i 0%nat)));
  let taroh i c k j := if (t i k j =? Z.of_nat c)%Z then 1 else 0 in
  let intersection i c := rsum h (fun k => rsum w (fun j => p i c k j * taroh i c k j * val q [k; 0]%nat)) in
  let union i c := rsum h (fun k => rsum w (fun j => (p i c k j + taroh i c k j) * val q [k; 0]%nat)) in
  match md with
  | DMicro =>
      do dice <- tdiv (mkT [b] (fun i => 2 * class_sum n weight (intersection (nth 0 i 0%nat)) + smooth)) (mkT [b] (fun i => class_sum n weight (union (nth 0 i 0%nat)) + smooth));
      do m <- mean_all dice; Some (1 - m)
  | _ =>
      do dice <- tdiv (mkT [b; n] (fun i => 2 * intersection (nth 0 i 0%nat) (nth 1 i 0%nat) + smooth)) (mkT [b; n] (fun i => union (nth 0 i 0%nat) (nth 1 i 0%nat) + smooth));
      do m <- mean_all (match md with DMacro => mkT [b] (fun i => class_sum n weight (fun c => val dice [nth 0 i 0%nat; c])) | _ => dice end);
      Some (1 - m)
  end.

(** torch.nn.functional.log_softmax over [n] classes *)
Definition log_softmax (n : nat) (x : nat -> R) (c : nat) : R := x c - ln (rsum n (fun d => exp (x d))).
(** torch.nn.functional.cross_entropy(x, t, weight, reduction="none", ignore_index, label_smoothing)
    at one pixel; it takes the log softmax of its input.  It raises for labels that are neither
    classes nor ignored and for smoothing outside [0, 1]. *)
Definition torch_cross_entropy (n : nat) (weight : option (nat -> R)) (smooth : R) (ignore_index : Z) (x : nat -> R) (t : Z) : option R :=
  if Rle_dec 0 smooth then if Rle_dec smooth 1 then
    if (t =? ignore_index)%Z then Some 0 else
    do _ <- guard ((0 <=? t)%Z && (t <? Z.of_nat n)%Z);
    let wt c := match weight with Some wt => wt c | None => 1 end in
    let lp := log_softmax n x in
    let nll := - (wt (Z.to_nat t) * lp (Z.to_nat t)) in
    Some ((1 - smooth) * nll + smooth / INR n * - rsum n (fun c => lp c * wt c))
  else None else None.
(** losses.py:172-178 and 218-228: the pixelwise cross entropy of the log softmax of the prediction *)
Definition pixel_ce (n : nat) (weight : option (nat -> R)) (smooth : R) (ignore_index : Z) (prd : tensor R) (tar : tensor Z) (i k j : nat) : option R :=
  torch_cross_entropy n weight smooth ignore_index (log_softmax n (pixel prd i k j)) (val tar [i; k; j]).
(** An elementwise result that fails if any element does. *)
Definition all_pixels (b h w : nat) (f : nat -> nat -> nat -> option R) : option (tensor R) :=
  if forallb (fun i => match f (nth 0 i 0%nat) (nth 1 i 0%nat) (nth 2 i 0%nat) with Some _ => true | None => false end) (indices [b; h; w])
  then Some (mkT [b; h; w] (fun i => match f (nth 0 i 0%nat) (nth 1 i 0%nat) (nth 2 i 0%nat) with Some v => v | None => 0 end)) else None.
Definition integrate_mean (q x : tensor R) : option R := do p <- bmap2 Rmult x q; do s <- sum_last2 p; mean_all s.
(** losses.py:157-170 [CrossEntropyLossS2.__init__], 172-180 [CrossEntropyLossS2.forward] *)
Definition cross_entropy_loss (q : tensor R) (weight : option (nat -> R)) (smooth : R) (ignore_index : Z) (prd : tensor R) (tar : tensor Z) : option R :=
  do s <- seg_shapes q prd tar;
  let '(b, n, h, w) := s in
  do ce <- all_pixels b h w (pixel_ce n weight smooth ignore_index prd tar);
  integrate_mean q ce.
(** x ** gamma for gamma >= 0.  Negative bases (negative class weights) and exponents are not modelled. *)
Definition tpow (x gamma : R) : option R :=
  if Rlt_dec gamma 0 then None else if Rlt_dec x 0 then None else
  Some (if Req_EM_T gamma 0 then 1 else if Req_EM_T x 0 then 0 else Rpower x gamma).
(** losses.py:203-216 [FocalLossS2.__init__], 218-231 [FocalLossS2.forward] *)
Definition focal_loss (q : tensor R) (weight : option (nat -> R)) (smooth : R) (ignore_index : Z) (alpha gamma : R) (prd : tensor R) (tar : tensor Z) : option R :=
  do s <- seg_shapes q prd tar;
  let '(b, n, h, w) := s in
  do fl <- all_pixels b h w (fun i k j => do ce <- pixel_ce n weight smooth ignore_index prd tar i k j; do p <- tpow (1 - exp (- ce)) gamma; Some (alpha * p * ce));
  integrate_mean q fl.
