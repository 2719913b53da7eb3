(** Segmentation metrics of the examples (torch_harmonics/examples/metrics.py). *)
From Coq Require Import List Arith Lia Bool Reals ZArith.
From Verif Require Import TensorModel BigSum TruncModel QuadModel LossModel.
Import ListNotations.
Local Open Scope R_scope.

(** Result of a floating point division of exact numbers: 0/0 is nan, x/0 is infinite. *)
Inductive quot := Num (r : R) | NaN | Inf.
Definition fdiv (x y : R) : quot := if Req_EM_T y 0 then (if Req_EM_T x 0 then NaN else Inf) else Num (x / y).

(** torch.softmax(x, dim=1) and torch.argmax(x, dim=1) at one pixel, over [n] classes.  torch
    does not say which of several equal maxima argmax returns: the first is modelled. *)
Definition softmax (n : nat) (x : nat -> R) (c : nat) : R := exp (x c) / rsum n (fun d => exp (x d)).
Fixpoint argmax (n : nat) (x : nat -> R) : nat :=
  match n with
  | O => O
  | S n' => let a := argmax n' x in if Rlt_dec (x a) (x n') then n' else a
  end.

(** metrics.py:114-128 [_predict_classes] on logits of shape (batch, classes, nlat, nlon); argmax over no
    classes raises. *)
Definition predict_classes (logits : tensor R) : option (tensor Z) :=
  match shp logits with
  | [b; n; h; w] =>
      if (n =? 0)%nat then None else
      Some (mkT [b; h; w] (fun i => let x c := val logits [nth 0 i 0; c; nth 1 i 0; nth 2 i 0]%nat in Z.of_nat (argmax n (softmax n x))))
  | _ => None
  end.

(** Per sample and class: true positives, false positives, false negatives, true negatives. *)
Record stats := mkStats { tp : nat -> nat -> R; fp : nat -> nat -> R; fn : nat -> nat -> R; tn : nat -> nat -> R }.

(** metrics.py:44-111 [_get_stats_multiclass] for output and target of one shape
    (batch, nlat, nlon) and weights of shape (nlat, nlon); other shapes are not modelled
    (torch broadcasts some of them).  Indexing with a boolean array keeps the elements where it
    is true. *)
Definition get_stats_multiclass (output target : tensor Z) (q : tensor R) (ignore_index : option Z) : option stats :=
  match shp output with
  | [b; h; w] =>
      do _ <- guard (shape_eqb (shp target) [b; h; w] && shape_eqb (shp q) [h; w]);
      let ignore i := match ignore_index with None => false | Some z => (val target i =? z)%Z end in
      let out i := if ignore i then (-1)%Z else val output i in
      let tar i := if ignore i then (-1)%Z else val target i in
      let matched i := if (tar i =? out i)%Z then 1 else 0 in
      let not_matched i := if (tar i =? out i)%Z then 0 else 1 in
      let pixels := indices [h; w] in
      let is_target i c p := (tar (i :: p) =? Z.of_nat c)%Z in
      let is_output i c p := (out (i :: p) =? Z.of_nat c)%Z in
      let tp i c := rlsum (fun p => matched (i :: p) * val q p) (filter (is_target i c) pixels) in
      let fp i c := rlsum (fun p => not_matched (i :: p) * val q p) (filter (is_output i c) pixels) in
      let fn i c := rlsum (fun p => not_matched (i :: p) * val q p) (filter (is_target i c) pixels) in
      let tn i c := rlsum (val q) pixels - tp i c - fp i c - fn i c in
      Some (mkStats tp fp fn tn)
  | _ => None
  end.

(** metrics.py:155-168 [BaseMetricS2.__init__]: tiled, normalised weights. *)
Definition metric_weights (gl : nat -> rule) (nlat nlon : nat) (g : grid) : option (tensor R) := get_quadrature_weights gl nlat nlon g true true.

(** metrics.py:170-198 [BaseMetricS2._forward].  mode="micro": sums (with class weights) or
    means over batch and classes; otherwise means over the batch.  Class weights of length
    other than the number of classes are not modelled; the mean of nothing is nan (None). *)
Inductive mode := Micro | Macro.
Definition metric_stats (q : tensor R) (ignore_index : option Z) (pred : tensor R) (truth : tensor Z) : option (nat * nat * stats) :=
  match shp pred with
  | [b; n; _; _] =>
      do out <- predict_classes pred;
      do s <- get_stats_multiclass out truth q ignore_index;
      do _ <- guard (1 <=? b)%nat;
      Some (b, n, s)
  | _ => None
  end.
Definition reduce_micro (b n : nat) (weight : option (nat -> R)) (x : nat -> nat -> R) : R :=
  match weight with
  | Some wt => rsum b (fun i => rsum n (fun c => x i c * wt c))
  | None => rsum b (fun i => rsum n (fun c => x i c)) / (INR b * INR n)
  end.
Definition reduce_macro (b : nat) (x : nat -> nat -> R) (c : nat) : R := rsum b (fun i => x i c) / INR b.
(** metrics.py:234-242 (and 280-288): nan counts as 0; then the weighted sum or the mean over
    the classes. *)
Definition macro_average (n : nat) (weight : option (nat -> R)) (score : nat -> quot) : quot :=
  let num c := match score c with Num r => Some r | NaN => Some 0 | Inf => None end in
  match mapM num (seq 0 n) with
  | None => Inf
  | Some l =>
      let s c := match num c with Some r => r | None => 0 end in
      Num (match weight with Some wt => rsum n (fun c => s c * wt c) | None => rsum n s / INR n end)
  end.

(** metrics.py:227-244 [IntersectionOverUnionS2.forward], 273-290 [AccuracyS2.forward] *)
Definition iou_s2 (q : tensor R) (weight : option (nat -> R)) (ignore_index : option Z) (md : mode) (pred : tensor R) (truth : tensor Z) : option quot :=
  do r <- metric_stats q ignore_index pred truth;
  let '(b, n, s) := r in
  match md with
  | Micro => let t := reduce_micro b n weight (tp s) in let f := reduce_micro b n weight (fp s) in let m := reduce_micro b n weight (fn s) in
      Some (fdiv t (t + f + m))
  | Macro => let t := reduce_macro b (tp s) in let f := reduce_macro b (fp s) in let m := reduce_macro b (fn s) in
      Some (macro_average n weight (fun c => fdiv (t c) (t c + f c + m c)))
  end.
Definition accuracy_s2 (q : tensor R) (weight : option (nat -> R)) (ignore_index : option Z) (md : mode) (pred : tensor R) (truth : tensor Z) : option quot :=
  do r <- metric_stats q ignore_index pred truth;
  let '(b, n, s) := r in
  match md with
  | Micro => let t := reduce_micro b n weight (tp s) in let f := reduce_micro b n weight (fp s) in
      let m := reduce_micro b n weight (fn s) in let u := reduce_micro b n weight (tn s) in
      Some (fdiv (t + u) (t + f + m + u))
  | Macro => let t := reduce_macro b (tp s) in let f := reduce_macro b (fp s) in let m := reduce_macro b (fn s) in let u := reduce_macro b (tn s) in
      Some (macro_average n weight (fun c => fdiv (t c + u c) (t c + f c + m c + u c)))
  end.
