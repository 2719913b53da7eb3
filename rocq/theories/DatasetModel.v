(** The segmentation and depth dataset of the examples
    (torch_harmonics/examples/stanford_2d3ds_dataset.py): conversion of the images,
    the statistics recorded with them, the items handed out, and
    [compute_stats_s2], on exact reals.

    An image of H rows and W columns is a function of (row, column); an input has a
    channel index in front.  None is a raised error or a nan / inf in the result.
    Reading and resizing of image files, the HDF5 container and the casts to
    float32 are not modelled; all samples of a dataset have one shape, as the
    arrays of the container have. *)
From Coq Require Import List Arith NArith ZArith Lia Bool Reals Ascii String.
From Verif Require Import TensorModel BigSum TruncModel QuadModel LossModel.
Import ListNotations.
Local Open Scope R_scope.

Definition image := nat -> nat -> R.

(** np.sum(x * quad_weights, axis=(-2, -1)) *)
Definition wsum (H W : nat) (q : tensor R) (x : image) : R :=
  rsum H (fun k => rsum W (fun j => x k j * val q [k; j])).

(** The values of all pixels; np.min and np.max over them, which raise on no pixels. *)
Definition pixels {A} (H W : nat) (x : nat -> nat -> A) : list A :=
  flat_map (fun k => map (x k) (seq 0 W)) (seq 0 H).
Definition list_min (l : list R) : option R := match l with [] => None | x :: l => Some (fold_left Rmin l x) end.
Definition list_max (l : list R) : option R := match l with [] => None | x :: l => Some (fold_left Rmax l x) end.

(** ** compute_stats_s2 (stanford_2d3ds_dataset.py:769-841; the numbers below are lines of this file) *)

(** mean and m2 of one sample and channel (798-799, 813-814) *)
Definition sample_stats (H W : nat) (q : tensor R) (x : image) : R * R :=
  let m := wsum H W q x in (m, wsum H W q (fun k j => (x k j - m) ^ 2)).
(** the same with the mask of the non-zero targets (791-793, 802-804, 823-824); a
    mask of area 0 divides by zero *)
Definition masked_stats (H W : nat) (q : tensor R) (x : image) : option (R * R) :=
  let mask k j := if Req_EM_T (x k j) 0 then 0 else 1 in
  let a := wsum H W q mask in
  if Req_EM_T a 0 then None else
  let m := wsum H W q (fun k j => mask k j * x k j) / a in
  Some (m, wsum H W q (fun k j => mask k j * (x k j - m) ^ 2) / a).
(** the update of (count, means, m2s) by a sample (815-818, 825-828, 831) *)
Definition welford (st : nat * R * R) (s : R * R) : nat * R * R :=
  let '(count, means, m2s) := st in
  let '(m, m2) := s in
  let delta := m - means in
  (S count, means + delta / INR (count + 1), m2s + m2 + delta ^ 2 * INR count / INR (count + 1)).
(** the loop over the samples and the final square root (775-841); an empty dataset leaves
    the variables undefined *)
Definition welford_all (l : list (R * R)) : option (R * R) :=
  match l with
  | [] => None
  | (m, m2) :: l =>
      let '(count, means, m2s) := fold_left welford l (1%nat, m, m2) in
      Some (means, sqrt (m2s / INR count))
  end.
Fixpoint all_some {A} (l : list (option A)) : option (list A) :=
  match l with [] => Some [] | Some a :: l => match all_some l with Some r => Some (a :: r) | None => None end | None :: _ => None end.

(** means and standard deviations of channel [c] of the inputs; [tiled] weights *)
Definition stats_input (gl : nat -> rule) (H W : nat) (inps : list (nat -> image)) (c : nat) : option (R * R) :=
  do q <- get_quadrature_weights gl H W GEquiangular true true;
  welford_all (map (fun x => sample_stats H W q (x c)) inps).
(** ... and of the targets with normalize_target *)
Definition stats_target (gl : nat -> rule) (H W : nat) (tars : list image) : option (R * R) :=
  do q <- get_quadrature_weights gl H W GEquiangular true true;
  do l <- all_some (map (masked_stats H W q) tars);
  welford_all l.

(** ** convert_dataset (250-491) *)

(** 369-374: the weights, normalised over all pixels *)
Definition convert_weights (gl : nat -> rule) (H W : nat) : option (tensor R) :=
  do lat <- precompute_latitudes gl H GEquiangular;
  do _ <- guard (1 <=? W)%nat;
  let q := mkT [H; W] (fun i => rw lat (nth 0 i 0%nat) * 2 * PI / INR W) in
  let t := rsum H (fun k => rsum W (fun j => val q [k; j])) in
  if Req_EM_T t 0 then None else Some (map_t (fun v => v / t) q).

(** The running statistics of one channel: min, max, mean, m2. *)
Record run := mkrun { r_min : R; r_max : R; r_mean : R; r_m2 : R }.
(** 409-423 and 457-467: what one sample adds; the maxima are merged with
    np.minimum.  [count] is the index of the sample, so it is never 0 here. *)
Definition merge (count : nat) (a s : run) : run :=
  let delta := r_mean s - r_mean a in
  mkrun (Rmin (r_min a) (r_min s)) (Rmin (r_max a) (r_max s))
        (r_mean a + delta / INR (count + 1))
        (r_m2 a + (r_m2 s + delta * delta * (INR count / INR (count + 1)))).
Fixpoint merge_all (count : nat) (a : run) (l : list run) : run :=
  match l with [] => a | s :: l => merge_all (S count) (merge count a s) l end.
(** 473-485: mean, standard deviation, min and max as recorded; with one sample the
    division by num_samples - 1 = 0 gives nan or inf, for no sample 356 raises *)
Record recorded := mkrec { d_min : R; d_max : R; d_mean : R; d_std : R }.
Definition record_all (l : list run) : option recorded :=
  match l with
  | [] | [_] => None
  | a :: t =>
      let r := merge_all 1 a t in
      Some (mkrec (r_min r) (r_max r) (r_mean r) (sqrt (r_m2 r / INR (List.length l - 1))))
  end.

(** 403-408: an RGB sample, channel [c] of [nc]; the axis is missing in the sum of
    tmp_m2, which runs over the channels as well. *)
Definition rgb_run (H W nc : nat) (q : tensor R) (x : nat -> image) (c : nat) : option run :=
  do lo <- list_min (pixels H W (x c));
  do hi <- list_max (pixels H W (x c));
  Some (mkrun lo hi (wsum H W q (x c))
         (rsum nc (fun c' => wsum H W q (fun k j => (x c' k j - wsum H W q (x c')) ^ 2)))).
(** 450-456: a depth sample, from the raw values *)
Definition depth_run (H W : nat) (q : tensor R) (x : image) : option run :=
  do lo <- list_min (pixels H W x);
  do hi <- list_max (pixels H W x);
  let m := wsum H W q x in
  Some (mkrun lo hi m (wsum H W q (fun k j => (x k j - m) ^ 2))).
(** 448: the depth as stored *)
Definition stored_depth (x : image) : image := fun k j => x k j / IZR 65536.

Definition record_rgb (gl : nat -> rule) (H W nc : nat) (xs : list (nat -> image)) (c : nat) : option recorded :=
  do q <- convert_weights gl H W;
  do l <- all_some (map (fun x => rgb_run H W nc q x c) xs);
  record_all l.
Definition record_depth (gl : nat -> rule) (H W : nat) (xs : list image) : option recorded :=
  do q <- convert_weights gl H W;
  do l <- all_some (map (depth_run H W q) xs);
  record_all l.

(** ** Class labels *)

(** label.split("_")[0] *)
Fixpoint before_underscore (s : string) : string :=
  match s with
  | EmptyString => EmptyString
  | String a r => if Ascii.eqb a "_"%char then EmptyString else String a (before_underscore r)
  end.
(** 303-304: sorted(list(set(l))) as insertion into a sorted list without repetition *)
Fixpoint insert_label (s : string) (l : list string) : list string :=
  match l with
  | [] => [s]
  | a :: r => if String.eqb s a then l else if String.ltb s a then s :: l else a :: insert_label s r
  end.
Definition sorted_set (l : list string) : list string := fold_right insert_label [] l.
Definition class_map (labels : list string) : list string := map before_underscore labels.
Definition classes (labels : list string) : list string := sorted_set (class_map labels).

(** list.index *)
Fixpoint index_of (s : string) (l : list string) : option nat :=
  match l with [] => None | a :: r => if String.eqb a s then Some 0%nat else do i <- index_of s r; Some (S i) end.
(** 226-248 [_rgb_to_id] on one pixel of bytes r, g, b; a lookup past the end of the
    labels raises.  int32 does not overflow for bytes. *)
Definition rgb_to_id (labels : list string) (p : N * N * N) : option nat :=
  let '(r, g, b) := p in
  let lookup := (r * 256 * 256 + g * 256 + b)%N in
  let lookup := if (lookup =? 855309)%N then 3341%N else lookup in
  do label <- nth_error (class_map labels) (N.to_nat lookup);
  index_of label (classes labels).
(** np.vectorize over an image (246-248) *)
Definition ids (labels : list string) (H W : nat) (img : nat -> nat -> N * N * N) : option (list nat) :=
  all_some (map (rgb_to_id labels) (pixels H W img)).

(** 368, 469-471, 488: the histogram of class [c] from the class images *)
Definition histogram (gl : nat -> rule) (H W : nat) (sems : list (nat -> nat -> nat)) (c : nat) : option R :=
  do q <- convert_weights gl H W;
  if (List.length sems =? 0)%nat then None else
  Some (fold_left (fun h s => h + wsum H W q (fun k j => if (s k j =? c)%nat then 1 else 0)) sems 0 / INR (List.length sems)).

(** ** Items *)

(** 605-606, 626-643 [StanfordSegmentationDataset.__getitem__]; [hcut] is
    int(exclude_polar_fraction * H), 0 when the fraction is 0; x[-hcut:] of an array
    of H rows starts at row H - hcut, or 0. *)
Definition seg_item (num_classes H hcut : nat) (mask_invalid : bool) (sem : nat -> nat -> Z) (k j : nat) : Z :=
  let v := if mask_invalid && (Z.of_nat num_classes <=? sem k j)%Z then (-100)%Z else sem k j in
  if (0 <? hcut)%nat && ((k <? hcut)%nat || (H - hcut <=? k)%nat) then (-100)%Z else v.
(** 742-743, 745-766 [StanfordDepthDataset.__getitem__]: the largest value is taken
    for the mark of an invalid pixel.  log of a non-positive number is not a number. *)
Definition depth_item (H W hcut : nat) (mask_invalid log_depth : bool) (dep : image) : option (nat -> nat -> option R) :=
  do hi <- list_max (pixels H W dep);
  Some (fun k j =>
    let v := if mask_invalid then dep k j * (if Req_EM_T (dep k j) hi then 0 else 1) else dep k j in
    let v := if (0 <? hcut)%nat && ((k <? hcut)%nat || (H - hcut <=? k)%nat) then 0 else v in
    if log_depth then (if Rlt_dec 0 (1 + v) then Some (ln (1 + v)) else None) else Some v).
