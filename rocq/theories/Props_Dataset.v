(** C75: the statistics, class labels and items of the segmentation and depth dataset. *)
From Coq Require Import List Arith NArith ZArith Lia Lra Bool Reals Ascii String.
From Verif Require Import TensorModel BigSum TruncModel QuadModel LossModel LossSpec LossProofs DatasetModel DatasetSpec DatasetProofs DatasetProofs2 DatasetProofs3.
Import ListNotations.
Local Open Scope R_scope.

(** compute_stats_s2: the running update over the samples gives the mean and the
    standard deviation of the whole dataset on the sphere ... *)
Theorem C75_input_stats : forall gl H W xs c, (2 <= H)%nat -> (1 <= W)%nat -> xs <> [] ->
  exists lat, precompute_latitudes gl H GEquiangular = Some lat /\
  stats_input gl H W xs c = Some (data_mean (rw lat) H W (map (fun x => x c) xs), sqrt (data_var (rw lat) H W (map (fun x => x c) xs))).
Proof. exact stats_input_ok. Qed.
Print Assumptions C75_input_stats.
(** ... and for targets those over the pixels that are not 0, every image counting
    the same, as long as every image has one. *)
Theorem C75_target_stats : forall gl H W xs, (2 <= H)%nat -> (1 <= W)%nat -> xs <> [] ->
  (forall x, In x xs -> exists k j, (k < H)%nat /\ (j < W)%nat /\ x k j <> 0) ->
  exists lat, precompute_latitudes gl H GEquiangular = Some lat /\
  stats_target gl H W xs = Some (valid_mean (rw lat) H W xs, sqrt (valid_var (rw lat) H W xs)).
Proof. exact stats_target_ok. Qed.
Print Assumptions C75_target_stats.
(** One target without a valid pixel makes the statistics of the dataset nan. *)
Theorem C75_empty_target : forall gl H W xs x, (2 <= H)%nat -> (1 <= W)%nat -> In x xs ->
  (forall k j, (k < H)%nat -> (j < W)%nat -> x k j = 0) -> stats_target gl H W xs = None.
Proof. exact stats_target_none. Qed.
Print Assumptions C75_empty_target.

(** convert_dataset: the recorded mean and minimum of a colour channel are those of
    the images. *)
Theorem C75_recorded_rgb : forall gl H W nc xs c, (2 <= H)%nat -> (1 <= W)%nat -> (2 <= List.length xs)%nat ->
  exists lat d, precompute_latitudes gl H GEquiangular = Some lat /\ record_rgb gl H W nc xs c = Some d /\
  d_mean d = data_mean (rw lat) H W (map (fun x => x c) xs) /\ is_min H W (map (fun x => x c) xs) (d_min d).
Proof.
  intros gl H W nc xs c H2 HW Hx. destruct (equi_lat gl H H2) as (lat & El & P & T).
  destruct (record_rgb_ok gl H W lat nc xs c El ltac:(lia) HW ltac:(lra) Hx) as (d & E & A & B & _). exists lat, d. auto.
Qed.
Print Assumptions C75_recorded_rgb.
(** The recorded mean, minimum and standard deviation (with n - 1) of the depth are
    those of the raw depth images ... *)
Theorem C75_recorded_depth : forall gl H W xs, (2 <= H)%nat -> (1 <= W)%nat -> (2 <= List.length xs)%nat ->
  exists lat d, precompute_latitudes gl H GEquiangular = Some lat /\ record_depth gl H W xs = Some d /\
  d_mean d = data_mean (rw lat) H W xs /\ is_min H W xs (d_min d) /\
  d_std d = sqrt (INR (List.length xs) * data_var (rw lat) H W xs / INR (List.length xs - 1)).
Proof.
  intros gl H W xs H2 HW Hx. destruct (equi_lat gl H H2) as (lat & El & P & T).
  destruct (record_depth_ok gl H W lat xs El ltac:(lia) HW ltac:(lra) Hx) as (d & E & A & B & C). exists lat, d. auto.
Qed.
Print Assumptions C75_recorded_depth.
(** ... which are 65536 times those of the depth images that are stored. *)
Theorem C75_depth_scale : forall gl H W xs, (2 <= H)%nat -> (1 <= W)%nat -> (2 <= List.length xs)%nat ->
  exists lat d, precompute_latitudes gl H GEquiangular = Some lat /\ record_depth gl H W xs = Some d /\
  d_mean d = IZR 65536 * data_mean (rw lat) H W (map stored_depth xs) /\
  d_std d = IZR 65536 * sqrt (INR (List.length xs) * data_var (rw lat) H W (map stored_depth xs) / INR (List.length xs - 1)).
Proof.
  intros gl H W xs H2 HW Hx. destruct (equi_lat gl H H2) as (lat & El & P & T).
  destruct (record_depth_ok gl H W lat xs El ltac:(lia) HW ltac:(lra) Hx) as (d & E & A & B & C). exists lat, d. split; auto. split; auto.
  rewrite (data_mean_scal _ _ _ _ stored_depth xs stored_depth_scal), (data_var_scal _ _ _ _ stored_depth xs stored_depth_scal). split. rewrite A. field.
  rewrite C. rewrite <- (sqrt_pow2 (IZR 65536)) at 1 by (apply IZR_le; lia). rewrite <- sqrt_mult_alt by apply pow2_ge_0. f_equal. field.
  apply not_0_INR. lia.
Qed.
Print Assumptions C75_depth_scale.
Theorem C75_depth_scale_refuted : forall gl, exists H W xs lat d, precompute_latitudes gl H GEquiangular = Some lat /\ record_depth gl H W xs = Some d /\
  d_mean d <> data_mean (rw lat) H W (map stored_depth xs).
Proof.
  intros gl. destruct (C75_depth_scale gl 2 2 [(fun _ _ => 1); (fun _ _ => 1)] ltac:(lia) ltac:(lia) ltac:(simpl; lia)) as (lat & d & El & E & M & _).
  exists 2%nat, 2%nat, [(fun _ _ => 1); (fun _ _ => 1)], lat, d. split; auto. split; auto. intros F. rewrite F in M.
  destruct (equi_lat gl 2 ltac:(lia)) as (lat' & El' & P & T). assert (lat' = lat) by congruence. subst.
  rewrite (data_mean_scal _ _ _ _ stored_depth _ stored_depth_scal) in M. unfold data_mean, lsum_ in M. cbn [fold_right List.length INR] in M.
  rewrite mean_const in M by (apply (area_total 2 2 lat ltac:(lia)); lra). lra.
Qed.
Print Assumptions C75_depth_scale_refuted.

(** Refuted: the recorded maximum is not the maximum of the images; the maxima of
    the images are merged with np.minimum. *)
Theorem C75_max_refuted : forall gl, exists H W nc xs c d, record_rgb gl H W nc xs c = Some d /\
  ~ is_max H W (map (fun x => x c) xs) (d_max d).
Proof.
  intros gl. set (xs := [(fun _ _ _ => 1); (fun _ _ _ => 0)] : list (nat -> image)). destruct (equi_lat gl 2 ltac:(lia)) as (lat & El & P & T).
  destruct (record_rgb_ok gl 2 2 lat 3 xs 0 El ltac:(lia) ltac:(lia) ltac:(lra) ltac:(simpl; lia)) as (d & E & _ & _ & M & _).
  exists 2%nat, 2%nat, 3%nat, xs, 0%nat, d. split; auto. intros [_ G]. specialize (G (fun _ _ => 1) 0%nat 0%nat ltac:(left; auto) ltac:(lia) ltac:(lia)).
  rewrite M in G. cbn [xs map tl hd fold_left] in G. rewrite !lmax_const in G by lia. unfold Rmin in G. destruct (Rle_dec 1 0); lra.
Qed.
Print Assumptions C75_max_refuted.

(** Refuted: a colour channel that is 0 everywhere gets a positive standard deviation
    from the other channels; the axis is missing in the sum. *)
Theorem C75_std_refuted : forall gl, exists H W nc xs c lat d, precompute_latitudes gl H GEquiangular = Some lat /\
  record_rgb gl H W nc xs c = Some d /\ data_var (rw lat) H W (map (fun x => x c) xs) = 0 /\ 1 <= d_std d.
Proof.
  intros gl. set (x := (fun c _ j => if (c =? 1)%nat then if (j =? 0)%nat then 1 else -1 else 0) : nat -> image).
  destruct (equi_lat gl 2 ltac:(lia)) as (lat & El & P & T).
  assert (A1 := area_total 2 2 lat ltac:(lia) ltac:(lra)).
  destruct (record_rgb_ok gl 2 2 lat 3 [x; x] 0 El ltac:(lia) ltac:(lia) ltac:(lra) ltac:(simpl; lia)) as (d & E & Em & _ & _ & Es).
  exists 2%nat, 2%nat, 3%nat, [x; x], 0%nat, lat, d. split; auto. split; auto.
  assert (Z0 : forall c, c <> 1%nat -> mean_on_sphere (rw lat) 2 2 (x c) = 0).
  { intros c Hc. rewrite (mean_on_sphere_ext _ _ _ (x c) (fun _ _ => 0)). apply mean_const; auto. intros. unfold x. destruct (Nat.eqb_spec c 1); congruence. }
  assert (Dm : data_mean (rw lat) 2 2 (map (fun x => x 0%nat) [x; x]) = 0).
  { unfold data_mean, lsum_. cbn [map fold_right List.length]. rewrite !(Z0 0%nat) by lia. lra. }
  split.
  - unfold data_var. rewrite Dm. unfold lsum_. cbn [map fold_right List.length].
    rewrite (mean_on_sphere_ext _ _ _ (fun k j => (x 0%nat k j - 0) ^ 2) (fun _ _ => 0)) by (intros; unfold x; simpl; ring).
    rewrite mean_const by auto. lra.
  - assert (Z1 : mean_on_sphere (rw lat) 2 2 (x 1%nat) = 0). { unfold mean_on_sphere, x. cbn [bsum_ Nat.eqb]. ring. }
    assert (V1 : mean_on_sphere (rw lat) 2 2 (fun k j => (x 1%nat k j - 0) ^ 2) = 1).
    { rewrite (mean_on_sphere_ext _ _ _ _ (fun _ _ => 1)). apply mean_const; auto. intros k j _ Hj. unfold x. destruct j as [|[|j]]; simpl; [ring|ring|lia]. }
    assert (V0 : forall c, c <> 1%nat -> mean_on_sphere (rw lat) 2 2 (fun k j => (x c k j - 0) ^ 2) = 0).
    { intros c Hc. rewrite (mean_on_sphere_ext _ _ _ _ (fun _ _ => 0)). apply mean_const; auto. intros. unfold x. destruct (Nat.eqb_spec c 1); [congruence|ring]. }
    rewrite Em, Dm in Es. rewrite Es. unfold lsum_. cbn [fold_right bsum_ List.length Nat.sub].
    rewrite !Z1, !(Z0 0%nat), !(Z0 2%nat), !V1, !(V0 0%nat), !(V0 2%nat) by lia. rewrite <- sqrt_1 at 1. apply sqrt_le_1_alt. simpl INR. lra.
Qed.
Print Assumptions C75_std_refuted.
(** Refuted: with a single image the recorded standard deviation is nan or inf. *)
Theorem C75_single_refuted : forall gl H W nc x c dep, record_rgb gl H W nc [x] c = None /\ record_depth gl H W [dep] = None.
Proof.
  intros. unfold record_rgb, record_depth. destruct (convert_weights gl H W) as [q|]; auto. cbn [bindo map all_some].
  split; [destruct (rgb_run H W nc q x c)|destruct (depth_run H W q dep)]; reflexivity.
Qed.
Print Assumptions C75_single_refuted.

(** The class of a pixel is the position of its label, cut at the first underscore, in the sorted list of
    distinct labels; pixels have the same class exactly when their labels agree. *)
Theorem C75_class_ids : forall labels p i, rgb_to_id labels p = Some i ->
  exists s, nth_error labels (N.to_nat (label_number p)) = Some s /\ nth_error (classes labels) i = Some (before_underscore s).
Proof. exact rgb_to_id_some. Qed.
Print Assumptions C75_class_ids.
(** ... where the name of a class is what precedes the first underscore of its labels. *)
Theorem C75_class_name : forall s c, before_underscore s = c <-> names_class s c.
Proof.
  intros s c. split.
  - intros <-. induction s as [|a r [IH1 IH2]]; cbn [before_underscore]. { split; [intros []|left; reflexivity]. }
    destruct (Ascii.eqb_spec a "_"%char) as [->|N]. { split; [intros []|right; exists r; reflexivity]. }
    split. { intros [?|?]; auto. } destruct IH2 as [IH2|[t IH2]]; [left|right; exists t]; cbn [append]; congruence.
  - revert c. induction s as [|a r IH]; intros c [N [E|[t E]]]; cbn [before_underscore].
    + now subst.
    + destruct c; discriminate.
    + subst c. destruct (Ascii.eqb_spec a "_"%char) as [->|M]. { elim N. left. reflexivity. } f_equal. apply IH. split; [|left; reflexivity]. intros H. apply N. right. exact H.
    + destruct c as [|b c]; cbn [append] in E; injection E as -> E. { now rewrite Ascii.eqb_refl. }
      destruct (Ascii.eqb_spec b "_"%char) as [->|M]. { elim N. left. reflexivity. } f_equal. apply IH. split; [|right; exists t; exact E]. intros H. apply N. right. exact H.
Qed.
Print Assumptions C75_class_name.
Theorem C75_class_ids_total : forall labels p, (N.to_nat (label_number p) < List.length labels)%nat -> exists i, rgb_to_id labels p = Some i.
Proof. exact rgb_to_id_total. Qed.
Print Assumptions C75_class_ids_total.
Theorem C75_classes : forall labels, NoDup (classes labels) /\ forall c, In c (classes labels) <-> exists s, In s labels /\ before_underscore s = c.
Proof.
  intros labels. split. apply sorted_nodup, sorted_set_sorted. intros c. unfold classes. rewrite sorted_set_in. unfold class_map. rewrite in_map_iff. firstorder.
Qed.
Print Assumptions C75_classes.
Theorem C75_same_class : forall labels p p' i i' s s', rgb_to_id labels p = Some i -> rgb_to_id labels p' = Some i' ->
  nth_error labels (N.to_nat (label_number p)) = Some s -> nth_error labels (N.to_nat (label_number p')) = Some s' ->
  (i = i' <-> before_underscore s = before_underscore s').
Proof.
  intros labels p p' i i' s s' E E' N N'. destruct (rgb_to_id_some _ _ _ E) as (t & Nt & Ct). destruct (rgb_to_id_some _ _ _ E') as (t' & Nt' & Ct').
  assert (t = s) by congruence. assert (t' = s') by congruence. subst. split; intros H.
  - subst. congruence.
  - rewrite H in Ct. eapply (proj1 (NoDup_nth_error (classes labels)) (proj1 (C75_classes labels))); [|congruence].
    apply nth_error_Some. congruence.
Qed.
Print Assumptions C75_same_class.

(** The histogram gives every class its share of the sphere; the shares add up to 1. *)
Theorem C75_histogram : forall gl H W sems n, (2 <= H)%nat -> (1 <= W)%nat -> sems <> [] ->
  exists lat, precompute_latitudes gl H GEquiangular = Some lat /\
  (forall c, histogram gl H W sems c = Some (class_share (rw lat) H W sems c)) /\
  ((forall s k j, In s sems -> (k < H)%nat -> (j < W)%nat -> (s k j < n)%nat) -> rsum n (class_share (rw lat) H W sems) = 1).
Proof.
  intros gl H W sems n H2 HW Hs. destruct (equi_lat gl H H2) as (lat & El & P & T). exists lat. split; auto. split.
  - intros c. apply histogram_ok; auto. lra.
  - intros Hn. apply (class_shares_one n gl H W lat sems); auto. lra.
Qed.
Print Assumptions C75_histogram.

(** Items: a pixel of a segmentation target is -100 exactly in the rows cut off at
    the poles or where its class is not one of the classes; otherwise it is unchanged. *)
Theorem C75_seg_item : forall n H hcut sem k j, (k < H)%nat -> (0 <= sem k j)%Z ->
  (seg_item n H hcut true sem k j = (-100)%Z <-> polar H hcut k \/ (Z.of_nat n <= sem k j)%Z) /\
  (seg_item n H hcut true sem k j <> (-100)%Z -> seg_item n H hcut true sem k j = sem k j).
Proof. exact seg_item_ok. Qed.
Print Assumptions C75_seg_item.
(** A depth image in which some pixel carries the mark [top] of an invalid pixel
    comes back with 0 at the marked pixels and at the poles, unchanged elsewhere. *)
Theorem C75_depth_item : forall H W hcut dep top, (forall k j, (k < H)%nat -> (j < W)%nat -> dep k j <= top) ->
  (exists k j, (k < H)%nat /\ (j < W)%nat /\ dep k j = top) ->
  exists f, depth_item H W hcut true false dep = Some f /\
  forall k j, (k < H)%nat -> (j < W)%nat -> (dep k j = top \/ polar H hcut k -> f k j = Some 0) /\ (dep k j <> top -> ~ polar H hcut k -> f k j = Some (dep k j)).
Proof. exact depth_item_ok. Qed.
Print Assumptions C75_depth_item.
(** With log_depth the item is the logarithm of one plus the item without it, so that the
    depth can be recovered; masked pixels stay 0. *)
Theorem C75_depth_item_log : forall H W hcut mask dep g, (forall k j, (k < H)%nat -> (j < W)%nat -> 0 <= dep k j) ->
  depth_item H W hcut mask false dep = Some g -> exists f, depth_item H W hcut mask true dep = Some f /\
  forall k j, (k < H)%nat -> (j < W)%nat -> exists v y, g k j = Some v /\ f k j = Some y /\ exp y - 1 = v /\ (v = 0 <-> y = 0).
Proof.
  intros H W hcut mask dep g Hd E. unfold depth_item in *. destruct (list_max (pixels H W dep)) as [hi|]; [|discriminate]. cbn [bindo] in *.
  injection E as <-. eexists. split; [reflexivity|]. intros k j Hk Hj. cbv zeta. specialize (Hd k j Hk Hj).
  set (v1 := if mask then dep k j * (if Req_EM_T (dep k j) hi then 0 else 1) else dep k j).
  set (v := if (0 <? hcut)%nat && ((k <? hcut)%nat || (H - hcut <=? k)%nat) then 0 else v1).
  assert (P : 0 <= v). { unfold v, v1. destruct (_ && _)%bool; [lra|]. destruct mask; auto. destruct (Req_EM_T (dep k j) hi); lra. }
  assert (Q : 0 < 1 + v) by lra. exists v, (ln (1 + v)). split; auto. split.
  { change ((if Rlt_dec 0 (1 + v) then Some (ln (1 + v)) else None) = Some (ln (1 + v))). destruct (Rlt_dec 0 (1 + v)); [reflexivity|contradiction]. }
  rewrite exp_ln by auto. split; [lra|]. split; intros X.
  - rewrite X, Rplus_0_r. apply ln_1.
  - assert (Y : exp (ln (1 + v)) = 1) by (rewrite X; apply exp_0). rewrite exp_ln in Y by auto. lra.
Qed.
Print Assumptions C75_depth_item_log.
(** Refuted: in an image without a marked pixel the farthest pixels are erased ... *)
Theorem C75_depth_item_refuted : forall top, 0 < top -> exists H W dep f k j, (forall k j, 0 < dep k j < top) /\ (k < H)%nat /\ (j < W)%nat /\
  depth_item H W 0 true false dep = Some f /\ f k j = Some 0.
Proof.
  intros top Ht. set (dep := (fun _ _ => top / 2) : image).
  destruct (depth_item_ok 2 2 0 dep (top / 2)) as (f & E & G). { intros. unfold dep. lra. } { exists 0%nat, 0%nat. repeat split; auto. }
  exists 2%nat, 2%nat, dep, f, 0%nat, 0%nat. split. intros; unfold dep; lra. split; [lia|]. split; [lia|]. split; auto. apply G; auto.
Qed.
Print Assumptions C75_depth_item_refuted.
(** ... and one image of the same depth everywhere makes the statistics of the
    dataset it belongs to nan. *)
Theorem C75_uniform_depth_refuted : forall gl H W hcut xs x dep f c, (2 <= H)%nat -> (1 <= W)%nat -> (forall k j, dep k j = c) ->
  depth_item H W hcut true false dep = Some f -> (forall k j, f k j = Some (x k j)) -> In x xs -> stats_target gl H W xs = None.
Proof.
  intros gl H W hcut xs x dep f c H2 HW Hd Ef Hx Hin. apply (stats_target_none gl H W xs x); auto. intros k j Hk Hj.
  destruct (depth_item_ok H W hcut dep c) as (f' & E & G). { intros. rewrite Hd. lra. } { exists 0%nat, 0%nat. repeat split; auto; lia. }
  rewrite Ef in E. injection E as <-. pose proof (proj1 (G k j Hk Hj) (or_introl (Hd k j))) as F. rewrite Hx in F. congruence.
Qed.
Print Assumptions C75_uniform_depth_refuted.

Example C75_case : rgb_to_id ["<UNK>_0"; "wall_1"; "chair_2"; "wall_3"]%string (0, 0, 3)%N = Some 2%nat /\
  classes ["<UNK>_0"; "wall_1"; "chair_2"; "wall_3"]%string = ["<UNK>"; "chair"; "wall"]%string /\
  polar 8 2 1 /\ polar 8 2 6 /\ ~ polar 8 2 5.
Proof. unfold polar. repeat split; try reflexivity; try lia. Qed.
