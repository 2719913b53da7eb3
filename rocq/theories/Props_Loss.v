(** C48: quadrature weights, masks and the L1, L2 and squared losses. *)
From Coq Require Import List Arith Lia Bool Reals Lra.
From Verif Require Import TensorModel TensorProofs BigSum TruncModel QuadModel CCProofs QuadProofs QuadPropProofs LossModel LossSpec LossProofs LossProofs2 LossProofs3 LossProofs4.
Import ListNotations.
Local Open Scope R_scope.

(** the weights: one row each (or tiled), the share of the sphere or 2 pi w / nlon ... *)
Theorem C48_weights : forall gl nlat nlon g lat, precompute_latitudes gl nlat g = Some lat -> (1 <= nlon)%nat ->
  forall tile normalized, (normalized = true -> rsum nlat (rw lat) <> 0) ->
  exists q, get_quadrature_weights gl nlat nlon g tile normalized = Some q /\ shp q = [nlat; if tile then nlon else 1%nat] /\
  forall k j, val q [k; j] = if normalized then area (rw lat) nlat nlon k else 2 * PI * rw lat k / INR nlon.
Proof. exact weights_value. Qed.
(** ... which sum to one over the grid and are positive *)
Theorem C48_weights_total : forall gl nlat nlon g lat q, precompute_latitudes gl nlat g = Some lat -> (1 <= nlon)%nat ->
  get_quadrature_weights gl nlat nlon g true true = Some q -> rsum nlat (fun k => rsum nlon (fun j => val q [k; j])) = 1.
Proof.
  intros gl nlat nlon g lat q El Hn E. assert (T : rsum nlat (rw lat) <> 0). { intros Z. destruct (weights_decided gl nlat nlon g lat El Hn true true) as [_ D]. rewrite D in E; auto. discriminate. }
  destruct (weights_value gl nlat nlon g lat El Hn true true (fun _ => T)) as (q' & E' & _ & V). rewrite E in E'. injection E' as <-.
  rewrite <- (area_total nlat nlon lat Hn T). apply bsum_ext. intros k Hk. apply bsum_ext. intros j Hj. apply V.
Qed.
Theorem C48_weights_decided : forall gl nlat nlon g lat, precompute_latitudes gl nlat g = Some lat -> (1 <= nlon)%nat ->
  forall tile normalized, get_quadrature_weights gl nlat nlon g tile normalized = None <-> normalized = true /\ rsum nlat (rw lat) = 0.
Proof. exact weights_decided. Qed.
Theorem C48_weights_positive : forall gl nlat g lat, precompute_latitudes gl nlat g = Some lat -> (2 <= nlat)%nat -> g <> GLobatto ->
  (g = GLegendreGauss -> forall i, (i < nlat)%nat -> 0 < rw (gl nlat) i) -> forall k, (k < nlat)%nat -> 0 < rw lat k.
Proof. exact lat_weights_positive. Qed.

(** the losses are averages over the leading dimensions of means over the sphere ... *)
Theorem C48_losses_are_means : forall gl nlat nlon g lat normalized q lead, precompute_latitudes gl nlat g = Some lat -> (1 <= nlon)%nat ->
  loss_weights gl nlat nlon g normalized = Some q -> (1 <= count lead)%nat -> normalized = true ->
  forall x y, shp x = lead ++ [nlat; nlon] -> shp y = lead ++ [nlat; nlon] ->
  squared_l2_loss q x y None = Some (average lead (fun i => mean_on_sphere (rw lat) nlat nlon (fun k j => (val x (i ++ [k; j]) - val y (i ++ [k; j])) ^ 2))) /\
  l1_loss q x y None = Some (average lead (fun i => mean_on_sphere (rw lat) nlat nlon (fun k j => Rabs (val x (i ++ [k; j]) - val y (i ++ [k; j]))))) /\
  ((forall k, (k < nlat)%nat -> 0 < rw lat k) ->
   l2_loss q x y None = Some (average lead (fun i => sqrt (mean_on_sphere (rw lat) nlat nlon (fun k j => (val x (i ++ [k; j]) - val y (i ++ [k; j])) ^ 2))))).
Proof. exact values_sphere. Qed.
(** ... or over the mask, whether or not the weights are normalised *)
Theorem C48_masked_losses_are_means : forall gl nlat nlon g lat normalized q lead, precompute_latitudes gl nlat g = Some lat -> (1 <= nlon)%nat ->
  loss_weights gl nlat nlon g normalized = Some q -> (1 <= count lead)%nat ->
  forall x y m lm, shp x = lead ++ [nlat; nlon] -> shp y = lead ++ [nlat; nlon] -> good_mask nlat nlon lat lead lm m ->
  let M i k j := val m (bidx lm i ++ [k; j]) in
  squared_l2_loss q x y (Some m) = Some (average lead (fun i => mean_on_mask (rw lat) nlat nlon (M i) (fun k j => (val x (i ++ [k; j]) - val y (i ++ [k; j])) ^ 2))) /\
  l1_loss q x y (Some m) = Some (average lead (fun i => mean_on_mask (rw lat) nlat nlon (M i) (fun k j => Rabs (val x (i ++ [k; j]) - val y (i ++ [k; j]))))) /\
  ((forall k, (k < nlat)%nat -> 0 < rw lat k) -> mask_nonneg nlat nlon (Some m) ->
   l2_loss q x y (Some m) = Some (average lead (fun i => sqrt (mean_on_mask (rw lat) nlat nlon (M i) (fun k j => (val x (i ++ [k; j]) - val y (i ++ [k; j])) ^ 2))))).
Proof. exact values_mask. Qed.
Theorem C48_empty_mask : forall gl nlat nlon g lat normalized q lead, precompute_latitudes gl nlat g = Some lat -> (1 <= nlon)%nat ->
  loss_weights gl nlat nlon g normalized = Some q ->
  forall x y m lm i, shp x = lead ++ [nlat; nlon] -> shp y = lead ++ [nlat; nlon] -> shp m = lm ++ [nlat; nlon] -> bshape lm lead = Some lead -> valid lm i ->
  (forall k j, (k < nlat)%nat -> (j < nlon)%nat -> val m (i ++ [k; j]) = 0) ->
  squared_l2_loss q x y (Some m) = None /\ l1_loss q x y (Some m) = None /\ l2_loss q x y (Some m) = None.
Proof. exact empty_mask. Qed.
(** non-negative, and zero exactly when the fields agree wherever the mask is not zero *)
Theorem C48_nonnegative_and_definite : forall gl nlat nlon g lat normalized q lead, precompute_latitudes gl nlat g = Some lat -> (1 <= nlon)%nat ->
  loss_weights gl nlat nlon g normalized = Some q -> (1 <= count lead)%nat -> (forall k, (k < nlat)%nat -> 0 < rw lat k) ->
  forall lm m, option_mask nlat nlon lat lead lm m -> mask_nonneg nlat nlon m ->
  forall x y, shp x = lead ++ [nlat; nlon] -> shp y = lead ++ [nlat; nlon] ->
  exists a b c, squared_l2_loss q x y m = Some a /\ l1_loss q x y m = Some b /\ l2_loss q x y m = Some c /\ 0 <= a /\ 0 <= b /\ 0 <= c /\
  (forall v, v = a \/ v = b \/ v = c -> (v = 0 <-> forall i k j, valid lead i -> (k < nlat)%nat -> (j < nlon)%nat -> pixel_counts lm m i k j -> val x (i ++ [k; j]) = val y (i ++ [k; j]))).
Proof. exact losses_exist. Qed.
(** what lies outside the mask does not matter *)
Theorem C48_masked_out : forall gl nlat nlon g lat normalized q lead, precompute_latitudes gl nlat g = Some lat -> (1 <= nlon)%nat ->
  loss_weights gl nlat nlon g normalized = Some q -> (1 <= count lead)%nat -> (forall k, (k < nlat)%nat -> 0 < rw lat k) ->
  forall lm m, option_mask nlat nlon lat lead lm m -> mask_nonneg nlat nlon m ->
  forall x y x' y', shp x = lead ++ [nlat; nlon] -> shp y = lead ++ [nlat; nlon] -> shp x' = lead ++ [nlat; nlon] -> shp y' = lead ++ [nlat; nlon] ->
  (forall i k j, valid lead i -> (k < nlat)%nat -> (j < nlon)%nat -> pixel_counts lm m i k j -> val x (i ++ [k; j]) = val x' (i ++ [k; j]) /\ val y (i ++ [k; j]) = val y' (i ++ [k; j])) ->
  squared_l2_loss q x y m = squared_l2_loss q x' y' m /\ l1_loss q x y m = l1_loss q x' y' m /\ l2_loss q x y m = l2_loss q x' y' m.
Proof. exact masked_out. Qed.
(** a constant offset costs exactly that constant, on every grid and under every mask *)
Theorem C48_constant_offset : forall gl nlat nlon g lat normalized q lead, precompute_latitudes gl nlat g = Some lat -> (1 <= nlon)%nat ->
  loss_weights gl nlat nlon g normalized = Some q -> (1 <= count lead)%nat -> (forall k, (k < nlat)%nat -> 0 < rw lat k) ->
  forall lm m, option_mask nlat nlon lat lead lm m -> mask_nonneg nlat nlon m -> (m = None -> normalized = true) ->
  forall c x y, shp x = lead ++ [nlat; nlon] -> shp y = lead ++ [nlat; nlon] ->
  (forall i k j, valid lead i -> (k < nlat)%nat -> (j < nlon)%nat -> val x (i ++ [k; j]) = val y (i ++ [k; j]) + c) ->
  squared_l2_loss q x y m = Some (c ^ 2) /\ l1_loss q x y m = Some (Rabs c) /\ l2_loss q x y m = Some (Rabs c).
Proof. exact constant_offset. Qed.
(** L1 and L2 satisfy the triangle inequality, and L1 <= L2 *)
Theorem C48_triangle : forall gl nlat nlon g lat normalized q lead, precompute_latitudes gl nlat g = Some lat -> (1 <= nlon)%nat ->
  loss_weights gl nlat nlon g normalized = Some q -> (1 <= count lead)%nat -> (forall k, (k < nlat)%nat -> 0 < rw lat k) ->
  forall lm m, option_mask nlat nlon lat lead lm m -> mask_nonneg nlat nlon m ->
  forall x y z a b, shp x = lead ++ [nlat; nlon] -> shp y = lead ++ [nlat; nlon] -> shp z = lead ++ [nlat; nlon] ->
  (l1_loss q x y m = Some a -> l1_loss q y z m = Some b -> exists c, l1_loss q x z m = Some c /\ c <= a + b) /\
  (l2_loss q x y m = Some a -> l2_loss q y z m = Some b -> exists c, l2_loss q x z m = Some c /\ c <= a + b).
Proof. exact triangle. Qed.
Theorem C48_l1_below_l2 : forall gl nlat nlon g lat normalized q lead, precompute_latitudes gl nlat g = Some lat -> (1 <= nlon)%nat ->
  loss_weights gl nlat nlon g normalized = Some q -> (1 <= count lead)%nat -> (forall k, (k < nlat)%nat -> 0 < rw lat k) ->
  forall lm m, option_mask nlat nlon lat lead lm m -> mask_nonneg nlat nlon m -> (m = None -> normalized = true) ->
  forall x y a b, shp x = lead ++ [nlat; nlon] -> shp y = lead ++ [nlat; nlon] -> l1_loss q x y m = Some a -> l2_loss q x y m = Some b -> a <= b.
Proof. exact l1_below_l2. Qed.
(** the number of longitudes of the fields is not checked: the weights are columns, and fields
    of another width are silently integrated with the wrong total weight *)
Theorem C48_width_unchecked_refuted : forall gl nlat nlon g lat q W lead c x y, precompute_latitudes gl nlat g = Some lat -> (1 <= nlon)%nat ->
  loss_weights gl nlat nlon g true = Some q -> (1 <= count lead)%nat -> shp x = lead ++ [nlat; W] -> shp y = shp x -> (forall i, val x i = val y i + c) ->
  l1_loss q x y None = Some (INR W / INR nlon * Rabs c).
Proof. exact width_unchecked. Qed.

(** the hypotheses are met by the default grid *)
Example C48_ex : forall gl, exists lat q, precompute_latitudes gl 5 GEquiangular = Some lat /\ loss_weights gl 5 8 GEquiangular true = Some q /\ (forall k, (k < 5)%nat -> 0 < rw lat k) /\
  l1_loss q (mkT [2; 3; 5; 8]%nat (fun _ => 4)) (mkT [2; 3; 5; 8]%nat (fun _ => 1)) (Some (mkT [2; 1; 5; 8]%nat (fun i => if (nth 2 i 0 <? 2)%nat then 1 else 0))) = Some 3.
Proof.
  intros gl. assert (exists lat, precompute_latitudes gl 5 GEquiangular = Some lat) as (lat & El). { unfold precompute_latitudes. rewrite quad_rule_lat. cbn [quadrature_s2_rule]. destruct (cc_model 5 (-1) 1 ltac:(lia)) as (q & -> & _). eauto. }
  assert (P := C48_weights_positive gl 5 GEquiangular lat El ltac:(lia) ltac:(discriminate) ltac:(discriminate)).
  assert (T : rsum 5 (rw lat) <> 0). { apply Rgt_not_eq, rsum_pos'; auto; lia. }
  destruct (C48_weights gl 5 8 GEquiangular lat El ltac:(lia) false true (fun _ => T)) as (q & E & _). exists lat, q. repeat split; auto.
  destruct (C48_constant_offset gl 5 8 GEquiangular lat true q [2; 3]%nat El ltac:(lia) E ltac:(cbn; lia) P [2; 1]%nat (Some (mkT [2; 1; 5; 8]%nat (fun i => if (nth 2 i 0 <? 2)%nat then 1 else 0)))) with (c := 3) (x := mkT [2; 3; 5; 8]%nat (fun _ : list nat => 4)) (y := mkT [2; 3; 5; 8]%nat (fun _ : list nat => 1)) as (_ & R & _); auto.
  - split; [reflexivity|]. split; [reflexivity|]. intros i Hi. destruct i as [|a [|b [|c i]]]; try (destruct Hi as [L _]; discriminate L). cbn [app val nth].
    cbn [bsum_ Nat.ltb Nat.leb]. pose proof (P 0%nat ltac:(lia)). pose proof (P 1%nat ltac:(lia)). lra.
  - intros i k j Hk Hj. cbn [val]. destruct (nth 2 (i ++ [k; j]) 0 <? 2)%nat; lra.
  - intros. cbn [val]. ring.
  - rewrite R. f_equal. apply Rabs_pos_eq. lra.
Qed.

Print Assumptions C48_weights.
Print Assumptions C48_weights_total.
Print Assumptions C48_weights_decided.
Print Assumptions C48_weights_positive.
Print Assumptions C48_losses_are_means.
Print Assumptions C48_masked_losses_are_means.
Print Assumptions C48_empty_mask.
Print Assumptions C48_nonnegative_and_definite.
Print Assumptions C48_masked_out.
Print Assumptions C48_constant_offset.
Print Assumptions C48_triangle.
Print Assumptions C48_l1_below_l2.
Print Assumptions C48_width_unchecked_refuted.
