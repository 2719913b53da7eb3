(** C53: the segmentation losses (Dice, cross entropy, focal). *)
From Coq Require Import List Arith Lia Bool Reals ZArith Lra.
From Verif Require Import TensorModel TensorProofs BigSum TruncModel QuadModel QuadProofs QuadPropProofs LossModel MetricModel MetricSpec SHTSpec SegLossModel SegLossSpec SegLossProofs SegLossProofs2 SegLossProofs3 SegLossProofs4 SegLossProofs5.
Import ListNotations.
Local Open Scope R_scope.

(** the buffers of the losses are areas of total one *)
Theorem C53_weights : forall gl nlat nlon g lat, precompute_latitudes gl nlat g = Some lat -> (2 <= nlat)%nat -> (1 <= nlon)%nat -> g <> GLobatto ->
  (g = GLegendreGauss -> forall i, (i < nlat)%nat -> 0 < rw (gl nlat) i) -> exists q, loss_weights gl nlat nlon g true = Some q /\ area_weights q nlat nlon.
Proof. exact weights_area. Qed.

(** ** Cross entropy *)
(** the batch mean of the integral over the counted pixels ... *)
Theorem C53_cross_entropy : forall q prd tar b n h w weight eps ig, shp prd = [b; n; h; w] -> shp tar = [b; h; w] -> shp q = [h; 1%nat] -> (1 <= b)%nat -> (1 <= n)%nat ->
  forall P, class_probs prd b n h w P -> 0 <= eps <= 1 -> labelled tar (Some ig) b n h w ->
  cross_entropy_loss q weight eps ig prd tar = Some (batch_mean b (fun i => part q h w (fun k j =>
    when (counts (Some ig) (val tar [i; k; j])) (cross_entropy n (weight_of weight) eps (P i k j) (Z.to_nat (val tar [i; k; j])))))).
Proof. exact ce_value. Qed.
(** ... defined exactly if the labels that count are classes and the smoothing is in [0, 1] *)
Theorem C53_cross_entropy_defined : forall q prd tar b n h w weight, shp prd = [b; n; h; w] -> shp tar = [b; h; w] -> (1 <= b)%nat -> (1 <= n)%nat -> area_weights q h w ->
  forall eps ig, (exists v, cross_entropy_loss q weight eps ig prd tar = Some v) <-> 0 <= eps <= 1 /\ labelled tar (Some ig) b n h w.
Proof. exact ce_iff. Qed.
Theorem C53_cross_entropy_nonnegative : forall q prd tar b n h w weight, shp prd = [b; n; h; w] -> shp tar = [b; h; w] -> (1 <= b)%nat -> (1 <= n)%nat -> area_weights q h w ->
  forall eps ig v, cross_entropy_loss q weight eps ig prd tar = Some v -> (forall c, (c < n)%nat -> 0 <= weight_of weight c) -> 0 <= v.
Proof. exact ce_sign. Qed.
(** without class weights it vanishes only if nothing counts *)
Theorem C53_cross_entropy_zero : forall q prd tar b n h w, shp prd = [b; n; h; w] -> shp tar = [b; h; w] -> (1 <= b)%nat -> (1 <= n)%nat -> area_weights q h w ->
  forall eps ig v, (2 <= n)%nat -> cross_entropy_loss q None eps ig prd tar = Some v ->
  (v = 0 <-> forall i k j, (i < b)%nat -> (k < h)%nat -> (j < w)%nat -> val tar [i; k; j] = ig).
Proof. exact ce_zero. Qed.
(** a prediction that does not distinguish the classes costs ln n on the counted part of the sphere *)
Theorem C53_cross_entropy_uniform : forall q prd tar b n h w, shp prd = [b; n; h; w] -> shp tar = [b; h; w] -> (1 <= b)%nat -> (1 <= n)%nat -> area_weights q h w ->
  forall eps ig v, cross_entropy_loss q None eps ig prd tar = Some v ->
  (forall i k j c d, (i < b)%nat -> (k < h)%nat -> (j < w)%nat -> (c < n)%nat -> (d < n)%nat -> val prd [i; c; k; j] = val prd [i; d; k; j]) ->
  v = ln (INR n) * batch_mean b (fun i => counted_area q h w (Some ig) (fun k j => val tar [i; k; j])).
Proof. exact ce_flat. Qed.
(** it is not the mean over the pixels that count: ignored pixels lower it *)
Theorem C53_cross_entropy_mean_refuted : ~ forall q prd tar b n h w ig P v, shp prd = [b; n; h; w] -> shp tar = [b; h; w] -> (1 <= b)%nat -> (1 <= n)%nat -> area_weights q h w ->
  class_probs prd b n h w P -> labelled tar (Some ig) b n h w -> some_counted tar (Some ig) b h w -> cross_entropy_loss q None 0 ig prd tar = Some v ->
  v = batch_mean b (fun i => part q h w (fun k j => when (counts (Some ig) (val tar [i; k; j])) (- ln (P i k j (Z.to_nat (val tar [i; k; j])))))
                             / counted_area q h w (Some ig) (fun k j => val tar [i; k; j])).
Proof.
  intros H. specialize (H q0 prd0 tar0 1%nat 2%nat 2%nat 1%nat (-100)%Z _ _ eq_refl eq_refl ltac:(lia) ltac:(lia) q0_area prd0_probs tar0_labelled tar0_counted ce0).
  unfold batch_mean, part, counted_area, part in H. cbn in H. rewrite ln_Rinv in H by lra. assert (L : 0 < ln 2) by (rewrite <- ln_1; apply ln_increasing; lra).
  replace ((0 + (0 + (0 + / 2 * - - ln 2) + (0 + / 2 * 0))) / 1) with (/ 2 * ln 2) in H by field. field_simplify in H. lra.
Qed.

(** ** Focal loss *)
Theorem C53_focal : forall q prd tar b n h w weight eps ig, shp prd = [b; n; h; w] -> shp tar = [b; h; w] -> shp q = [h; 1%nat] -> (1 <= b)%nat -> (1 <= n)%nat ->
  forall P alpha gamma, class_probs prd b n h w P -> 0 <= eps <= 1 -> labelled tar (Some ig) b n h w -> (forall c, (c < n)%nat -> 0 <= weight_of weight c) -> 0 <= gamma ->
  focal_loss q weight eps ig alpha gamma prd tar = Some (batch_mean b (fun i => part q h w (fun k j =>
    when (counts (Some ig) (val tar [i; k; j])) (let ce := cross_entropy n (weight_of weight) eps (P i k j) (Z.to_nat (val tar [i; k; j])) in alpha * power (1 - exp (- ce)) gamma * ce)))).
Proof. exact focal_value. Qed.
(** without class weights and smoothing the factor is the power of one minus the probability of the true class *)
Theorem C53_focal_factor : forall n x p t, probabilities n x p -> (t < n)%nat -> 1 - exp (- cross_entropy n (weight_of None) 0 p t) = 1 - p t.
Proof.
  intros n x p t H Ht. unfold cross_entropy. cbn [weight_of]. replace (- ((1 - 0) * - (1 * ln (p t)) + 0 * (rsum n (fun c => - (1 * ln (p c))) / INR n))) with (ln (p t)) by ring. rewrite exp_ln; auto. now apply H.
Qed.
(** it lies between zero and alpha times the cross entropy, which it is for gamma = 0, and falls with gamma *)
Theorem C53_focal_between : forall q prd tar b n h w weight, shp prd = [b; n; h; w] -> shp tar = [b; h; w] -> (1 <= b)%nat -> (1 <= n)%nat -> area_weights q h w -> (forall c, (c < n)%nat -> 0 <= weight_of weight c) ->
  forall eps ig alpha gamma v, 0 <= alpha -> 0 <= gamma -> cross_entropy_loss q weight eps ig prd tar = Some v ->
  exists f, focal_loss q weight eps ig alpha gamma prd tar = Some f /\ 0 <= f <= alpha * v /\ (gamma = 0 -> f = alpha * v).
Proof. exact focal_between. Qed.
Theorem C53_focal_decreasing : forall q prd tar b n h w weight, shp prd = [b; n; h; w] -> shp tar = [b; h; w] -> (1 <= b)%nat -> (1 <= n)%nat -> area_weights q h w -> (forall c, (c < n)%nat -> 0 <= weight_of weight c) ->
  forall eps ig alpha gamma gamma' f f', 0 <= alpha -> 0 <= gamma <= gamma' -> 0 <= eps <= 1 -> labelled tar (Some ig) b n h w ->
  focal_loss q weight eps ig alpha gamma prd tar = Some f -> focal_loss q weight eps ig alpha gamma' prd tar = Some f' -> f' <= f.
Proof. exact focal_decreasing. Qed.
(** with class weights the factor is not one minus the probability: the weight enters its exponent *)
Theorem C53_focal_weight_refuted : ~ forall q prd tar b n h w wt ig P alpha gamma, shp prd = [b; n; h; w] -> shp tar = [b; h; w] -> (1 <= b)%nat -> (1 <= n)%nat -> area_weights q h w ->
  class_probs prd b n h w P -> labelled tar (Some ig) b n h w -> (forall c, (c < n)%nat -> 0 < wt c) -> 0 <= gamma ->
  focal_loss q (Some wt) 0 ig alpha gamma prd tar = Some (batch_mean b (fun i => part q h w (fun k j => when (counts (Some ig) (val tar [i; k; j]))
    (let c := Z.to_nat (val tar [i; k; j]) in wt c * alpha * power (1 - P i k j c) gamma * - ln (P i k j c))))).
Proof.
  intros H. specialize (H q0 prd0 tar0 1%nat 2%nat 2%nat 1%nat (fun _ => 2) (-100)%Z _ 1 1 eq_refl eq_refl ltac:(lia) ltac:(lia) q0_area prd0_probs tar0_labelled ltac:(intros; lra) ltac:(lra)).
  rewrite focal0 in H. apply some_inj in H. unfold batch_mean, part in H. cbn [bsum_ val q0 counts tar0 nth negb when Z.eqb Pos.eqb INR] in H. assert (L : 0 < ln 2) by (rewrite <- ln_1; apply ln_increasing; lra).
  unfold power in H. destruct (Req_EM_T 1 0); [lra|]. destruct (Req_EM_T (1 - / 2) 0); [lra|]. rewrite Rpower_1, ln_Rinv in H by lra. lra.
Qed.

(** ** Dice *)
(** scores of the classes, averaged before ("micro") or after ("macro") the division; ignored
    pixels count as labels of class 0 *)
Theorem C53_dice_micro : forall q prd tar b n h w weight smooth ig P, shp prd = [b; n; h; w] -> shp tar = [b; h; w] -> shp q = [h; 1%nat] -> (1 <= b)%nat -> (1 <= n)%nat ->
  class_probs prd b n h w P -> labelled tar ig b n h w ->
  let t i := fun k j => val tar [i; k; j] in
  let total i c := predicted q h w ig (P i) (t i) c + labelled_area q h w ig (t i) c + when (c =? 0)%nat (ignored_part q h w ig (t i)) in
  (forall i, (i < b)%nat -> over_classes n weight (total i) + smooth <> 0) ->
  dice_loss q weight smooth ig DMicro prd tar = Some (1 - batch_mean b (fun i => dice_score smooth (over_classes n weight (overlap q h w ig (P i) (t i))) (over_classes n weight (total i)))).
Proof. exact dice_micro. Qed.
Theorem C53_dice_macro : forall q prd tar b n h w weight smooth ig P, shp prd = [b; n; h; w] -> shp tar = [b; h; w] -> shp q = [h; 1%nat] -> (1 <= b)%nat -> (1 <= n)%nat ->
  class_probs prd b n h w P -> labelled tar ig b n h w ->
  let t i := fun k j => val tar [i; k; j] in
  let total i c := predicted q h w ig (P i) (t i) c + labelled_area q h w ig (t i) c + when (c =? 0)%nat (ignored_part q h w ig (t i)) in
  (forall i c, (i < b)%nat -> (c < n)%nat -> total i c + smooth <> 0) ->
  dice_loss q weight smooth ig DMacro prd tar = Some (1 - batch_mean b (fun i => over_classes n weight (fun c => dice_score smooth (overlap q h w ig (P i) (t i) c) (total i c)))).
Proof. intros. apply (dice_macro q prd tar b n h w weight smooth ig P); auto. discriminate. Qed.
(** any other mode averages like "macro" without weights *)
Theorem C53_dice_other : forall q prd tar b n h w weight smooth ig P, shp prd = [b; n; h; w] -> shp tar = [b; h; w] -> area_weights q h w -> (1 <= b)%nat -> (1 <= n)%nat ->
  class_probs prd b n h w P -> labelled tar ig b n h w -> some_counted tar ig b h w -> 0 <= smooth ->
  dice_loss q weight smooth ig DOther prd tar = dice_loss q None smooth ig DMacro prd tar.
Proof.
  intros q prd tar b n h w weight smooth ig P Sp St A Hb Hn HP HL SC Hs. assert (D : forall i c, (i < b)%nat -> (c < n)%nat -> uni q tar h w ig P i c + smooth <> 0).
  { intros i c Hi Hc. pose proof (macro_den q prd tar b n h w ig P A HP SC smooth i c Hs Hi Hc). lra. }
  rewrite (dice_macro q prd tar b n h w weight smooth ig P Sp St (proj1 A) Hb Hn HP HL DOther), (dice_macro q prd tar b n h w None smooth ig P Sp St (proj1 A) Hb Hn HP HL DMacro); auto; discriminate.
Qed.
(** Dice raises on labels that are neither classes nor ignored *)
Theorem C53_dice_labels : forall q prd tar b n h w weight smooth ig md v, shp prd = [b; n; h; w] -> shp tar = [b; h; w] -> shp q = [h; 1%nat] -> (1 <= n)%nat ->
  dice_loss q weight smooth ig md prd tar = Some v -> labelled tar ig b n h w.
Proof.
  intros q prd tar b n h w weight smooth ig md v Sp St Sq Hn E. destruct (total_labels tar ig b n h w) as [L|N]; auto. exfalso. unfold dice_loss in E. rewrite (seg_shapes_value _ _ _ b n h w) in E by auto. cbn [bindo] in E.
  assert (Hb : (1 <= b)%nat) by (destruct b; [exfalso; apply N; intros i k j Hi; lia|lia]).
  pose proof (hot_bad tar b n h w ig Hb Hn N) as F. unfold guard in E. cbv zeta in F. 
  match type of E with context [one_hot_ok ?s ?m ?f] => change (one_hot_ok s m f) with (one_hot_ok [b; h; w] n (fun i => (val tar [nth 0 i 0%nat; nth 1 i 0%nat; nth 2 i 0%nat] * match ig with None => 1 | Some z => if val tar [nth 0 i 0%nat; nth 1 i 0%nat; nth 2 i 0%nat] =? z then 0 else 1 end)%Z)) in E end.
  rewrite F in E. discriminate.
Qed.
(** with smoothing and class weights not negative the score is defined and in range *)
Theorem C53_dice_range : forall q prd tar b n h w ig P, shp prd = [b; n; h; w] -> shp tar = [b; h; w] -> (1 <= b)%nat -> (1 <= n)%nat -> area_weights q h w ->
  class_probs prd b n h w P -> labelled tar ig b n h w -> some_counted tar ig b h w ->
  forall weight smooth, good_weight n weight -> 0 <= smooth ->
  (exists v, dice_loss q weight smooth ig DMicro prd tar = Some v /\ 0 <= v <= 1) /\
  (exists v, dice_loss q weight smooth ig DMacro prd tar = Some v /\ 1 - match weight with Some wt => rsum n wt | None => 1 end <= v <= 1).
Proof. intros. split. eapply dice_range_micro; eauto. eapply dice_range_macro; eauto. Qed.
(** unweighted "micro" Dice is one minus the mean probability of the true class if no pixel is ignored ... *)
Theorem C53_dice_micro_closed : forall q prd tar b n h w ig P, shp prd = [b; n; h; w] -> shp tar = [b; h; w] -> (1 <= b)%nat -> (1 <= n)%nat -> area_weights q h w ->
  class_probs prd b n h w P -> labelled tar ig b n h w -> some_counted tar ig b h w ->
  forall smooth, 0 <= smooth -> dice_loss q None smooth ig DMicro prd tar = Some (1 - batch_mean b (fun i => let t := fun k j => val tar [i; k; j] in
    dice_score (INR n * smooth) (hit q h w ig (P i) t) (2 * counted_area q h w ig t + ignored_part q h w ig t))).
Proof. exact dice_micro_closed. Qed.
Theorem C53_dice_mean_probability : forall q prd tar b n h w P, shp prd = [b; n; h; w] -> shp tar = [b; h; w] -> (1 <= b)%nat -> (1 <= n)%nat -> area_weights q h w ->
  class_probs prd b n h w P -> labelled tar None b n h w -> dice_loss q None 0 None DMicro prd tar = Some (1 - batch_mean b (fun i => part q h w (fun k j => P i k j (Z.to_nat (val tar [i; k; j]))))).
Proof.
  intros q prd tar b n h w P Sp St Hb Hn A HP HL. destruct (area_nonempty q h w A) as [Hh Hw].
  rewrite (dice_micro_closed q prd tar b n h w None P Sp St Hb Hn A HP HL) by (try lra; intros i Hi; exists 0%nat, 0%nat; auto). f_equal. f_equal. apply batch_ext. intros i Hi.
  assert (E1 : counted_area q h w None (fun k j => val tar [i; k; j]) = 1) by apply (part_one q h w A). assert (E2 : ignored_part q h w None (fun k j => val tar [i; k; j]) = 0) by apply part_zero.
  rewrite E1, E2. unfold dice_score, hit. cbn [counts when]. field.
Qed.
(** ... but ignored pixels are a cost that no prediction avoids *)
Theorem C53_dice_floor : forall q prd tar b n h w ig P, shp prd = [b; n; h; w] -> shp tar = [b; h; w] -> (1 <= b)%nat -> (1 <= n)%nat -> area_weights q h w ->
  class_probs prd b n h w P -> labelled tar ig b n h w -> some_counted tar ig b h w ->
  forall v, dice_loss q None 0 ig DMicro prd tar = Some v ->
  batch_mean b (fun i => let t := fun k j => val tar [i; k; j] in ignored_part q h w ig t / (2 * counted_area q h w ig t + ignored_part q h w ig t)) <= v.
Proof. exact dice_floor. Qed.
Theorem C53_dice_ignored_refuted : ~ forall q prd tar b n h w ig P, shp prd = [b; n; h; w] -> shp tar = [b; h; w] -> (1 <= b)%nat -> (1 <= n)%nat -> area_weights q h w ->
  class_probs prd b n h w P -> labelled tar ig b n h w -> some_counted tar ig b h w ->
  dice_loss q None 0 ig DMicro prd tar = Some (1 - batch_mean b (fun i => let t := fun k j => val tar [i; k; j] in hit q h w ig (P i) t / counted_area q h w ig t)).
Proof.
  intros H. specialize (H q0 prd0 tar0 1%nat 2%nat 2%nat 1%nat (Some (-100)%Z) _ eq_refl eq_refl ltac:(lia) ltac:(lia) q0_area prd0_probs tar0_labelled tar0_counted).
  rewrite dice0 in H. apply some_inj in H. unfold batch_mean, hit, counted_area, part in H. cbn in H. field_simplify in H. lra.
Qed.
(** a class that does not occur costs 1/n in "macro" mode whatever is predicted *)
Theorem C53_dice_macro_absent : forall q prd tar b n h w ig P, shp prd = [b; n; h; w] -> shp tar = [b; h; w] -> (1 <= b)%nat -> (1 <= n)%nat -> area_weights q h w ->
  class_probs prd b n h w P -> labelled tar ig b n h w -> some_counted tar ig b h w ->
  forall c v, (c < n)%nat -> (forall i k j, (i < b)%nat -> (k < h)%nat -> (j < w)%nat -> val tar [i; k; j] <> Z.of_nat c) ->
  dice_loss q None 0 ig DMacro prd tar = Some v -> / INR n <= v.
Proof. exact dice_absent. Qed.

(** ** All three *)
(** adding one number to all logits of a pixel, or changing the logits of ignored pixels, changes nothing *)
Theorem C53_depends : forall q prd prd' tar b n h w weight, shp prd = [b; n; h; w] -> shp prd' = [b; n; h; w] -> shp tar = [b; h; w] -> (1 <= b)%nat -> (1 <= n)%nat -> area_weights q h w ->
  (forall eps ig, same_logits (Some ig) tar b n h w prd prd' -> cross_entropy_loss q weight eps ig prd tar = cross_entropy_loss q weight eps ig prd' tar) /\
  (forall eps ig alpha gamma, same_logits (Some ig) tar b n h w prd prd' -> 0 <= gamma -> 0 <= eps <= 1 -> labelled tar (Some ig) b n h w -> (forall c, (c < n)%nat -> 0 <= weight_of weight c) ->
    focal_loss q weight eps ig alpha gamma prd tar = focal_loss q weight eps ig alpha gamma prd' tar) /\
  (forall ig smooth md, same_logits ig tar b n h w prd prd' -> 0 <= smooth -> labelled tar ig b n h w -> some_counted tar ig b h w -> good_weight n weight ->
    dice_loss q weight smooth ig md prd tar = dice_loss q weight smooth ig md prd' tar).
Proof. intros. repeat split; intros. eapply ce_depends; eauto. eapply focal_depends; eauto. eapply dice_depends; eauto. Qed.
(** rolling prediction and target along the longitude changes nothing *)
Theorem C53_longitude : forall q prd tar b n h w sh weight, shp prd = [b; n; h; w] -> shp tar = [b; h; w] -> (1 <= b)%nat -> (1 <= n)%nat -> area_weights q h w ->
  (forall eps ig, cross_entropy_loss q weight eps ig (roll_last sh prd) (roll_last sh tar) = cross_entropy_loss q weight eps ig prd tar) /\
  (forall eps ig alpha gamma, 0 <= gamma -> 0 <= eps <= 1 -> labelled tar (Some ig) b n h w -> (forall c, (c < n)%nat -> 0 <= weight_of weight c) ->
    focal_loss q weight eps ig alpha gamma (roll_last sh prd) (roll_last sh tar) = focal_loss q weight eps ig alpha gamma prd tar) /\
  (forall ig smooth md, 0 <= smooth -> labelled tar ig b n h w -> some_counted tar ig b h w -> good_weight n weight ->
    dice_loss q weight smooth ig md (roll_last sh prd) (roll_last sh tar) = dice_loss q weight smooth ig md prd tar).
Proof. intros. repeat split; intros. eapply ce_roll; eauto. eapply focal_roll; eauto. eapply dice_roll; eauto. Qed.

(** a case that meets all hypotheses, with a pixel that is ignored *)
Example C53_ex : area_weights q0 2 1 /\ class_probs prd0 1 2 2 1 (fun _ _ _ _ => / 2) /\ labelled tar0 (Some (-100)%Z) 1 2 2 1 /\ some_counted tar0 (Some (-100)%Z) 1 2 1 /\
  cross_entropy_loss q0 None 0 (-100) prd0 tar0 = Some (/ 2 * ln 2) /\ dice_loss q0 None 0 (Some (-100)%Z) DMicro prd0 tar0 = Some (2 / 3) /\ focal_loss q0 (Some (fun _ => 2)) 0 (-100) 1 1 prd0 tar0 = Some (3 / 4 * ln 2).
Proof. exact (conj q0_area (conj prd0_probs (conj tar0_labelled (conj tar0_counted (conj ce0 (conj dice0 focal0)))))). Qed.
Example C53_ex_weights : forall gl, exists lat q, precompute_latitudes gl 4 GEquiangular = Some lat /\ loss_weights gl 4 6 GEquiangular true = Some q /\ area_weights q 4 6.
Proof.
  intros gl. destruct (QuadProofs.cc_model 4 (-1) 1 ltac:(lia)) as (r & E & _). assert (L : exists lat, precompute_latitudes gl 4 GEquiangular = Some lat). { unfold precompute_latitudes. rewrite QuadPropProofs.quad_rule_lat. cbn [quadrature_s2_rule]. rewrite E. eauto. }
  destruct L as (lat & L). destruct (weights_area gl 4 6 GEquiangular lat L ltac:(lia) ltac:(lia) ltac:(discriminate) ltac:(discriminate)) as (q & Q). exists lat, q. auto.
Qed.
Print Assumptions C53_cross_entropy_defined.
Print Assumptions C53_dice_range.
Print Assumptions C53_longitude.

Print Assumptions C53_weights.
Print Assumptions C53_cross_entropy.
Print Assumptions C53_cross_entropy_nonnegative.
Print Assumptions C53_cross_entropy_zero.
Print Assumptions C53_cross_entropy_uniform.
Print Assumptions C53_cross_entropy_mean_refuted.
Print Assumptions C53_focal.
Print Assumptions C53_focal_factor.
Print Assumptions C53_focal_between.
Print Assumptions C53_focal_decreasing.
Print Assumptions C53_focal_weight_refuted.
Print Assumptions C53_dice_micro.
Print Assumptions C53_dice_macro.
Print Assumptions C53_dice_other.
Print Assumptions C53_dice_labels.
Print Assumptions C53_dice_micro_closed.
Print Assumptions C53_dice_mean_probability.
Print Assumptions C53_dice_floor.
Print Assumptions C53_dice_ignored_refuted.
Print Assumptions C53_dice_macro_absent.
Print Assumptions C53_depends.
