(** C49: segmentation metrics on the sphere. *)
From Coq Require Import List Arith Lia Bool Reals ZArith Lra.
From Verif Require Import TensorModel BigSum TruncModel QuadModel LossModel LossProofs MetricModel MetricSpec MetricProofs MetricProofs2 MetricProofs3.
Import ListNotations.
Local Open Scope R_scope.

(** The predicted class is the first one with the largest score: softmax changes nothing. *)
Theorem C49_predicted_class : forall x b n h w, shp x = [b; n; h; w] -> (1 <= n)%nat ->
  exists o, predict_classes x = Some o /\ shp o = [b; h; w] /\
  forall i k j, exists p, val o [i; k; j] = Z.of_nat p /\ best_class n (fun c => val x [i; c; k; j]) p.
Proof. exact predict_value. Qed.
Print Assumptions C49_predicted_class.

(** What the four counts are: the areas of the pixels labelled and predicted c, only predicted
    c, only labelled c; and, as true negatives, the area of the pixels that are neither plus
    the area of all ignored pixels. *)
Theorem C49_counts : forall o t q ig b h w, shp o = [b; h; w] -> shp t = [b; h; w] -> shp q = [h; w] ->
  exists s, get_stats_multiclass o t q ig = Some s /\
  forall i c, tp s i c = both h w q ig (slab o i) (slab t i) (Z.of_nat c) /\ fp s i c = only_pred h w q ig (slab o i) (slab t i) (Z.of_nat c) /\
    fn s i c = only_true h w q ig (slab o i) (slab t i) (Z.of_nat c) /\
    tn s i c = neither h w q ig (slab o i) (slab t i) (Z.of_nat c) + ignored h w q ig (slab t i).
Proof. exact stats_value. Qed.
Print Assumptions C49_counts.

(** For every sample and class they add up to the total weight. *)
Theorem C49_partition : forall o t q ig b h w, shp o = [b; h; w] -> shp t = [b; h; w] -> shp q = [h; w] ->
  exists s, get_stats_multiclass o t q ig = Some s /\ forall i c, tp s i c + fp s i c + fn s i c + tn s i c = whole h w q.
Proof.
  intros o t q ig b h w So St Sq. destruct (stats_value o t q ig b h w So St Sq) as (s & E & V). exists s. split; auto. intros i c.
  destruct (V i c) as (-> & -> & -> & ->). apply four_areas.
Qed.
Print Assumptions C49_partition.

(** The weights the constructor stores are positive and total one. *)
Theorem C49_weights : forall gl nlat nlon g lat, precompute_latitudes gl nlat g = Some lat -> (2 <= nlat)%nat -> (1 <= nlon)%nat -> g <> GLobatto ->
  (g = GLegendreGauss -> forall i, (i < nlat)%nat -> 0 < rw (gl nlat) i) ->
  exists q, metric_weights gl nlat nlon g = Some q /\ shp q = [nlat; nlon] /\ whole nlat nlon q = 1 /\ forall k j, (k < nlat)%nat -> (j < nlon)%nat -> 0 < val q [k; j].
Proof. exact metric_weights_value. Qed.
Print Assumptions C49_weights.

(** With non-negative weights both scores always come out, in [0, 1] (macro with class
    weights: up to their sum), or, for micro averages, as nan. *)
Theorem C49_iou_range : forall pred q truth ig b n h w, shp pred = [b; n; h; w] -> shp truth = [b; h; w] -> shp q = [h; w] -> (1 <= b)%nat -> (1 <= n)%nat ->
  (forall k j, (k < h)%nat -> (j < w)%nat -> 0 <= val q [k; j]) -> forall wt md, (forall v, wt = Some v -> forall c, (c < n)%nat -> 0 <= v c) ->
  exists x, iou_s2 q wt ig md pred truth = Some x /\ in_range n md wt x.
Proof. intros pred q truth ig b n h w Sp St Sq Hb Hn HQ wt md Hw. destruct (predicts_exists pred b n h w Hn) as [o Ho]. eapply iou_range; eauto. Qed.
Print Assumptions C49_iou_range.
Theorem C49_accuracy_range : forall pred q truth ig b n h w, shp pred = [b; n; h; w] -> shp truth = [b; h; w] -> shp q = [h; w] -> (1 <= b)%nat -> (1 <= n)%nat ->
  (forall k j, (k < h)%nat -> (j < w)%nat -> 0 <= val q [k; j]) -> forall wt md, (forall v, wt = Some v -> forall c, (c < n)%nat -> 0 <= v c) ->
  exists x, accuracy_s2 q wt ig md pred truth = Some x /\ in_range n md wt x.
Proof. intros pred q truth ig b n h w Sp St Sq Hb Hn HQ wt md Hw. destruct (predicts_exists pred b n h w Hn) as [o Ho]. eapply acc_range; eauto. Qed.
Print Assumptions C49_accuracy_range.

(** Micro IoU in terms of the correctly and wrongly classified areas A and E: A/(A + 2E). *)
Theorem C49_micro_iou : forall pred q truth ig b n h w o, shp pred = [b; n; h; w] -> shp truth = [b; h; w] -> shp q = [h; w] -> (1 <= b)%nat -> (1 <= n)%nat ->
  predicts pred b n h w o -> labelled truth ig b n h w -> (forall k j, (k < h)%nat -> (j < w)%nat -> 0 <= val q [k; j]) ->
  let A := correct_area q ig truth o b h w in let E := wrong_area q ig truth o b h w in
  (A + E <> 0 -> iou_s2 q None ig Micro pred truth = Some (Num (A / (A + 2 * E)))) /\ (A + E = 0 -> iou_s2 q None ig Micro pred truth = Some NaN).
Proof.
  intros pred q truth ig b n h w o Sp St Sq Hb Hn Ho HL HQ A E. destruct (areas_nonneg q truth ig b h w o HQ) as (PA & PE & _). fold A in PA. fold E in PE.
  split; intros H; rewrite (iou_micro pred q truth ig b n h w o); auto; f_equal; fold A E.
  - apply fdiv_num. lra.
  - replace (A + 2 * E) with 0 by lra. replace A with 0 by lra. apply fdiv_nan.
Qed.
Print Assumptions C49_micro_iou.
(** It is 1 exactly for predictions whose wrongly classified area is zero. *)
Theorem C49_micro_iou_one : forall pred q truth ig b n h w o, shp pred = [b; n; h; w] -> shp truth = [b; h; w] -> shp q = [h; w] -> (1 <= b)%nat -> (1 <= n)%nat ->
  predicts pred b n h w o -> labelled truth ig b n h w -> (forall k j, (k < h)%nat -> (j < w)%nat -> 0 <= val q [k; j]) ->
  (iou_s2 q None ig Micro pred truth = Some (Num 1) <-> correct_area q ig truth o b h w <> 0 /\ wrong_area q ig truth o b h w = 0).
Proof.
  intros pred q truth ig b n h w o Sp St Sq Hb Hn Ho HL HQ. destruct (C49_micro_iou pred q truth ig b n h w o Sp St Sq Hb Hn Ho HL HQ) as [F G].
  destruct (areas_nonneg q truth ig b h w o HQ) as (PA & PE & _). set (A := correct_area q ig truth o b h w) in *. set (E := wrong_area q ig truth o b h w) in *.
  split.
  - intros H. destruct (Req_dec (A + E) 0) as [Z|Z]. rewrite (G Z) in H. discriminate. rewrite (F Z) in H. injection H as H.
    assert (A = A + 2 * E). { replace A with (A / (A + 2 * E) * (A + 2 * E)) at 1 by (field; lra). rewrite H. ring. } split; lra.
  - intros [NA ZE]. rewrite F by lra. do 2 f_equal. rewrite ZE. field. lra.
Qed.
Print Assumptions C49_micro_iou_one.

(** IoU depends on the pixels that count only: two inputs that agree there, whatever the
    scores, labels or weights of the ignored pixels, have the same score, in all modes. *)
Theorem C49_iou_ignored : forall pred pred' q q' truth truth' ig b n h w,
  shp pred = [b; n; h; w] -> shp truth = [b; h; w] -> shp q = [h; w] -> shp pred' = [b; n; h; w] -> shp truth' = [b; h; w] -> shp q' = [h; w] -> (1 <= b)%nat -> (1 <= n)%nat ->
  agree ig b n h w pred pred' truth truth' -> agree_weights ig b h w truth q q' ->
  forall wt md, iou_s2 q wt ig md pred truth = iou_s2 q' wt ig md pred' truth'.
Proof. exact iou_ignored. Qed.
Print Assumptions C49_iou_ignored.
(** The accuracy does not see the scores at ignored pixels either ... *)
Theorem C49_accuracy_ignored : forall pred pred' q q' truth truth' ig b n h w,
  shp pred = [b; n; h; w] -> shp truth = [b; h; w] -> shp q = [h; w] -> shp pred' = [b; n; h; w] -> shp truth' = [b; h; w] -> shp q' = [h; w] -> (1 <= b)%nat -> (1 <= n)%nat ->
  agree ig b n h w pred pred' truth truth' -> agree_weights ig b h w truth q q' -> whole h w q = whole h w q' ->
  forall wt md, accuracy_s2 q wt ig md pred truth = accuracy_s2 q' wt ig md pred' truth'.
Proof. exact acc_ignored. Qed.
Print Assumptions C49_accuracy_ignored.
(** ... but it does count their area, as classified correctly: giving an ignored pixel more
    weight changes the accuracy. *)
Theorem C49_accuracy_ignored_area_refuted : ~ forall pred q q' truth ig b n h w, shp pred = [b; n; h; w] -> shp truth = [b; h; w] -> shp q = [h; w] -> shp q' = [h; w] -> (1 <= b)%nat -> (1 <= n)%nat ->
  agree_weights ig b h w truth q q' -> accuracy_s2 q None ig Micro pred truth = accuracy_s2 q' None ig Micro pred truth.
Proof.
  intros H. destruct accuracy_area as [A B].
  specialize (H (ex_pred 2 (fun _ => 1%nat)) (ex_q 1) (ex_q 2) (ex_truth (fun j => if (j =? 0)%nat then 0 else 9)%Z) (Some 9%Z) 1%nat 2%nat 1%nat 2%nat eq_refl eq_refl eq_refl eq_refl ltac:(lia) ltac:(lia)).
  rewrite A, B in H. assert (Q : Some (Num (1 / 2)) = Some (Num (2 / 3))). { apply H. intros i k j Hi Hk Hj. destruct j as [|[|]]; try lia. replace k with 0%nat by lia. reflexivity. cbn. discriminate. }
  injection Q as Q. lra.
Qed.
Print Assumptions C49_accuracy_ignored_area_refuted.

(** Accuracy without class weights, in both modes: 1 - 2E/(n T), for n classes and total
    weight T per sample, ignored pixels included; each error counts twice, and is divided by
    the number of classes. *)
Theorem C49_accuracy_value : forall pred q truth ig b n h w o, shp pred = [b; n; h; w] -> shp truth = [b; h; w] -> shp q = [h; w] -> (1 <= b)%nat -> (1 <= n)%nat ->
  predicts pred b n h w o -> labelled truth ig b n h w -> whole h w q <> 0 ->
  forall md, accuracy_s2 q None ig md pred truth = Some (Num (1 - 2 * wrong_area q ig truth o b h w / (INR b * INR n * whole h w q))).
Proof. intros pred q truth ig b n h w o Sp St Sq Hb Hn Ho HL HW []. now apply acc_micro. now apply acc_macro. Qed.
Print Assumptions C49_accuracy_value.
(** With errors and ignored pixels it exceeds what it would be over the counted pixels. *)
Theorem C49_accuracy_inflated : forall pred q truth ig b n h w o, shp pred = [b; n; h; w] -> shp truth = [b; h; w] -> shp q = [h; w] -> (1 <= b)%nat -> (1 <= n)%nat ->
  predicts pred b n h w o -> labelled truth ig b n h w -> (forall k j, (k < h)%nat -> (j < w)%nat -> 0 <= val q [k; j]) ->
  0 < wrong_area q ig truth o b h w -> 0 < ignored_area q ig truth b h w ->
  forall md, exists r, accuracy_s2 q None ig md pred truth = Some (Num r) /\
    1 - 2 * wrong_area q ig truth o b h w / (INR n * (correct_area q ig truth o b h w + wrong_area q ig truth o b h w)) < r.
Proof.
  intros pred q truth ig b n h w o Sp St Sq Hb Hn Ho HL HQ HE HI md. destruct (areas_nonneg q truth ig b h w o HQ) as (PA & PE & PI). assert (Tt := areas_total q truth ig b h w o).
  assert (PB := CCProofs.INR_pos b Hb). assert (PN := CCProofs.INR_pos n Hn). set (A := correct_area q ig truth o b h w) in *. set (E := wrong_area q ig truth o b h w) in *. set (I := ignored_area q ig truth b h w) in *.
  assert (W : whole h w q <> 0). { intros Z. rewrite Z in Tt. lra. }
  eexists. split. rewrite (C49_accuracy_value pred q truth ig b n h w o) by auto. reflexivity. fold E.
  assert (Q : INR b * INR n * whole h w q = INR n * (A + E + I)) by (rewrite Tt; ring). rewrite Q.
  assert (X : 2 * E / (INR n * (A + E + I)) < 2 * E / (INR n * (A + E))); [|lra].
  apply Rmult_lt_compat_l. lra. apply Rinv_lt_contravar. apply Rmult_lt_0_compat; apply Rmult_lt_0_compat; lra. apply Rmult_lt_compat_l; lra.
Qed.
Print Assumptions C49_accuracy_inflated.
(** So it is not the fraction of the area classified correctly: with three classes an
    everywhere wrong prediction scores 1/3. *)
Theorem C49_accuracy_fraction_refuted : ~ forall pred q truth b n h w o, shp pred = [b; n; h; w] -> shp truth = [b; h; w] -> shp q = [h; w] -> (1 <= b)%nat -> (1 <= n)%nat ->
  predicts pred b n h w o -> labelled truth None b n h w -> whole h w q <> 0 ->
  accuracy_s2 q None None Micro pred truth = Some (Num (correct_area q None truth o b h w / (INR b * whole h w q))).
Proof.
  intros H. specialize (H (ex_pred 3 (fun _ => 1%nat)) (ex_q 1) (ex_truth (fun _ => 0%Z)) 1%nat 3%nat 1%nat 2%nat (fun _ _ _ => 1%nat) eq_refl eq_refl eq_refl ltac:(lia) ltac:(lia)).
  rewrite (all_wrong 3) in H by lia. assert (Q := H (ex_predicts 3 (fun _ => 1%nat) ltac:(intros; cbv beta; lia)) ltac:(apply (ex_labelled 3 None (fun _ => 0%Z)); intros; cbv beta; lia) ltac:(rewrite ex_whole; lra)).
  injection Q as Q. rewrite ex_whole in Q. unfold correct_area, correct, area_of, ex_truth, ex_q in Q. cbn [BigSum.bsum_ val nth Nat.eqb counts Z.eqb Z.of_nat Pos.of_succ_nat andb INR] in Q. lra.
Qed.
Print Assumptions C49_accuracy_fraction_refuted.

(** Macro IoU of a perfect prediction: the share of the classes that occur with weight. *)
Theorem C49_macro_perfect : forall pred q truth ig b n h w o, shp pred = [b; n; h; w] -> shp truth = [b; h; w] -> shp q = [h; w] -> (1 <= b)%nat -> (1 <= n)%nat ->
  predicts pred b n h w o ->
  (forall i k j, (i < b)%nat -> (k < h)%nat -> (j < w)%nat -> counts ig (val truth [i; k; j]) = true -> val truth [i; k; j] = Z.of_nat (o i k j)) ->
  iou_s2 q None ig Macro pred truth = Some (Num (rsum n (fun c =>
    if Req_EM_T (rsum b (fun i => both h w q ig (fun k j => Z.of_nat (o i k j)) (fun k j => val truth [i; k; j]) (Z.of_nat c))) 0 then 0 else 1) / INR n)).
Proof. exact macro_perfect. Qed.
Print Assumptions C49_macro_perfect.
(** A class that does not occur scores 0, so a perfect prediction need not score 1. *)
Theorem C49_macro_perfect_refuted : ~ forall pred q truth ig b n h w o, shp pred = [b; n; h; w] -> shp truth = [b; h; w] -> shp q = [h; w] -> (1 <= b)%nat -> (1 <= n)%nat ->
  predicts pred b n h w o -> (forall i k j, (i < b)%nat -> (k < h)%nat -> (j < w)%nat -> val truth [i; k; j] = Z.of_nat (o i k j)) ->
  iou_s2 q None ig Macro pred truth = Some (Num 1).
Proof.
  intros H. specialize (H (ex_pred 2 (fun _ => 0%nat)) (ex_q 1) (ex_truth (fun _ => 0%Z)) None 1%nat 2%nat 1%nat 2%nat (fun _ _ _ => 0%nat) eq_refl eq_refl eq_refl ltac:(lia) ltac:(lia)).
  rewrite absent_class in H. assert (Q := H (ex_predicts 2 (fun _ => 0%nat) ltac:(intros; cbv beta; lia)) ltac:(reflexivity)). injection Q as Q. lra.
Qed.
Print Assumptions C49_macro_perfect_refuted.

(** Non-vacuity: two pixels, two classes, a wrong pixel and an ignored one of double weight. *)
Example C49_ex : predicts (ex_pred 2 (fun _ => 1%nat)) 1 2 1 2 (fun _ _ _ => 1%nat) /\
  accuracy_s2 (ex_q 2) None (Some 9%Z) Micro (ex_pred 2 (fun _ => 1%nat)) (ex_truth (fun j => if (j =? 0)%nat then 0 else 9)%Z) = Some (Num (2 / 3)).
Proof. split. apply (ex_predicts 2 (fun _ => 1%nat)). intros; cbv beta; lia. apply accuracy_area. Qed.
