From Coq Require Import List Arith Lia Bool Reals ZArith Lra.
From Verif Require Import TensorModel TensorProofs BigSum TruncModel QuadModel CCProofs QuadProofs QuadPropProofs LossModel LossSpec LossProofs MetricModel MetricSpec MetricProofs SegLossModel SegLossSpec SegLossProofs SegLossProofs2.
Import ListNotations.
Local Open Scope R_scope.

Lemma some_inj : forall (A : Type) (a b : A), Some a = Some b -> a = b. Proof. congruence. Qed.
Lemma weights_area : forall gl nlat nlon g lat, precompute_latitudes gl nlat g = Some lat -> (2 <= nlat)%nat -> (1 <= nlon)%nat -> g <> GLobatto ->
  (g = GLegendreGauss -> forall i, (i < nlat)%nat -> 0 < rw (gl nlat) i) -> exists q, loss_weights gl nlat nlon g true = Some q /\ area_weights q nlat nlon.
Proof.
  intros gl nlat nlon g lat El H2 Hn NL HG. pose proof (lat_weights_positive gl nlat g lat El H2 NL HG) as P.
  assert (T : 0 < rsum nlat (rw lat)). { destruct (rsum_nonneg nlat (rw lat)) as [G|G]; auto. intros; now apply Rlt_le, P. exfalso. pose proof (rsum_zero_iff nlat (rw lat) ltac:(intros; now apply Rlt_le, P) (eq_sym G) 0%nat ltac:(lia)). pose proof (P 0%nat ltac:(lia)). lra. }
  assert (PN := INR_pos nlon Hn). destruct (weights_value gl nlat nlon g lat El Hn false true ltac:(intros _; lra)) as (q & E & S & V). exists q. split; auto. split; [exact S|]. split.
  - intros k Hk. rewrite V. unfold area. apply Rdiv_lt_0_compat. now apply P. now apply Rmult_lt_0_compat.
  - rewrite <- (area_total nlat nlon lat Hn ltac:(lra)). apply bsum_ext. intros k Hk. apply bsum_ext. intros j Hj. apply V.
Qed.

(** conditions under which Dice has no zero denominator *)
Definition some_counted (tar : tensor Z) (ig : option Z) (b h w : nat) : Prop := forall i, (i < b)%nat -> exists k j, (k < h)%nat /\ (j < w)%nat /\ counts ig (val tar [i; k; j]) = true.
Definition good_weight (n : nat) (weight : option (nat -> R)) : Prop := (forall c, (c < n)%nat -> 0 <= weight_of weight c) /\ exists c, (c < n)%nat /\ 0 < weight_of weight c.

Lemma total_labels : forall (tar : tensor Z) ig b n h w, labelled tar ig b n h w \/ ~ labelled tar ig b n h w.
Proof. intros. apply Classical_Prop.classic. Qed.
Lemma softmax_class : forall prd b n h w, (1 <= n)%nat -> class_probs prd b n h w (fun i k j => softmax n (fun c => val prd [i; c; k; j])).
Proof. intros prd b n h w Hn i k j Hi Hk Hj. now apply softmax_probs. Qed.
Lemma ln_neg : forall x, 0 < x < 1 -> ln x < 0. Proof. intros. rewrite <- ln_1. apply ln_increasing; lra. Qed.
Lemma ln_nonpos : forall x, 0 < x <= 1 -> ln x <= 0. Proof. intros x [H [H'|H']]. left. now apply ln_neg. rewrite H', ln_1. lra. Qed.
Lemma ce_pos : forall n x p t, probabilities n x p -> (2 <= n)%nat -> (t < n)%nat -> forall eps, 0 <= eps <= 1 -> 0 < cross_entropy n (fun _ => 1) eps p t.
Proof.
  intros n x p t Hp Hn Ht eps He. assert (G : forall c, (c < n)%nat -> 0 < - (1 * ln (p c))). { intros c Hc. pose proof (ln_neg (p c)). pose proof (probs_lt1 n x p Hp Hn c Hc). pose proof (proj1 (probs_le1 n x p Hp c Hc)). lra. }
  assert (G' : forall c, (c < n)%nat -> 0 <= - (1 * ln (p c))) by (intros c Hc; apply Rlt_le; auto).
  assert (S : 0 < rsum n (fun c => - (1 * ln (p c))) / INR n). { apply Rdiv_lt_0_compat; [|apply INR_pos; lia]. destruct (rsum_nonneg n (fun c => - (1 * ln (p c)))) as [Q|Q]; auto. exfalso. pose proof (rsum_zero_iff n _ G' (eq_sym Q) t Ht) as Z. pose proof (G t Ht). cbv beta in Z. lra. }
  pose proof (G t Ht). unfold cross_entropy. destruct (Req_dec eps 1) as [->|]. lra. assert (0 < (1 - eps) * - (1 * ln (p t))) by (apply Rmult_lt_0_compat; lra). assert (0 <= eps * (rsum n (fun c => - (1 * ln (p c))) / INR n)) by (apply Rmult_le_pos; lra). lra.
Qed.
Lemma ce_uniform : forall n p t eps, (1 <= n)%nat -> (forall c, (c < n)%nat -> p c = / INR n) -> (t < n)%nat -> cross_entropy n (fun _ => 1) eps p t = ln (INR n).
Proof.
  intros n p t eps Hn H Ht. pose proof (INR_pos n Hn). unfold cross_entropy. rewrite (bsum_ext n _ (fun _ => ln (INR n))). rewrite rsum_const, H, ln_Rinv by auto. field. lra. intros c Hc. rewrite H, ln_Rinv by auto. ring.
Qed.
Lemma probs_uniform : forall n x p, probabilities n x p -> (forall c d, (c < n)%nat -> (d < n)%nat -> x c = x d) -> forall c, (c < n)%nat -> p c = / INR n.
Proof.
  intros n x p (P & T & R) H c Hc. assert (E : forall d, (d < n)%nat -> p d = p c). { intros d Hd. pose proof (R d c Hd Hc) as Q. rewrite (H c d Hc Hd) in Q. apply Rmult_eq_reg_r with (exp (x d)); auto. pose proof (exp_pos (x d)). lra. }
  rewrite (bsum_ext n p (fun _ => p c)) in T by auto. rewrite rsum_const in T. pose proof (INR_pos n ltac:(lia)). apply Rmult_eq_reg_l with (INR n); [|lra]. rewrite T. field. lra.
Qed.
Lemma ce_ext : forall n wt eps p p' t, (forall c, (c < n)%nat -> p c = p' c) -> (t < n)%nat -> cross_entropy n wt eps p t = cross_entropy n wt eps p' t.
Proof. intros n wt eps p p' t H Ht. unfold cross_entropy. rewrite (H t Ht). f_equal. f_equal. f_equal. apply bsum_ext. intros c Hc. now rewrite H. Qed.
Lemma focal_factor : forall ce g, 0 <= ce -> 0 <= g -> 0 <= power (1 - exp (- ce)) g <= 1.
Proof.
  intros ce g Hc Hg. apply power_range; auto. pose proof (exp_pos (- ce)). assert (exp (- ce) <= 1). { rewrite <- exp_0. destruct Hc as [Hc|Hc]. left. apply exp_increasing. lra. rewrite <- Hc. right. f_equal. ring. } lra.
Qed.

Lemma part_one : forall q h w, area_weights q h w -> part q h w (fun _ _ => 1) = 1.
Proof. intros q h w A. destruct A as (_ & _ & T). etransitivity; [|exact T]. unfold part. apply bsum_ext. intros. apply bsum_ext. intros. ring. Qed.
Lemma area_nonempty : forall q h w, area_weights q h w -> (1 <= h)%nat /\ (1 <= w)%nat.
Proof.
  intros q h w A. destruct A as (_ & _ & T). split. destruct h; [cbn in T; lra|lia]. destruct w; [|lia]. cbn [bsum_] in T. rewrite (bsum_zero RT) in T. lra.
Qed.
Section All.
Variables (q prd : tensor R) (tar : tensor Z) (b n h w : nat) (weight : option (nat -> R)).
Hypotheses (Sp : shp prd = [b; n; h; w]) (St : shp tar = [b; h; w]) (Hb : (1 <= b)%nat) (Hn : (1 <= n)%nat) (A : area_weights q h w).
Let Sq : shp q = [h; 1%nat]. Proof. apply A. Qed.
Let Hq : forall k, (k < h)%nat -> 0 < val q [k; 0]%nat. Proof. apply A. Qed.
Let Hq0 : forall k, (k < h)%nat -> 0 <= val q [k; 0]%nat. Proof. intros. now apply Rlt_le, Hq. Qed.
Lemma ce_iff : forall eps ig, (exists v, cross_entropy_loss q weight eps ig prd tar = Some v) <-> 0 <= eps <= 1 /\ labelled tar (Some ig) b n h w.
Proof.
  intros eps ig. split. { intros E. destruct (area_nonempty q h w A). eapply ce_decided; eauto. } intros [He HL]. eexists. eapply ce_value; eauto. now apply softmax_class.
Qed.
Lemma ce_sign : forall eps ig v, cross_entropy_loss q weight eps ig prd tar = Some v -> (forall c, (c < n)%nat -> 0 <= weight_of weight c) -> 0 <= v.
Proof.
  intros eps ig v E HW. destruct (proj1 (ce_iff eps ig) (ex_intro _ v E)) as [He HL]. rewrite (ce_value q prd tar b n h w weight eps ig Sp St Sq Hb Hn _ (softmax_class prd b n h w Hn) He HL) in E. apply some_inj in E; subst v.
  rewrite <- (batch_const b 0 Hb). apply batch_le; auto. intros i Hi. apply part_nonneg; auto. intros k j Hk Hj. unfold when. cbv beta. destruct (counts (Some ig) (val tar [i; k; j])) eqn:C; [|lra]. eapply ce_nonneg; eauto. now apply softmax_probs. pose proof (HL i k j Hi Hk Hj C). lia.
Qed.
End All.
Section Unweighted.
Variables (q prd : tensor R) (tar : tensor Z) (b n h w : nat).
Hypotheses (Sp : shp prd = [b; n; h; w]) (St : shp tar = [b; h; w]) (Hb : (1 <= b)%nat) (Hn : (1 <= n)%nat) (A : area_weights q h w).
Let Sq : shp q = [h; 1%nat]. Proof. apply A. Qed.
Let Hq : forall k, (k < h)%nat -> 0 < val q [k; 0]%nat. Proof. apply A. Qed.
Lemma ce_zero : forall eps ig v, (2 <= n)%nat -> cross_entropy_loss q None eps ig prd tar = Some v -> (v = 0 <-> forall i k j, (i < b)%nat -> (k < h)%nat -> (j < w)%nat -> val tar [i; k; j] = ig).
Proof.
  intros eps ig v H2 E. destruct (proj1 (ce_iff q prd tar b n h w None Sp St Hb Hn A eps ig) (ex_intro _ v E)) as [He HL]. rewrite (ce_value q prd tar b n h w None eps ig Sp St Sq Hb Hn _ (softmax_class prd b n h w Hn) He HL) in E. apply some_inj in E.
  assert (PX : forall i k j, (i < b)%nat -> (k < h)%nat -> (j < w)%nat -> counts (Some ig) (val tar [i; k; j]) = true -> 0 < cross_entropy n (weight_of None) eps (softmax n (fun c => val prd [i; c; k; j])) (Z.to_nat (val tar [i; k; j]))).
  { intros i k j Hi Hk Hj C. pose proof (HL i k j Hi Hk Hj C). apply (ce_pos n (fun c => val prd [i; c; k; j])); auto; [now apply softmax_probs|lia]. }
  assert (NN : forall i k j, (i < b)%nat -> (k < h)%nat -> (j < w)%nat -> 0 <= when (counts (Some ig) (val tar [i; k; j])) (cross_entropy n (weight_of None) eps (softmax n (fun c => val prd [i; c; k; j])) (Z.to_nat (val tar [i; k; j])))).
  { intros i k j Hi Hk Hj. pose proof (PX i k j Hi Hk Hj). unfold when. destruct (counts _ _); [|lra]. apply Rlt_le; auto. }
  split.
  - intros ->. intros i k j Hi Hk Hj. destruct (Z.eq_dec (val tar [i; k; j]) ig) as [|N]; auto. exfalso.
    assert (P0 : part q h w (fun k j => when (counts (Some ig) (val tar [i; k; j])) (cross_entropy n (weight_of None) eps (softmax n (fun c => val prd [i; c; k; j])) (Z.to_nat (val tar [i; k; j])))) = 0).
    { apply (batch_zero_iff b (fun i => part q h w (fun k j => when (counts (Some ig) (val tar [i; k; j])) (cross_entropy n (weight_of None) eps (softmax n (fun c => val prd [i; c; k; j])) (Z.to_nat (val tar [i; k; j])))))); auto. intros i' Hi'. apply part_nonneg; auto. intros; now apply Rlt_le, Hq. }
    assert (C : counts (Some ig) (val tar [i; k; j]) = true). { cbn [counts]. destruct (Z.eqb_spec (val tar [i; k; j]) ig); [contradiction|reflexivity]. }
    pose proof (part_zero_iff q h w _ Hq (fun k j => NN i k j Hi) P0 k j Hk Hj) as Z. cbv beta in Z. rewrite C in Z. cbn [when] in Z. pose proof (PX i k j Hi Hk Hj C). lra.
  - intros H. rewrite <- E. rewrite <- (batch_const b 0 Hb). apply batch_ext. intros i Hi. rewrite <- (part_zero q h w). apply part_ext. intros k j Hk Hj. cbn [counts]. rewrite H by auto. rewrite Z.eqb_refl. reflexivity.
Qed.
Lemma ce_flat : forall eps ig v, cross_entropy_loss q None eps ig prd tar = Some v -> (forall i k j c d, (i < b)%nat -> (k < h)%nat -> (j < w)%nat -> (c < n)%nat -> (d < n)%nat -> val prd [i; c; k; j] = val prd [i; d; k; j]) ->
  v = ln (INR n) * batch_mean b (fun i => counted_area q h w (Some ig) (fun k j => val tar [i; k; j])).
Proof.
  intros eps ig v E HF. destruct (proj1 (ce_iff q prd tar b n h w None Sp St Hb Hn A eps ig) (ex_intro _ v E)) as [He HL]. rewrite (ce_value q prd tar b n h w None eps ig Sp St Sq Hb Hn _ (softmax_class prd b n h w Hn) He HL) in E. apply some_inj in E. rewrite <- E.
  rewrite <- batch_scal. apply batch_ext. intros i Hi. unfold counted_area. rewrite <- part_scal. apply part_ext. intros k j Hk Hj. unfold when. cbv beta. destruct (counts (Some ig) (val tar [i; k; j])) eqn:C; [|ring]. rewrite Rmult_1_r. apply ce_uniform; auto.
  intros c Hc. apply (probs_uniform n (fun c => val prd [i; c; k; j])); auto. now apply softmax_probs. pose proof (HL i k j Hi Hk Hj C). lia.
Qed.
End Unweighted.
Section FocalFacts.
Variables (q prd : tensor R) (tar : tensor Z) (b n h w : nat) (weight : option (nat -> R)).
Hypotheses (Sp : shp prd = [b; n; h; w]) (St : shp tar = [b; h; w]) (Hb : (1 <= b)%nat) (Hn : (1 <= n)%nat) (A : area_weights q h w) (HW : forall c, (c < n)%nat -> 0 <= weight_of weight c).
Let Sq : shp q = [h; 1%nat]. Proof. apply A. Qed.
Let Hq0 : forall k, (k < h)%nat -> 0 <= val q [k; 0]%nat. Proof. intros. apply Rlt_le. now apply A. Qed.
Lemma focal_between : forall eps ig alpha gamma v, 0 <= alpha -> 0 <= gamma -> cross_entropy_loss q weight eps ig prd tar = Some v ->
  exists f, focal_loss q weight eps ig alpha gamma prd tar = Some f /\ 0 <= f <= alpha * v /\ (gamma = 0 -> f = alpha * v).
Proof.
  intros eps ig alpha gamma v Ha Hg E. destruct (proj1 (ce_iff q prd tar b n h w weight Sp St Hb Hn A eps ig) (ex_intro _ v E)) as [He HL].
  rewrite (ce_value q prd tar b n h w weight eps ig Sp St Sq Hb Hn _ (softmax_class prd b n h w Hn) He HL) in E. apply some_inj in E; subst v.
  rewrite (focal_value q prd tar b n h w weight eps ig Sp St Sq Hb Hn _ alpha gamma (softmax_class prd b n h w Hn) He HL HW Hg). eexists. split; [reflexivity|]. cbv zeta.
  assert (NN : forall i k j, (i < b)%nat -> (k < h)%nat -> (j < w)%nat -> counts (Some ig) (val tar [i; k; j]) = true -> 0 <= cross_entropy n (weight_of weight) eps (softmax n (fun c => val prd [i; c; k; j])) (Z.to_nat (val tar [i; k; j]))).
  { intros i k j Hi Hk Hj C. eapply ce_nonneg; eauto. now apply softmax_probs. pose proof (HL i k j Hi Hk Hj C). lia. }
  rewrite <- batch_scal. split; [split|].
  - rewrite <- (batch_const b 0 Hb). apply batch_le; auto. intros i Hi. apply part_nonneg; auto. intros k j Hk Hj. unfold when. cbv beta. destruct (counts (Some ig) (val tar [i; k; j])) eqn:C; [|lra]. pose proof (NN i k j Hi Hk Hj C) as N. apply Rmult_le_pos; auto. apply Rmult_le_pos; auto. now apply focal_factor.
  - apply batch_le; auto. intros i Hi. rewrite <- part_scal. apply part_le; auto. intros k j Hk Hj. unfold when. cbv beta. destruct (counts (Some ig) (val tar [i; k; j])) eqn:C; [|lra]. pose proof (NN i k j Hi Hk Hj C) as N. pose proof (focal_factor _ gamma N Hg). apply Rmult_le_compat_r; auto. rewrite <- (Rmult_1_r alpha) at 2. apply Rmult_le_compat_l; lra.
  - intros ->. apply batch_ext. intros i Hi. rewrite <- part_scal. apply part_ext. intros k j Hk Hj. unfold when. cbv beta. destruct (counts (Some ig) (val tar [i; k; j])); [|ring]. unfold power. destruct (Req_EM_T 0 0); [ring|lra].
Qed.
Lemma focal_decreasing : forall eps ig alpha gamma gamma' f f', 0 <= alpha -> 0 <= gamma <= gamma' -> 0 <= eps <= 1 -> labelled tar (Some ig) b n h w ->
  focal_loss q weight eps ig alpha gamma prd tar = Some f -> focal_loss q weight eps ig alpha gamma' prd tar = Some f' -> f' <= f.
Proof.
  intros eps ig alpha gamma gamma' f f' Ha Hg He HL E E'.
  rewrite (focal_value q prd tar b n h w weight eps ig Sp St Sq Hb Hn _ alpha gamma (softmax_class prd b n h w Hn) He HL HW ltac:(lra)) in E.
  rewrite (focal_value q prd tar b n h w weight eps ig Sp St Sq Hb Hn _ alpha gamma' (softmax_class prd b n h w Hn) He HL HW ltac:(lra)) in E'. apply some_inj in E; subst f. apply some_inj in E'; subst f'. cbv zeta.
  apply batch_le; auto. intros i Hi. apply part_le; auto. intros k j Hk Hj. unfold when. cbv beta. destruct (counts (Some ig) (val tar [i; k; j])) eqn:C; [|lra].
  assert (N : 0 <= cross_entropy n (weight_of weight) eps (softmax n (fun c => val prd [i; c; k; j])) (Z.to_nat (val tar [i; k; j]))). { eapply ce_nonneg; eauto. now apply softmax_probs. pose proof (HL i k j Hi Hk Hj C). lia. }
  apply Rmult_le_compat_r; auto. apply Rmult_le_compat_l; auto. apply power_decr; auto. pose proof (focal_factor _ 1 N ltac:(lra)) as F. pose proof (exp_pos (- cross_entropy n (weight_of weight) eps (softmax n (fun c => val prd [i; c; k; j])) (Z.to_nat (val tar [i; k; j])))).
  assert (exp (- cross_entropy n (weight_of weight) eps (softmax n (fun c => val prd [i; c; k; j])) (Z.to_nat (val tar [i; k; j]))) <= 1). { rewrite <- exp_0. destruct N as [N|N]. left. apply exp_increasing. lra. rewrite <- N. right. f_equal. ring. } lra.
Qed.
End FocalFacts.
