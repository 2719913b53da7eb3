From Coq Require Import List Arith Lia Bool Reals ZArith Lra.
From Verif Require Import TensorModel TensorProofs BigSum TruncModel QuadModel CCProofs QuadProofs QuadPropProofs LossModel LossSpec LossProofs MetricModel MetricSpec MetricProofs SegLossModel SegLossSpec.
Import ListNotations.
Local Open Scope R_scope.

(** ** Softmax *)
Lemma softmax_probs : forall n x, (1 <= n)%nat -> probabilities n x (softmax n x).
Proof.
  intros n x Hn. pose proof (softmax_pos n x Hn) as S. unfold softmax. split; [|split].
  - intros. apply Rdiv_lt_0_compat; auto. apply exp_pos.
  - rewrite (bsum_ext n _ (fun c => / rsum n (fun d => exp (x d)) * exp (x c))) by (intros; unfold Rdiv; ring). rewrite (bsum_scal_l RT). apply Rinv_l. lra.
  - intros. unfold Rdiv. ring.
Qed.
Lemma probs_unique : forall n x p p', probabilities n x p -> probabilities n x p' -> forall c, (c < n)%nat -> p c = p' c.
Proof.
  assert (G : forall n x p, probabilities n x p -> forall c, (c < n)%nat -> p c * rsum n (fun d => exp (x d)) = exp (x c)).
  { intros n x p (P & T & R) c Hc. rewrite <- (bsum_scal_l RT). rewrite (bsum_ext n _ (fun d => exp (x c) * p d)). rewrite (bsum_scal_l RT), T. ring. intros d Hd. rewrite R by auto. ring. }
  intros n x p p' H H' c Hc. assert (Hn : (1 <= n)%nat) by lia. pose proof (softmax_pos n x Hn). apply Rmult_eq_reg_r with (rsum n (fun d => exp (x d))); [|lra]. now rewrite (G n x p H c Hc), (G n x p' H' c Hc).
Qed.
Lemma probs_le1 : forall n x p, probabilities n x p -> forall c, (c < n)%nat -> 0 < p c <= 1.
Proof.
  intros n x p (P & T & R) c Hc. split; auto. rewrite <- T. rewrite <- (Rplus_0_l (p c)). clear R T. revert c Hc. induction n; intros c Hc. lia. cbn [bsum_].
  destruct (Nat.eq_dec c n) as [->|]. apply Rplus_le_compat_r. apply rsum_nonneg. intros. apply Rlt_le, P. lia.
  pose proof (IHn ltac:(intros; apply P; lia) c ltac:(lia)). pose proof (P n ltac:(lia)). lra.
Qed.
Lemma probs_lt1 : forall n x p, probabilities n x p -> (2 <= n)%nat -> forall c, (c < n)%nat -> p c < 1.
Proof.
  intros n x p H Hn c Hc. pose proof H as (P & T & R). set (d := if (c =? 0)%nat then 1%nat else 0%nat). assert (Hd : (d < n)%nat /\ d <> c) by (unfold d; destruct (Nat.eqb_spec c 0); lia).
  assert (G : p c + p d <= rsum n p).
  { clear T R. destruct Hd as [Hd N]. clear H Hn. clearbody d. revert c d Hc Hd N. induction n; intros c d Hc Hd N. lia. cbn [bsum_].
    assert (PN : forall c, (c < n)%nat -> 0 < p c) by (intros; apply P; lia).
    assert (One : forall e, (e < n)%nat -> p e <= rsum n p).
    { clear - PN. induction n; intros e He. lia. cbn [bsum_]. destruct (Nat.eq_dec e n) as [->|]. pose proof (rsum_nonneg n p ltac:(intros; apply Rlt_le, PN; lia)). lra. pose proof (IHn ltac:(intros; apply PN; lia) e ltac:(lia)). pose proof (PN n ltac:(lia)). lra. }
    destruct (Nat.eq_dec c n) as [->|]. pose proof (One d ltac:(lia)). lra. destruct (Nat.eq_dec d n) as [->|]. pose proof (One c ltac:(lia)). lra.
    pose proof (IHn PN c d ltac:(lia) ltac:(lia) N). pose proof (P n ltac:(lia)). lra. }
  pose proof (P d (proj1 Hd)). lra.
Qed.
Lemma log_softmax_ln : forall n x c, (1 <= n)%nat -> log_softmax n x c = ln (softmax n x c).
Proof. intros n x c Hn. pose proof (softmax_pos n x Hn). unfold log_softmax, softmax. unfold Rdiv. rewrite ln_mult, ln_Rinv, ln_exp; auto. apply exp_pos. now apply Rinv_0_lt_compat. Qed.
Lemma log_softmax_twice : forall n x c, (1 <= n)%nat -> log_softmax n (log_softmax n x) c = log_softmax n x c.
Proof.
  intros n x c Hn. unfold log_softmax at 1. rewrite (bsum_ext n _ (softmax n x)). destruct (softmax_probs n x Hn) as (_ & -> & _). rewrite ln_1. ring.
  intros d Hd. rewrite log_softmax_ln by auto. apply exp_ln. apply (softmax_probs n x Hn). auto.
Qed.
Lemma probs_softmax : forall n x p, (1 <= n)%nat -> probabilities n x p -> forall c, (c < n)%nat -> softmax n x c = p c.
Proof. intros. eapply probs_unique; eauto. now apply softmax_probs. Qed.
Lemma log_probs : forall n x p, (1 <= n)%nat -> probabilities n x p -> forall c, (c < n)%nat -> log_softmax n (log_softmax n x) c = ln (p c).
Proof. intros. rewrite log_softmax_twice, log_softmax_ln by auto. f_equal. now apply probs_softmax. Qed.
Lemma probs_shift : forall n x y p s, (forall c, (c < n)%nat -> y c = x c + s) -> probabilities n x p -> probabilities n y p.
Proof. intros n x y p s H (P & T & R). split; [|split]; auto. intros c d Hc Hd. rewrite !H, !exp_plus by auto. rewrite <- !Rmult_assoc, R by auto. reflexivity. Qed.

(** ** Cross entropy at a pixel *)
Lemma pixel_ce_value : forall n weight eps ig prd tar i k j p, (1 <= n)%nat -> 0 <= eps <= 1 -> probabilities n (fun c => val prd [i; c; k; j]) p ->
  (counts (Some ig) (val tar [i; k; j]) = true -> (0 <= val tar [i; k; j] < Z.of_nat n)%Z) ->
  pixel_ce n weight eps ig prd tar i k j = Some (when (counts (Some ig) (val tar [i; k; j])) (cross_entropy n (weight_of weight) eps p (Z.to_nat (val tar [i; k; j])))).
Proof.
  intros n weight eps ig prd tar i k j p Hn He Hp Ht. unfold pixel_ce, torch_cross_entropy. destruct (Rle_dec 0 eps); [|lra]. destruct (Rle_dec eps 1); [|lra].
  cbn [counts] in *. destruct (Z.eqb_spec (val tar [i; k; j]) ig) as [E|E]; cbn [negb when] in *. reflexivity. specialize (Ht eq_refl).
  unfold guard. rewrite (proj2 (Z.leb_le _ _)), (proj2 (Z.ltb_lt _ _)) by lia. cbn [andb bindo]. f_equal. unfold cross_entropy. fold (weight_of weight).
  change (fun c => match weight with Some wt => wt c | None => 1 end) with (weight_of weight).
  assert (L := log_probs n _ p Hn Hp). unfold pixel. f_equal.
  - f_equal. f_equal. rewrite L by lia. reflexivity.
  - rewrite (bsum_ext n (fun c => - (weight_of weight c * ln (p c))) (fun c => -1 * (ln (p c) * weight_of weight c))) by (intros; ring). rewrite (bsum_scal_l RT).
    rewrite (bsum_ext n _ (fun c => ln (p c) * weight_of weight c)) by (intros c Hc; rewrite L by auto; reflexivity). unfold Rdiv. ring.
Qed.
Lemma pixel_ce_none : forall n weight eps ig prd tar i k j, pixel_ce n weight eps ig prd tar i k j <> None -> 0 <= eps <= 1 /\ (counts (Some ig) (val tar [i; k; j]) = true -> (0 <= val tar [i; k; j] < Z.of_nat n)%Z).
Proof.
  intros n weight eps ig prd tar i k j H. unfold pixel_ce, torch_cross_entropy in H. destruct (Rle_dec 0 eps); [|congruence]. destruct (Rle_dec eps 1); [|congruence]. split. lra.
  cbn [counts]. destruct (Z.eqb_spec (val tar [i; k; j]) ig); cbn [negb]. discriminate. intros _. unfold guard in H.
  destruct (Z.leb_spec 0 (val tar [i; k; j])); [|now cbn in H]. destruct (Z.ltb_spec (val tar [i; k; j]) (Z.of_nat n)); [lia|now cbn in H].
Qed.
Lemma ce_nonneg : forall n wt eps x p t, probabilities n x p -> (forall c, (c < n)%nat -> 0 <= wt c) -> 0 <= eps <= 1 -> (t < n)%nat -> 0 <= cross_entropy n wt eps p t.
Proof.
  intros n wt eps x p t Hp Hw He Ht. assert (G : forall c, (c < n)%nat -> 0 <= - (wt c * ln (p c))).
  { intros c Hc. destruct (probs_le1 n x p Hp c Hc) as [P1 P2]. assert (ln (p c) <= 0). { rewrite <- ln_1. destruct P2 as [P2|P2]. left. apply ln_increasing; auto. rewrite P2. lra. }
    pose proof (Hw c Hc). replace (- (wt c * ln (p c))) with (wt c * - ln (p c)) by ring. apply Rmult_le_pos; lra. }
  unfold cross_entropy. apply Rplus_le_le_0_compat; apply Rmult_le_pos; auto; try lra. unfold Rdiv. apply Rmult_le_pos. apply rsum_nonneg; auto. left. apply Rinv_0_lt_compat, INR_pos. lia.
Qed.

(** ** Sums over the pixels *)
Lemma part_ext : forall q h w F G, (forall k j, (k < h)%nat -> (j < w)%nat -> F k j = G k j) -> part q h w F = part q h w G.
Proof. intros q h w F G H. unfold part. apply bsum_ext. intros k Hk. apply bsum_ext. intros j Hj. now rewrite H. Qed.
Lemma part_le : forall q h w F G, (forall k, (k < h)%nat -> 0 <= val q [k; 0]%nat) -> (forall k j, (k < h)%nat -> (j < w)%nat -> F k j <= G k j) -> part q h w F <= part q h w G.
Proof. intros q h w F G Hq H. unfold part. apply rsum_le. intros k Hk. apply rsum_le. intros j Hj. apply Rmult_le_compat_l; auto. Qed.
Lemma part_plus : forall q h w F G, part q h w (fun k j => F k j + G k j) = part q h w F + part q h w G.
Proof. intros. unfold part. rewrite <- (bsum_plus RT). apply bsum_ext. intros k Hk. rewrite <- (bsum_plus RT). apply bsum_ext. intros. ring. Qed.
Lemma part_scal : forall q h w a F, part q h w (fun k j => a * F k j) = a * part q h w F.
Proof. intros. unfold part. rewrite <- (bsum_scal_l RT). apply bsum_ext. intros k Hk. rewrite <- (bsum_scal_l RT w a). apply bsum_ext. intros j Hj. ring. Qed.
Lemma part_zero : forall q h w, part q h w (fun _ _ => 0) = 0.
Proof. intros. unfold part. apply (bsum_zero' RT). intros. apply (bsum_zero' RT). intros. ring. Qed.
Lemma part_nonneg : forall q h w F, (forall k, (k < h)%nat -> 0 <= val q [k; 0]%nat) -> (forall k j, (k < h)%nat -> (j < w)%nat -> 0 <= F k j) -> 0 <= part q h w F.
Proof. intros. rewrite <- (part_zero q h w). now apply part_le. Qed.
Lemma part_zero_iff : forall q h w F, (forall k, (k < h)%nat -> 0 < val q [k; 0]%nat) -> (forall k j, (k < h)%nat -> (j < w)%nat -> 0 <= F k j) -> part q h w F = 0 -> forall k j, (k < h)%nat -> (j < w)%nat -> F k j = 0.
Proof.
  intros q h w F Hq HF E k j Hk Hj. unfold part in E.
  assert (N : forall a, (a < h)%nat -> 0 <= rsum w (fun j => val q [a; 0]%nat * F a j)). { intros a Ha. apply rsum_nonneg. intros. apply Rmult_le_pos; auto. now apply Rlt_le, Hq. }
  pose proof (rsum_zero_iff h _ N E k Hk) as E1. cbv beta in E1.
  assert (N' : forall a, (a < w)%nat -> 0 <= val q [k; 0]%nat * F k a). { intros. apply Rmult_le_pos; auto. now apply Rlt_le, Hq. }
  pose proof (rsum_zero_iff w _ N' E1 j Hj) as E2. cbv beta in E2. apply Rmult_integral in E2. pose proof (Hq k Hk). destruct E2; auto; lra.
Qed.
Lemma part_sum : forall q h w n (F : nat -> nat -> nat -> R), rsum n (fun c => part q h w (F c)) = part q h w (fun k j => rsum n (fun c => F c k j)).
Proof.
  intros. unfold part. rewrite (bsum_swap RT). apply bsum_ext. intros k Hk. rewrite (bsum_swap RT). apply bsum_ext. intros j Hj. rewrite (bsum_scal_l RT). reflexivity.
Qed.
Lemma batch_ext : forall b f g, (forall i, (i < b)%nat -> f i = g i) -> batch_mean b f = batch_mean b g.
Proof. intros b f g H. unfold batch_mean. f_equal. now apply bsum_ext. Qed.
Lemma batch_le : forall b f g, (1 <= b)%nat -> (forall i, (i < b)%nat -> f i <= g i) -> batch_mean b f <= batch_mean b g.
Proof. intros b f g Hb H. unfold batch_mean, Rdiv. apply Rmult_le_compat_r. left. apply Rinv_0_lt_compat, INR_pos; auto. now apply rsum_le. Qed.
Lemma batch_const : forall b c, (1 <= b)%nat -> batch_mean b (fun _ => c) = c.
Proof. intros b c Hb. unfold batch_mean. rewrite rsum_const. pose proof (INR_pos b Hb). field. lra. Qed.
Lemma batch_scal : forall b a f, batch_mean b (fun i => a * f i) = a * batch_mean b f.
Proof. intros. unfold batch_mean. rewrite (bsum_scal_l RT). unfold Rdiv. ring. Qed.
Lemma batch_zero_iff : forall b f, (1 <= b)%nat -> (forall i, (i < b)%nat -> 0 <= f i) -> batch_mean b f = 0 -> forall i, (i < b)%nat -> f i = 0.
Proof.
  intros b f Hb Hf E. unfold batch_mean, Rdiv in E. apply Rmult_integral in E. pose proof (INR_pos b Hb). destruct E as [E|E]. now apply rsum_zero_iff. exfalso. pose proof (Rinv_0_lt_compat _ H). lra.
Qed.

(** ** Shapes and the integral *)
Lemma seg_shapes_value : forall q prd tar b n h w, shp prd = [b; n; h; w] -> shp tar = [b; h; w] -> shp q = [h; 1%nat] -> (1 <= n)%nat -> seg_shapes q prd tar = Some (b, n, h, w).
Proof.
  intros q prd tar b n h w Sp St Sq Hn. unfold seg_shapes. rewrite Sp, St, Sq. unfold guard. assert (E : forall s, shape_eqb s s = true) by (intros s; unfold shape_eqb; destruct (list_eq_dec Nat.eq_dec s s); congruence).
  rewrite !E, (proj2 (Nat.leb_le _ _)) by auto. reflexivity.
Qed.
Lemma all_pixels_value : forall b h w f g, (forall i k j, (i < b)%nat -> (k < h)%nat -> (j < w)%nat -> f i k j = Some (g i k j)) -> exists x, all_pixels b h w f = Some x /\ shp x = [b; h; w] /\ forall i k j, (i < b)%nat -> (k < h)%nat -> (j < w)%nat -> val x [i; k; j] = g i k j.
Proof.
  intros b h w f g H. unfold all_pixels. rewrite (proj2 (forallb_forall _ _)).
  - eexists. split; [reflexivity|]. split; [reflexivity|]. intros i k j Hi Hk Hj. cbn [val nth]. now rewrite H.
  - intros i Hi. apply in_indices in Hi. pose proof (valid_len _ _ Hi) as L. destruct i as [|i [|k [|j [|]]]]; try discriminate. apply valid_cons in Hi. destruct Hi as [H1 Hi]. apply valid_cons in Hi. destruct Hi as [H2 Hi]. apply valid_cons in Hi. destruct Hi as [H3 _]. cbn [nth]. now rewrite H.
Qed.
Lemma all_pixels_some : forall b h w f x, all_pixels b h w f = Some x -> forall i k j, (i < b)%nat -> (k < h)%nat -> (j < w)%nat -> f i k j <> None.
Proof.
  intros b h w f x H i k j Hi Hk Hj. unfold all_pixels in H. destruct (forallb _ _) eqn:E; [|discriminate]. rewrite forallb_forall in E. specialize (E [i; k; j]). cbn [nth] in E. destruct (f i k j); [discriminate|]. discriminate E. apply in_indices. repeat (apply valid_cons; split; auto). apply valid_nil.
Qed.
Lemma integrate_mean_value : forall q x b h w g, shp x = [b; h; w] -> shp q = [h; 1%nat] -> (1 <= b)%nat -> (forall i k j, (i < b)%nat -> (k < h)%nat -> (j < w)%nat -> val x [i; k; j] = g i k j) ->
  integrate_mean q x = Some (batch_mean b (fun i => part q h w (g i))).
Proof.
  intros q x b h w g Sx Sq Hb V. unfold integrate_mean, bmap2. rewrite Sx, Sq. change [b; h; w] with ([b] ++ [h; w]). rewrite bshape_rows. cbn [bindo]. unfold sum_last2. cbn [shp ndim length app Nat.leb guard bindo Nat.sub firstn dimsz nth].
  rewrite mean_value by (cbn; lia). f_equal. cbn [shp]. unfold average. cbn [count total]. unfold batch_mean. rewrite Nat.mul_1_r. f_equal. apply bsum_ext. intros i Hi. cbn [val dimsz nth ndim length shp]. unfold part. apply bsum_ext. intros k Hk. apply bsum_ext. intros j Hj. cbn [val].
  rewrite (bidx_rows [i]) by auto. change ([i] ++ [k; j]) with [i; k; j]. rewrite bidx_valid. rewrite V by auto. ring. repeat (apply valid_cons; split; auto). apply valid_nil.
Qed.

(** ** Cross entropy and focal loss *)
Section CE.
Variables (q prd : tensor R) (tar : tensor Z) (b n h w : nat) (weight : option (nat -> R)) (eps : R) (ig : Z).
Hypotheses (Sp : shp prd = [b; n; h; w]) (St : shp tar = [b; h; w]) (Sq : shp q = [h; 1%nat]) (Hb : (1 <= b)%nat) (Hn : (1 <= n)%nat).
Lemma ce_value : forall P, class_probs prd b n h w P -> 0 <= eps <= 1 -> labelled tar (Some ig) b n h w ->
  cross_entropy_loss q weight eps ig prd tar = Some (batch_mean b (fun i => part q h w (fun k j =>
    when (counts (Some ig) (val tar [i; k; j])) (cross_entropy n (weight_of weight) eps (P i k j) (Z.to_nat (val tar [i; k; j])))))).
Proof.
  intros P HP He HL. unfold cross_entropy_loss. rewrite (seg_shapes_value _ _ _ b n h w) by auto. cbn [bindo].
  destruct (all_pixels_value b h w (pixel_ce n weight eps ig prd tar) (fun i k j => when (counts (Some ig) (val tar [i; k; j])) (cross_entropy n (weight_of weight) eps (P i k j) (Z.to_nat (val tar [i; k; j]))))) as (x & -> & Sx & Vx).
  { intros i k j Hi Hk Hj. apply pixel_ce_value; auto. }
  cbn [bindo]. now apply integrate_mean_value.
Qed.
Lemma ce_decided : (exists v, cross_entropy_loss q weight eps ig prd tar = Some v) -> (1 <= h)%nat -> (1 <= w)%nat -> 0 <= eps <= 1 /\ labelled tar (Some ig) b n h w.
Proof.
  intros (v & E) Hh Hw. unfold cross_entropy_loss in E. rewrite (seg_shapes_value _ _ _ b n h w) in E by auto. cbn [bindo] in E.
  destruct (all_pixels _ _ _ _) as [x|] eqn:A; [|discriminate]. pose proof (all_pixels_some _ _ _ _ _ A) as N. split.
  - apply (pixel_ce_none n weight eps ig prd tar 0 0 0). apply N; lia.
  - intros i k j Hi Hk Hj. apply (pixel_ce_none n weight eps ig prd tar i k j). apply N; auto.
Qed.
Lemma tpow_value : forall x g, 0 <= g -> 0 <= x -> tpow x g = Some (power x g).
Proof. intros. unfold tpow, power. destruct (Rlt_dec g 0); [lra|]. destruct (Rlt_dec x 0); [lra|]. reflexivity. Qed.
Lemma focal_value : forall P alpha gamma, class_probs prd b n h w P -> 0 <= eps <= 1 -> labelled tar (Some ig) b n h w -> (forall c, (c < n)%nat -> 0 <= weight_of weight c) -> 0 <= gamma ->
  focal_loss q weight eps ig alpha gamma prd tar = Some (batch_mean b (fun i => part q h w (fun k j =>
    when (counts (Some ig) (val tar [i; k; j])) (let ce := cross_entropy n (weight_of weight) eps (P i k j) (Z.to_nat (val tar [i; k; j])) in alpha * power (1 - exp (- ce)) gamma * ce)))).
Proof.
  intros P alpha gamma HP He HL HW Hg. unfold focal_loss. rewrite (seg_shapes_value _ _ _ b n h w) by auto. cbn [bindo].
  match goal with |- context [batch_mean b (fun i => part q h w (@?g i))] => destruct (all_pixels_value b h w (fun i k j => do ce <- pixel_ce n weight eps ig prd tar i k j; do p <- tpow (1 - exp (- ce)) gamma; Some (alpha * p * ce)) g) as (x & -> & Sx & Vx) end.
  { intros i k j Hi Hk Hj. rewrite (pixel_ce_value n weight eps ig prd tar i k j (P i k j)); auto. cbn [bindo].
    assert (NN : 0 <= when (counts (Some ig) (val tar [i; k; j])) (cross_entropy n (weight_of weight) eps (P i k j) (Z.to_nat (val tar [i; k; j])))).
    { unfold when. destruct (counts _ _) eqn:C; [|lra]. eapply ce_nonneg; eauto. pose proof (HL i k j Hi Hk Hj C). lia. }
    assert (exp (- when (counts (Some ig) (val tar [i; k; j])) (cross_entropy n (weight_of weight) eps (P i k j) (Z.to_nat (val tar [i; k; j])))) <= 1).
    { rewrite <- exp_0. destruct NN as [NN|NN]. left. apply exp_increasing. lra. rewrite <- NN. right. f_equal. ring. }
    rewrite tpow_value by lra. cbn [bindo]. f_equal. cbv zeta. unfold when. destruct (counts _ _); auto. ring. }
  cbn [bindo]. now apply integrate_mean_value.
Qed.
End CE.
Lemma power_range : forall x g, 0 <= g -> 0 <= x <= 1 -> 0 <= power x g <= 1.
Proof.
  intros x g Hg Hx. unfold power. destruct (Req_EM_T g 0). lra. destruct (Req_EM_T x 0). lra. unfold Rpower. split. left. apply exp_pos.
  rewrite <- exp_0. assert (ln x <= 0). { rewrite <- ln_1. destruct (proj2 Hx) as [H|H]. left. apply ln_increasing; lra. rewrite H. lra. }
  assert (g * ln x <= 0). { rewrite <- (Rmult_0_r g). apply Rmult_le_compat_l; lra. } destruct H0 as [H0|H0]. left. now apply exp_increasing. rewrite H0. lra.
Qed.
Lemma power_decr : forall x g g', 0 <= g <= g' -> 0 <= x <= 1 -> power x g' <= power x g.
Proof.
  intros x g g' Hg Hx. unfold power. destruct (Req_EM_T g' 0), (Req_EM_T g 0); try lra. { pose proof (power_range x g' ltac:(lra) Hx) as P. unfold power in P. destruct (Req_EM_T g' 0); [lra|]. apply P. }
  destruct (Req_EM_T x 0). lra. unfold Rpower. assert (ln x <= 0). { rewrite <- ln_1. destruct (proj2 Hx) as [H|H]. left. apply ln_increasing; lra. rewrite H. lra. }
  assert (g' * ln x <= g * ln x). { rewrite !(Rmult_comm _ (ln x)). apply Rmult_le_compat_neg_l; lra. } destruct H0 as [H0|H0]. left. now apply exp_increasing. rewrite H0. lra.
Qed.
