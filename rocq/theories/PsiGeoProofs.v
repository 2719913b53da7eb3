(** Polar coordinates of the input points around an output point. *)
From Coq Require Import List Arith ZArith Lia Bool Reals Lra.
From Verif Require Import TensorModel BigSum ResampleModel ResampleProofs TruncModel QuadModel DiscoModel FilterModel FilterSpec PsiModel PsiSpec FilterPLProofs FilterBases2Proofs.
Import ListNotations.
Local Open Scope R_scope.

Lemma sqrt_scale : forall x y, x <> 0 -> sqrt (1 + (y / x)²) = sqrt (x * x + y * y) / Rabs x.
Proof.
  intros x y Hx. pose proof (Rabs_pos_lt x Hx). replace (1 + (y / x)²) with ((x * x + y * y) / (x * x)) by (unfold Rsqr; field; auto).
  rewrite sqrt_div_alt by nra. f_equal. apply sqrt_Rsqr_abs.
Qed.
Lemma atan2_spec : forall y x, sqrt (x * x + y * y) * cos (atan2 y x) = x /\ sqrt (x * x + y * y) * sin (atan2 y x) = y /\ - PI < atan2 y x <= PI.
Proof.
  intros y x. pose proof PI_RGT_0. pose proof (atan_bound (y / x)) as A. unfold atan2. destruct (Rltb_cases 0 x) as [(-> & X)|(-> & X)].
  - assert (S : 0 < sqrt (x * x + y * y)) by (apply sqrt_lt_R0; nra). rewrite cos_atan, sin_atan, sqrt_scale by lra. rewrite Rabs_right by lra.
    split; [field; lra|]. split; [field; lra|lra].
  - destruct (Rltb_cases x 0) as [(-> & X')|(-> & X')].
    + assert (S : 0 < sqrt (x * x + y * y)) by (apply sqrt_lt_R0; nra). assert (C : cos (atan (y / x)) = - x / sqrt (x * x + y * y) /\ sin (atan (y / x)) = - y / sqrt (x * x + y * y)).
      { rewrite cos_atan, sin_atan, sqrt_scale by lra. rewrite Rabs_left by lra. split; field; lra. } destruct C as (C1 & C2).
      destruct (Rleb_cases 0 y) as [(-> & Y)|(-> & Y)].
      * rewrite neg_cos, neg_sin, C1, C2. split; [field; lra|]. split; [field; lra|]. assert (y / x <= 0). { unfold Rdiv. assert (/ x < 0) by (apply Rinv_lt_0_compat; auto). nra. }
        assert (atan (y / x) <= atan 0). { destruct H0 as [L|E]; [left; apply atan_increasing; auto|rewrite E; right; auto]. } rewrite atan_0 in H1. lra.
      * replace (atan (y / x) - PI) with (- (PI - atan (y / x))) by ring. rewrite cos_neg, sin_neg. replace (PI - atan (y / x)) with (- atan (y / x) + PI) by ring. rewrite neg_cos, neg_sin, cos_neg, sin_neg, C1, C2.
        split; [field; lra|]. split; [field; lra|]. assert (0 < y / x). { unfold Rdiv. assert (/ x < 0) by (apply Rinv_lt_0_compat; auto). nra. }
        assert (atan 0 < atan (y / x)) by (apply atan_increasing; auto). rewrite atan_0 in H1. lra.
    + assert (x = 0) by lra. subst x. rewrite Rmult_0_l, Rplus_0_l. destruct (Rltb_cases 0 y) as [(-> & Y)|(-> & Y)].
      * rewrite cos_PI2, sin_PI2, sqrt_square by lra. split; [ring|]. split; [ring|lra].
      * destruct (Rltb_cases y 0) as [(-> & Y')|(-> & Y')].
        -- rewrite cos_neg, sin_neg, cos_PI2, sin_PI2. replace (y * y) with ((- y) * (- y)) by ring. rewrite sqrt_square by lra. split; [ring|]. split; [ring|lra].
        -- assert (y = 0) by lra. subst y. rewrite Rmult_0_l, sqrt_0. split; [ring|]. split; [ring|lra].
Qed.
Section Geo.
Variables (gamma beta lat_out : R).
Lemma g_dots : g_x gamma beta lat_out = dot (pt (gamma, beta)) (south lat_out) /\ g_y gamma beta = dot (pt (gamma, beta)) east /\ g_z gamma beta lat_out = dot (pt (gamma, beta)) (pt (lat_out, 0)).
Proof.
  unfold g_x, g_y, g_z, dot, pt, south, east. cbn [fst snd]. rewrite cos_neg, sin_neg, cos_0, sin_0. repeat split; ring.
Qed.
Lemma g_unit : g_x gamma beta lat_out * g_x gamma beta lat_out + g_y gamma beta * g_y gamma beta + g_z gamma beta lat_out * g_z gamma beta lat_out = 1.
Proof.
  unfold g_x, g_y, g_z. rewrite cos_neg, sin_neg. set (sb := sin beta). set (cb := cos beta). set (sg := sin gamma). set (cg := cos gamma). set (so := sin lat_out). set (co := cos lat_out).
  assert (B : sb * sb = 1 - cb * cb) by (pose proof (sin2_cos2 beta) as Q; unfold Rsqr in Q; fold sb cb in Q; lra). assert (G : sg * sg = 1 - cg * cg) by (pose proof (sin2_cos2 gamma) as Q; unfold Rsqr in Q; fold sg cg in Q; lra).
  assert (O : so * so = 1 - co * co) by (pose proof (sin2_cos2 lat_out) as Q; unfold Rsqr in Q; fold so co in Q; lra).
  transitivity ((co * co + so * so) * (cb * cb * (sg * sg) + cg * cg) + (sb * sb) * (sg * sg)); [ring|]. rewrite O, B, G. ring.
Qed.
Lemma g_norm_1 : g_norm gamma beta lat_out = 1.
Proof. unfold g_norm. rewrite g_unit. apply sqrt_1. Qed.
Lemma g_z_range : -1 <= g_z gamma beta lat_out <= 1.
Proof. pose proof g_unit. split; nra. Qed.
Theorem g_polar : polar_about lat_out (gamma, beta) (g_theta gamma beta lat_out) (g_phi gamma beta lat_out).
Proof.
  destruct g_dots as (Ex & Ey & Ez). unfold polar_about. rewrite <- Ex, <- Ey. unfold gcdist. rewrite <- Ez.
  assert (T : g_theta gamma beta lat_out = acos (g_z gamma beta lat_out)) by (unfold g_theta; rewrite g_norm_1; f_equal; field). split; [auto|].
  unfold g_phi. rewrite g_norm_1. replace (g_y gamma beta / 1) with (g_y gamma beta) by field. replace (g_x gamma beta lat_out / 1) with (g_x gamma beta lat_out) by field.
  destruct (atan2_spec (g_y gamma beta) (g_x gamma beta lat_out)) as (C & S & R). pose proof PI_RGT_0.
  assert (Sr : sin (g_theta gamma beta lat_out) = sqrt (g_x gamma beta lat_out * g_x gamma beta lat_out + g_y gamma beta * g_y gamma beta)).
  { rewrite T, sin_acos by apply g_z_range. f_equal. unfold Rsqr. pose proof g_unit. lra. }
  rewrite Sr. destruct (Rltb_cases (atan2 (g_y gamma beta) (g_x gamma beta lat_out)) 0) as [(-> & L)|(-> & L)].
  - split; [lra|]. set (p := atan2 _ _) in *. replace (cos (p + 2 * PI)) with (cos p) by (rewrite <- (cos_period p 1); f_equal; simpl; ring). replace (sin (p + 2 * PI)) with (sin p) by (rewrite <- (sin_period p 1); f_equal; simpl; ring). auto.
  - split; [lra|auto].
Qed.
Lemma g_theta_range : 0 <= g_theta gamma beta lat_out <= PI.
Proof. apply acos_bound. Qed.
End Geo.
Lemma dot_cos : forall a b c d, dot (pt (a, b)) (pt (c, d)) = sin a * sin c * cos (b - d) + cos a * cos c.
Proof. intros. unfold dot, pt. cbn [fst snd]. rewrite cos_minus. ring. Qed.
(** rotating both points about the axis, by any angle modulo full turns *)
Lemma gcdist_lon : forall a b c d b' d', cos (b - d) = cos (b' - d') -> gcdist (a, b) (c, d) = gcdist (a, b') (c, d').
Proof. intros. unfold gcdist. rewrite !dot_cos, H. reflexivity. Qed.
Lemma gcdist_sym : forall p q, gcdist p q = gcdist q p.
Proof. intros (a, b) (c, d). unfold gcdist. rewrite !dot_cos. f_equal. replace (d - b) with (- (b - d)) by ring. rewrite cos_neg. ring. Qed.
Lemma gcdist_self : forall p, gcdist p p = 0.
Proof. intros (a, b). unfold gcdist. rewrite dot_cos, Rminus_diag_eq, cos_0 by auto. replace (sin a * sin a * 1 + cos a * cos a) with 1. apply acos_1. pose proof (sin2_cos2 a) as Q. unfold Rsqr in Q. lra. Qed.
Lemma gcdist_range : forall p q, 0 <= gcdist p q <= PI.
Proof. intros. apply acos_bound. Qed.
Lemma longitudes_lon : forall n j, (1 <= n)%nat -> precompute_longitudes n j = lon n j.
Proof.
  intros n j Hn. unfold precompute_longitudes, lon, linspace. replace (n + 1 - 1)%nat with n by lia. assert (0 < INR n) by (apply lt_0_INR; lia). destruct (Nat.eqb_spec (n + 1) 1); [lia|]. field. lra.
Qed.
