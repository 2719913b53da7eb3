(** The spherical interpolation mode. *)
From Coq Require Import List Arith Lia Bool Reals Lra.
From Verif Require Import ResampleModel ResampleProofs.
Local Open Scope R_scope.

(** The documented formula (resample.py:61-69) and the linear one. *)
Definition slerp (a b t : R) : R := sin ((1 - t) * (b - a)) / sin (b - a) * a + sin (t * (b - a)) / sin (b - a) * b.
Definition lerp (a b t : R) : R := (1 - t) * a + t * b.

Lemma combine_slerp : forall a b t, / 10 ^ 4 < sin (b - a) -> combine MSpherical a b t = slerp a b t.
Proof. intros. unfold combine, slerp_start, slerp_end, slerp. rewrite (proj2 (Rltb_true _ _)) by auto. reflexivity. Qed.
Lemma combine_lerp : forall a b t, sin (b - a) <= / 10 ^ 4 -> combine MSpherical a b t = lerp a b t.
Proof. intros. unfold combine, slerp_start, slerp_end, lerp. rewrite (proj2 (Rltb_false _ _)) by auto. reflexivity. Qed.
Lemma combine_bilinear : forall a b t, combine MBilinear a b t = lerp a b t.
Proof. intros. unfold combine, lerp. ring. Qed.

Lemma tiny : 0 < / 10 ^ 4 < 1.
Proof. split. apply Rinv_0_lt_compat; apply pow_lt; lra. simpl. lra. Qed.

Lemma sqrt2_bounds : 1.4 < sqrt 2 < 1.5.
Proof.
  split.
  - rewrite <- (sqrt_square 1.4) by lra. apply sqrt_lt_1; lra.
  - rewrite <- (sqrt_square 1.5) by lra. apply sqrt_lt_1; lra.
Qed.
Lemma sin_half_quarter : sin (1 / 2 * (PI / 2)) = sqrt 2 / 2.
Proof.
  replace (1 / 2 * (PI / 2)) with (PI / 4) by lra. rewrite sin_PI4. pose proof sqrt2_bounds.
  assert (sqrt 2 * sqrt 2 = 2) by (apply sqrt_sqrt; lra). apply Rmult_eq_reg_r with (sqrt 2); [|lra].
  unfold Rdiv. rewrite Rmult_assoc, Rinv_l by lra. nra.
Qed.

(** A decreasing pair far from coincidence: the code interpolates linearly. *)
Lemma guard_one_sided : combine MSpherical (PI / 2) 0 (1 / 2) <> slerp (PI / 2) 0 (1 / 2) /\ sin (0 - PI / 2) = -1.
Proof.
  assert (S : sin (0 - PI / 2) = -1) by (replace (0 - PI / 2) with (- (PI / 2)) by lra; rewrite sin_neg, sin_PI2; auto).
  pose proof tiny. pose proof sqrt2_bounds. pose proof PI_RGT_0. split; auto. rewrite combine_lerp by (rewrite S; lra).
  unfold lerp, slerp. rewrite S. replace ((1 - 1 / 2) * (0 - PI / 2)) with (- (1 / 2 * (PI / 2))) by lra.
  rewrite sin_neg, sin_half_quarter. intros E. assert (sqrt 2 = 1) by nra. lra.
Qed.
(** Reversing the direction of interpolation changes the result. *)
Lemma not_symmetric : combine MSpherical 0 (PI / 2) (1 / 2) <> combine MSpherical (PI / 2) 0 (1 - 1 / 2).
Proof.
  pose proof tiny. pose proof sqrt2_bounds. pose proof PI_RGT_0.
  rewrite combine_slerp by (rewrite Rminus_0_r, sin_PI2; lra).
  rewrite combine_lerp. 2:{ replace (0 - PI / 2) with (- (PI / 2)) by lra. rewrite sin_neg, sin_PI2. lra. }
  unfold lerp, slerp. rewrite Rminus_0_r, sin_PI2, sin_half_quarter. intros E. assert (sqrt 2 = 1) by nra. lra.
Qed.
(** No maximum principle in this mode. *)
Lemma slerp_overshoots : 100 + PI / 2 < combine MSpherical 100 (100 + PI / 2) (1 / 2).
Proof.
  pose proof tiny. pose proof sqrt2_bounds. pose proof PI_RGT_0.
  assert (D : 100 + PI / 2 - 100 = PI / 2) by lra.
  rewrite combine_slerp by (rewrite D, sin_PI2; lra). unfold slerp. rewrite D, sin_PI2.
  replace (1 - 1 / 2) with (1 / 2) by lra. rewrite sin_half_quarter. pose proof PI_4. nra.
Qed.
