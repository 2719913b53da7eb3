(** Proofs about the mesh of plot_sphere. *)
From Coq Require Import Arith Reals Lra Lia.
From Verif Require Import TruncModel QuadModel GradLossProofs4 PlotModel PlotSpec.
Local Open Scope R_scope.

Lemma back (x : R) : PI / 180 * (x * 180 / PI) = x.
Proof. pose proof PI_RGT_0. field. lra. Qed.

Lemma on_map_mesh nlat nlon lat k j : (1 <= nlon)%nat ->
  on_map (mesh nlat nlon None lat k j) = on_grid nlon (PI / 2 - mesh_lat nlat lat k) j.
Proof.
  intros N. unfold on_map, on_grid, mesh. cbn [fst snd]. rewrite !back, cos_shift, sin_shift.
  unfold mesh_lon, linspace. replace (nlon + 1 - 1)%nat with nlon by lia.
  replace (0 + (2 * PI - 0) * INR j / INR nlon) with (2 * PI * INR j / INR nlon) by (unfold Rdiv; ring). reflexivity.
Qed.

Lemma mesh_lat_default nlat k : (2 <= nlat)%nat -> PI / 2 - mesh_lat nlat None k = PI * INR k / INR (nlat - 1).
Proof.
  intros N. unfold mesh_lat, linspace. assert (INR (nlat - 1) <> 0) by (apply not_0_INR; lia).
  replace 2.0 with 2 by lra. field. auto.
Qed.

Lemma gauss_lat gl nlat lat k : precompute_latitudes gl nlat GLegendreGauss = Some lat -> (k < nlat)%nat ->
  (forall i, (i < nlat)%nat -> -1 < rn (gl nlat) i < 1) -> -1 < cos (rn lat k) < 1.
Proof.
  intros E K G. unfold precompute_latitudes, precompute_quadrature_weights, legendre_gauss_weights in E. cbn in E.
  destruct (nlat =? 0)%nat; try discriminate. injection E as <-. cbn. unfold flip.
  specialize (G (nlat - 1 - k)%nat ltac:(lia)).
  rewrite cos_acos by lra. lra.
Qed.

Lemma trap_lat gl n lat : (3 <= n)%nat -> precompute_latitudes gl n GTrapezoidal = Some lat -> cos (rn lat 1%nat) = 1 - 2 / INR (n - 1).
Proof.
  intros N E. unfold precompute_latitudes in E. destruct (precompute_quadrature_weights gl n GTrapezoidal (-1) 1 false) as [q|] eqn:Q; try discriminate.
  injection E as <-. cbn [rn]. unfold flip.
  assert (P : 2 <= INR (n - 1)). { replace 2 with (INR 2) by reflexivity. apply le_INR. lia. }
  assert (V : rn q (n - 1 - 1)%nat = 1 - 2 / INR (n - 1)).
  { unfold precompute_quadrature_weights, trapezoidal_weights in Q. cbn [andb] in Q. rewrite Nat.add_0_r in Q.
    destruct ((n =? 0)%nat || (n - 1 =? 0)%nat)%bool; try discriminate. injection Q as <-. cbn [rn].
    rewrite (minus_INR (n - 1) 1) by lia. cbn [INR]. field. lra. }
  rewrite V. apply cos_acos. assert (0 < / INR (n - 1) <= / 2). { split. apply Rinv_0_lt_compat. lra. apply Rinv_le_contravar; lra. } lra.
Qed.

(** The cosine lies above the chord. *)
Lemma cos_above m : (3 <= m)%nat -> 1 - 2 / INR m < cos (PI * 1 / INR m).
Proof.
  intros M. destruct (Nat.eq_dec m 3) as [->|N].
  - replace (PI * 1 / INR 3) with (PI / 3) by (cbn [INR]; field). rewrite cos_PI3. cbn [INR]. lra.
  - assert (P : 4 <= INR m). { replace 4 with (INR 4) by (cbn [INR]; ring). apply le_INR. lia. }
    pose proof PI_RGT_0 as P0. pose proof PI_4 as P4.
    set (y := PI / (2 * INR m)). assert (Y : 0 < y). { apply Rdiv_lt_0_compat; lra. }
    replace (PI * 1 / INR m) with (2 * y) by (unfold y; field; lra). rewrite cos_2a_sin.
    assert (Y2 : y * y <= / INR m).
    { unfold y. replace (PI / (2 * INR m) * (PI / (2 * INR m))) with ((PI * PI) * (/ INR m * / INR m) / 4) by (field; lra).
      assert (I : 0 < / INR m) by (apply Rinv_0_lt_compat; lra). assert (I4 : / INR m <= / 4) by (apply Rinv_le_contravar; lra).
      assert (PI * PI <= 16) by nra. assert (/ INR m * / INR m <= / 4 * / INR m) by nra. assert (0 < / INR m * / INR m) by nra. nra. }
    assert (S : 0 < sin y < y).
    { split; [apply sin_gt_0|apply sin_lt_x]; auto. apply Rmult_lt_reg_r with (2 * INR m). lra. unfold y. field_simplify; nra. }
    unfold Rdiv. nra.
Qed.
