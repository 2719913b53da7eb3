(** C83: where plot_sphere draws a field. *)
From Coq Require Import Arith Reals Lra Lia.
From Verif Require Import TruncModel QuadModel GradLossProofs4 PlotModel PlotSpec PlotProofs.
Local Open Scope R_scope.

(** A field on the equiangular grid is drawn where its grid points are. *)
Theorem C83_equiangular : forall gl nlat nlon lat k j, (2 <= nlat)%nat -> (1 <= nlon)%nat -> precompute_latitudes gl nlat GEquiangular = Some lat ->
  (k < nlat)%nat -> on_map (mesh nlat nlon None None k j) = on_grid nlon (rn lat k) j.
Proof.
  intros gl nlat nlon lat k j N M E K. rewrite on_map_mesh, mesh_lat_default by lia. now rewrite (equiangular_lats gl nlat lat N E k K).
Qed.
Print Assumptions C83_equiangular.

(** A field on any grid is, if the latitudes pi/2 - theta are passed. *)
Theorem C83_given : forall gl nlat nlon g lat k j, (1 <= nlon)%nat -> precompute_latitudes gl nlat g = Some lat ->
  on_map (mesh nlat nlon None (Some (fun i => PI / 2 - rn lat i)) k j) = on_grid nlon (rn lat k) j.
Proof.
  intros gl nlat nlon g lat k j N E. rewrite on_map_mesh by lia. f_equal. cbn. ring.
Qed.
Print Assumptions C83_given.

(** Without them, on every Gauss-Legendre grid the first row is drawn at the pole, where it is not. *)
Theorem C83_gauss_refuted : forall gl nlat nlon lat j, (2 <= nlat)%nat -> (1 <= nlon)%nat ->
  (forall i, (i < nlat)%nat -> -1 < rn (gl nlat) i < 1) -> precompute_latitudes gl nlat GLegendreGauss = Some lat ->
  on_map (mesh nlat nlon None None 0 j) <> on_grid nlon (rn lat 0%nat) j.
Proof.
  intros gl nlat nlon lat j N M G E. rewrite on_map_mesh, mesh_lat_default by lia. intros H. injection H as _ _ H.
  pose proof (gauss_lat gl nlat lat 0 E ltac:(lia) G) as B. cbn [INR] in H.
  replace (PI * 0 / INR (nlat - 1)) with 0 in H by (unfold Rdiv; ring). rewrite cos_0 in H. lra.
Qed.
Print Assumptions C83_gauss_refuted.

(** And on every trapezoidal grid with at least four latitudes the second row. *)
Theorem C83_trapezoidal_refuted : forall gl nlat nlon lat j, (4 <= nlat)%nat -> (1 <= nlon)%nat -> precompute_latitudes gl nlat GTrapezoidal = Some lat ->
  on_map (mesh nlat nlon None None 1 j) <> on_grid nlon (rn lat 1%nat) j.
Proof.
  intros gl nlat nlon lat j N M E. rewrite on_map_mesh, mesh_lat_default by lia. intros H. injection H as _ _ H.
  rewrite (trap_lat gl nlat lat) in H by (auto; lia). pose proof (cos_above (nlat - 1) ltac:(lia)). cbn [INR] in H. lra.
Qed.
Print Assumptions C83_trapezoidal_refuted.

(** Cases *)
Example C83_equiangular_ex : exists lat, precompute_latitudes (fun _ => mkRule (fun _ => 0) (fun _ => 1)) 5 GEquiangular = Some lat /\
  on_map (mesh 5 8 None None 1 2) = on_grid 8 (rn lat 1%nat) 2.
Proof. eexists. split. reflexivity. apply (C83_equiangular (fun _ => mkRule (fun _ => 0) (fun _ => 1)) 5 8); try lia. reflexivity. Qed.
Example C83_gauss_ex : exists gl lat, (forall i, (i < 2)%nat -> -1 < rn (gl 2%nat) i < 1) /\ precompute_latitudes gl 2 GLegendreGauss = Some lat.
Proof.
  exists (fun _ => mkRule (fun i => if (i =? 0)%nat then - / sqrt 3 else / sqrt 3) (fun _ => 1)). eexists. split; [|reflexivity].
  assert (S : 1 < sqrt 3) by (rewrite <- sqrt_1; apply sqrt_lt_1; lra).
  assert (0 < / sqrt 3 < 1). { split. apply Rinv_0_lt_compat. lra. rewrite <- Rinv_1. apply Rinv_lt_contravar; lra. }
  intros [|i] _; cbn; lra.
Qed.
Example C83_trapezoidal_ex : exists lat, precompute_latitudes (fun _ => mkRule (fun _ => 0) (fun _ => 1)) 4 GTrapezoidal = Some lat.
Proof. eexists. reflexivity. Qed.
