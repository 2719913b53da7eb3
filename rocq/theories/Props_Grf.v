(** C47: Gaussian random fields. *)
From Coq Require Import List Arith Lia Bool Reals Lra.
From Coquelicot Require Import Coquelicot.
From Verif Require Import TensorModel TensorProofs BigSum FFTModel TruncModel LegendreModel LegSpec QuadModel QuadSpec
  SHTModel SHTSpec SHTRoundSpec GrfModel GrfSpec GrfProofs GrfProofs2 GrfProofs3 GrfProofs4.
Import ListNotations.
Local Open Scope R_scope.

(** the constructor fails exactly for alpha <= 1 without a sigma, or where InverseRealSHT fails *)
Theorem C47_constructor_decides : forall gl nlat alpha tau sigma radius g,
  grf_init gl nlat alpha tau sigma radius g = None <->
  (sigma = None /\ alpha <= 1) \/ inverse_sht_init gl nlat (2 * nlat) None None g FourPi true = None.
Proof. exact init_decides. Qed.
Theorem C47_default_sigma : forall alpha tau sigma s, grf_sigma alpha tau sigma = Some s -> default_sigma alpha tau sigma s.
Proof. exact sigma_spec. Qed.
Theorem C47_equiangular_constructs : forall gl nlat alpha tau sigma radius s, (2 <= nlat)%nat -> grf_sigma alpha tau sigma = Some s ->
  exists f, grf_init gl nlat alpha tau sigma radius GEquiangular = Some f /\ s_lmax (g_isht f) = ((nlat + 1) / 2)%nat /\ s_mmax (g_isht f) = ((nlat + 1) / 2)%nat.
Proof. exact equiangular_init. Qed.

(** noise of shape (N, lmax, mmax) gives fields of shape (N, nlat, 2 nlat) *)
Theorem C47_shape : forall gl nlat alpha tau sigma radius g f N xi, grf_init gl nlat alpha tau sigma radius g = Some f ->
  shp xi = grf_noise_shape f N -> exists u, grf_forward f xi = Some u /\ shp u = [N; nlat; 2 * nlat]%nat.
Proof.
  intros gl nlat alpha tau sigma radius g f N xi E Sx. destruct (forward_value _ _ _ _ _ _ _ _ E [N] xi ltac:(cbn; lia) Sx) as (s & q & u & _ & _ & Eu & Su & _). eauto.
Qed.
Theorem C47_linear : forall gl nlat alpha tau sigma radius g f lead a b x y u v, grf_init gl nlat alpha tau sigma radius g = Some f ->
  (1 <= length lead)%nat -> shp x = lead ++ [s_lmax (g_isht f); s_mmax (g_isht f)] -> shp y = shp x ->
  grf_forward f x = Some u -> grf_forward f y = Some v -> exists z, grf_forward f (lin_c a b x y) = Some z /\ teq z (lin_r a b u v).
Proof. intros gl nlat alpha tau sigma radius g f lead a b x y u v E. exact (forward_linear _ _ _ _ _ _ _ _ E lead a b x y u v). Qed.
(** the noise of degree zero and the noise of orders above the degree have no effect *)
Theorem C47_unexcited_modes : forall gl nlat alpha tau sigma radius g f lead x y u, grf_init gl nlat alpha tau sigma radius g = Some f ->
  (1 <= length lead)%nat -> shp x = lead ++ [s_lmax (g_isht f); s_mmax (g_isht f)] -> shp y = shp x ->
  (forall I l m, valid lead I -> (1 <= l < s_lmax (g_isht f))%nat -> (m <= l)%nat -> val x (I ++ [l; m]) = val y (I ++ [l; m])) ->
  grf_forward f x = Some u -> exists v, grf_forward f y = Some v /\ teq v u.
Proof. intros gl nlat alpha tau sigma radius g f lead x y u E. exact (forward_modes _ _ _ _ _ _ _ _ E lead x y u). Qed.
(** what RealSHT finds in a sample, under every convention: the noise times the root of the
    documented spectrum, over sqrt(4 pi) times the factor of the convention *)
Theorem C47_coefficients : forall gl nlat alpha tau sigma radius g f q s, grf_init gl nlat alpha tau sigma radius g = Some f ->
  sht_rule gl nlat g = Some q -> grf_sigma alpha tau sigma = Some s -> good_rule nlat q (2 * (s_lmax (g_isht f) - 1)) ->
  forall nm cs lead xi, (1 <= length lead)%nat -> shp xi = lead ++ [s_lmax (g_isht f); s_mmax (g_isht f)] ->
  exists S u z, real_sht_init gl nlat (2 * nlat) None None g nm cs = Some S /\ grf_forward f xi = Some u /\ real_sht S u = Some z /\ shp z = shp xi /\
  forall I l m, valid lead I -> (l < s_lmax (g_isht f))%nat -> (m < s_mmax (g_isht f))%nat ->
    val z (I ++ [l; m]%nat) = Cmult (RtoC (norm_spec nm false l / sqrt (4 * PI) * phase_spec (negb cs) m * amp alpha tau s radius l m))
      (Re (val xi (I ++ [l; m]%nat)), if (m =? 0)%nat then 0 else Im (val xi (I ++ [l; m]%nat))).
Proof. exact coefficients. Qed.
Theorem C47_coefficients_equiangular : forall gl nlat alpha tau sigma radius f s, (2 <= nlat)%nat ->
  grf_init gl nlat alpha tau sigma radius GEquiangular = Some f -> grf_sigma alpha tau sigma = Some s ->
  forall nm cs lead xi, (1 <= length lead)%nat -> shp xi = lead ++ [s_lmax (g_isht f); s_mmax (g_isht f)] ->
  exists S u z, real_sht_init gl nlat (2 * nlat) None None GEquiangular nm cs = Some S /\ grf_forward f xi = Some u /\ real_sht S u = Some z /\ shp z = shp xi /\
  forall I l m, valid lead I -> (l < s_lmax (g_isht f))%nat -> (m < s_mmax (g_isht f))%nat ->
    val z (I ++ [l; m]%nat) = Cmult (RtoC (norm_spec nm false l / sqrt (4 * PI) * phase_spec (negb cs) m * amp alpha tau s radius l m))
      (Re (val xi (I ++ [l; m]%nat)), if (m =? 0)%nat then 0 else Im (val xi (I ++ [l; m]%nat))).
Proof. exact eq_coefficients. Qed.
(** the amplitudes: the documented spectrum, strictly decreasing with the degree *)
Theorem C47_amplitude_squared : forall alpha tau s radius l m, 0 < tau -> (1 <= l)%nat -> (m <= l)%nat -> amp alpha tau s radius l m ^ 2 = matern s tau radius alpha l.
Proof. exact amp_sq. Qed.
Theorem C47_amplitude_decreasing : forall alpha tau s radius l l' m, 0 < tau -> radius <> 0 -> 0 < alpha -> 0 < s -> (1 <= l < l')%nat -> (m <= l)%nat ->
  0 < amp alpha tau s radius l' m < amp alpha tau s radius l m.
Proof. exact amp_decreasing. Qed.
(** every sample integrates to zero *)
Theorem C47_zero_mean : forall gl nlat alpha tau sigma radius g f q, grf_init gl nlat alpha tau sigma radius g = Some f ->
  quadrature_s2_rule gl nlat g = Some q -> good_rule nlat q (s_lmax (g_isht f) - 1) ->
  forall N K nz xi u, shp xi = [N; s_lmax (g_isht f); s_mmax (g_isht f)] -> grf_forward f xi = Some u ->
  exists v, quadrature_s2 gl nlat (2 * nlat) g nz u = Some v /\ ((K < N)%nat -> val v [0; K]%nat = 0).
Proof. exact zero_integral. Qed.
Theorem C47_zero_mean_equiangular : forall gl nlat alpha tau sigma radius f, (2 <= nlat)%nat ->
  grf_init gl nlat alpha tau sigma radius GEquiangular = Some f ->
  forall N K nz xi u, shp xi = [N; s_lmax (g_isht f); s_mmax (g_isht f)] -> grf_forward f xi = Some u ->
  exists v, quadrature_s2 gl nlat (2 * nlat) GEquiangular nz u = Some v /\ ((K < N)%nat -> val v [0; K]%nat = 0).
Proof. exact eq_zero. Qed.
(** rotating the noise in phase rolls the sample in longitude *)
Theorem C47_rotation : forall gl nlat alpha tau sigma radius g f lead r xi u, grf_init gl nlat alpha tau sigma radius g = Some f ->
  (1 <= length lead)%nat -> shp xi = lead ++ [s_lmax (g_isht f); s_mmax (g_isht f)] -> grf_forward f xi = Some u ->
  exists v, grf_forward f (phase_last (2 * nlat) r xi) = Some v /\ teq v (roll_last r u).
Proof. intros gl nlat alpha tau sigma radius g f lead r xi u E. exact (rotation _ _ _ _ _ _ _ _ E lead r xi u). Qed.
(** the variance at every pixel: constant along a circle of latitude ... *)
Theorem C47_variance : forall gl nlat alpha tau sigma radius g f lat s, grf_init gl nlat alpha tau sigma radius g = Some f ->
  precompute_latitudes gl nlat g = Some lat -> grf_sigma alpha tau sigma = Some s -> 0 < tau ->
  forall k j, (k < nlat)%nat -> (j < 2 * nlat)%nat ->
  variance f (s_lmax (g_isht f)) (s_mmax (g_isht f)) k j =
  rsum (s_lmax (g_isht f)) (fun l => if (l =? 0)%nat then 0 else matern s tau radius alpha l / (4 * PI) * ((2 * INR l + 1) / (4 * PI) * (2 - legendre l (cos (rn lat k)) ^ 2))).
Proof. exact variance_value. Qed.
(** ... but the field is not isotropic: on the default grid it varies least at the pole *)
Theorem C47_isotropy_refuted : forall gl nlat alpha tau sigma radius f s, (2 <= nlat)%nat ->
  grf_init gl nlat alpha tau sigma radius GEquiangular = Some f -> grf_sigma alpha tau sigma = Some s ->
  0 < tau -> s <> 0 -> (3 <= nlat)%nat -> forall k j j0, (0 < k < nlat - 1)%nat -> (j < 2 * nlat)%nat -> (j0 < 2 * nlat)%nat ->
  variance f (s_lmax (g_isht f)) (s_mmax (g_isht f)) 0 j0 < variance f (s_lmax (g_isht f)) (s_mmax (g_isht f)) k j.
Proof. exact anisotropic. Qed.
(** and its orthonormal spectrum is not the documented one but 1/(4 pi) of it *)
Theorem C47_orthonormal_spectrum_refuted : forall gl nlat alpha tau sigma radius f s, (2 <= nlat)%nat ->
  grf_init gl nlat alpha tau sigma radius GEquiangular = Some f -> grf_sigma alpha tau sigma = Some s -> 0 < tau ->
  forall l0, (1 <= l0 < s_lmax (g_isht f))%nat ->
  exists S u z, real_sht_init gl nlat (2 * nlat) None None GEquiangular Ortho true = Some S /\
    grf_forward f (unit_noise [1; s_lmax (g_isht f); s_mmax (g_isht f)]%nat (RtoC 1) l0 0) = Some u /\ real_sht S u = Some z /\
    Cmod (val z [0; l0; 0]%nat) ^ 2 = matern s tau radius alpha l0 / (4 * PI).
Proof. exact power. Qed.

Example C47_ex : forall gl, exists f s, grf_init gl 5 2 3 None 1 GEquiangular = Some f /\ grf_sigma 2 3 None = Some s /\ s_lmax (g_isht f) = 3%nat /\ s <> 0 /\
  forall j j0, (j < 10)%nat -> (j0 < 10)%nat -> variance f 3 3 0 j0 < variance f 3 3 2 j.
Proof.
  intros gl. assert (Es : grf_sigma 2 3 None = Some (Rpower 3 (0.5 * (2 * 2 - 2.0)))). { unfold grf_sigma. destruct (Rle_dec 2 1); [lra|reflexivity]. }
  destruct (C47_equiangular_constructs gl 5 2 3 None 1 _ ltac:(lia) Es) as (f & E & L & M). change ((5 + 1) / 2)%nat with 3%nat in *.
  assert (Hs : Rpower 3 (0.5 * (2 * 2 - 2.0)) <> 0) by (unfold Rpower; apply Rgt_not_eq, exp_pos).
  exists f, (Rpower 3 (0.5 * (2 * 2 - 2.0))). repeat split; auto. intros j j0 Hj Hj0.
  pose proof (C47_isotropy_refuted gl 5 2 3 None 1 f _ ltac:(lia) E Es ltac:(lra) Hs ltac:(lia) 2 j j0 ltac:(lia) Hj Hj0) as H. rewrite L, M in H. exact H.
Qed.
Example C47_ex_rejects : forall gl nlat tau radius g, grf_init gl nlat 1 tau None radius g = None.
Proof. intros. apply C47_constructor_decides. left. split; [reflexivity|lra]. Qed.

Print Assumptions C47_constructor_decides.
Print Assumptions C47_default_sigma.
Print Assumptions C47_equiangular_constructs.
Print Assumptions C47_shape.
Print Assumptions C47_linear.
Print Assumptions C47_unexcited_modes.
Print Assumptions C47_coefficients.
Print Assumptions C47_coefficients_equiangular.
Print Assumptions C47_amplitude_squared.
Print Assumptions C47_amplitude_decreasing.
Print Assumptions C47_zero_mean.
Print Assumptions C47_zero_mean_equiangular.
Print Assumptions C47_rotation.
Print Assumptions C47_variance.
Print Assumptions C47_isotropy_refuted.
Print Assumptions C47_orthonormal_spectrum_refuted.
