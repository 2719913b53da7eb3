(** C50: the spectral solvers of the examples. *)
From Coq Require Import List Arith Lia Bool Reals ZArith Lra.
From Coquelicot Require Import Coquelicot.
From Verif Require Import TensorModel TensorProofs BigSum FFTModel TruncModel LegendreModel QuadModel QuadSpec SHTModel SHTSpec SHTRoundSpec TruncSpec
  SolverModel SolverSpec SolverProofs SolverProofs2 SolverProofs3 SolverProofs4.
Import ListNotations.
Local Open Scope R_scope.

(** ** ShallowWaterSolver *)
(** the constructor builds exactly where the transforms do *)
Theorem C50_constructs : forall gl nlat nlon dt lmax mmax g radius omega gravity havg hamp,
  (exists s, swe_init gl nlat nlon dt lmax mmax g radius omega gravity havg hamp = Some s) <->
  radius <> 0 /\ (exists q, sht_rule gl nlat g = Some q) /\ (exists t, truncate_sht nlat nlon lmax mmax g = Some t).
Proof. exact swe_constructs. Qed.
(** lap is the Laplace operator and invlap inverts it on all degrees >= 1 *)
Theorem C50_laplacian : forall gl nlat nlon dt lmax mmax g radius omega gravity havg hamp s, swe_init gl nlat nlon dt lmax mmax g radius omega gravity havg hamp = Some s ->
  forall l m, val (w_lap s) [l; m] = laplace radius l /\ val (w_lap s) [l; m] * val (w_invlap s) [l; m] = (if (l =? 0)%nat then 0 else 1) /\ val (w_invlap s) [0%nat; m] = 0.
Proof. exact operators. Qed.
(** the Coriolis parameter is 2 omega cos(colatitude) in every row *)
Theorem C50_coriolis : forall gl nlat nlon dt lmax mmax g radius omega gravity havg hamp s, swe_init gl nlat nlon dt lmax mmax g radius omega gravity havg hamp = Some s ->
  forall q lat k, sht_rule gl nlat g = Some q -> precompute_latitudes gl nlat g = Some lat -> symmetric_rule nlat q (-1) 1 -> (forall i, (i < nlat)%nat -> -1 <= rn q i <= 1) -> (k < nlat)%nat ->
  val (w_coriolis s) [k; 0%nat] = 2 * omega * cos (rn lat k).
Proof. exact coriolis_lat. Qed.
Theorem C50_coriolis_equiangular : forall gl nlat nlon dt lmax mmax radius omega gravity havg hamp s, swe_init gl nlat nlon dt lmax mmax GEquiangular radius omega gravity havg hamp = Some s -> (2 <= nlat)%nat ->
  forall lat k, precompute_latitudes gl nlat GEquiangular = Some lat -> (k < nlat)%nat -> val (w_coriolis s) [k; 0%nat] = 2 * omega * cos (rn lat k).
Proof.
  intros gl nlat nlon dt lmax mmax radius omega gravity havg hamp s E Hn lat k El Hk. destruct (QuadProofs.cc_model nlat (-1) 1 Hn) as (q & Eq & _).
  eapply coriolis_lat; eauto. exact (cc_symmetric nlat q Hn Eq). apply (SHTBandProofs.cc_good nlat q Hn Eq).
Qed.
(** for every number of steps: the state after k steps follows from the state before and the
    last three tendencies, all of them tendencies of the states of the same run *)
Theorem C50_trajectory : forall gl nlat nlon dt lmax mmax g radius omega gravity havg hamp s, swe_init gl nlat nlon dt lmax mmax g radius omega gravity havg hamp = Some s -> (1 <= nlon)%nat ->
  forall u, (2 <= w_lmax s)%nat -> shp u = [3%nat; w_lmax s; w_mmax s] -> exists U D : nat -> tensor C, U 0%nat = u /\
  forall k, timestep s u k = Some (U k) /\ shp (U k) = [3%nat; w_lmax s; w_mmax s] /\ dudtspec s (U k) = Some (D k) /\
  forall c l m, (c < 3)%nat -> (l < w_lmax s)%nat -> (m < w_mmax s)%nat ->
    val (U (S k)) [c; l; m] = damp dt (w_lmax s) c l (Cplus (val (U k) [c; l; m]) (times dt (increment k (fun j => val (D j) [c; l; m])))).
Proof. exact trajectory. Qed.
(** the increment from the third step on integrates quadratics exactly ... *)
Theorem C50_third_order : forall a b c, let p := fun t => a + b * t + c * t ^ 2 in is_RInt p 2 3 (23 / 12 * p 2 - 16 / 12 * p 1 + 5 / 12 * p 0).
Proof. exact ab3_quadratic. Qed.
Theorem C50_third_order_increment : forall k (D : nat -> R), increment (S (S k)) (fun j => RtoC (D j)) = RtoC (23 / 12 * D (S (S k)) - 16 / 12 * D (S k) + 5 / 12 * D k).
Proof. intros. cbn [increment]. unfold adams_bashforth_3, times. rewrite <- !RtoC_mult, <- !RtoC_plus. f_equal. field. Qed.
(** ... the second step is not the second-order formula the comment in the source names: exact
    for constant tendencies only *)
Theorem C50_second_step_consistent : forall z, increment 1 (fun _ => z) = z.
Proof.
  intros z. cbn [increment]. unfold times. replace (RtoC (28 / 12)) with (Cplus (RtoC 1) (RtoC (16 / 12))). replace (RtoC (- 16 / 12)) with (Copp (RtoC (16 / 12))). ring.
  rewrite <- RtoC_opp. f_equal. field. rewrite <- RtoC_plus. f_equal. field.
Qed.
Theorem C50_second_step_order_refuted : ~ (forall D : nat -> R, increment 1 (fun j => RtoC (D j)) = RtoC (3 / 2 * D 1%nat - 1 / 2 * D 0%nat)).
Proof.
  intros H. specialize (H (fun j => INR j)). cbn [increment INR] in H. unfold times in H. rewrite <- !RtoC_mult, <- RtoC_plus in H. apply RtoC_inj in H. lra.
Qed.
(** the damping lies between exp(-dt/2h) at the highest degree and 1 at degree 0 *)
Theorem C50_damping : forall dt L l, 0 <= dt -> (2 <= L)%nat -> (l < L)%nat ->
  exp (- (dt / 7200)) <= damping dt L l <= 1 /\ damping dt L (L - 1) = exp (- (dt / 7200)) /\ damping dt L 0 = 1.
Proof. exact damping_range. Qed.
(** with one degree only the damping is 0/0 and every run of at least one step is lost, although
    the constructor accepts: so on two equiangular latitudes *)
Theorem C50_single_degree_refuted : forall gl nlon dt radius omega gravity havg hamp, radius <> 0 ->
  exists s, swe_init gl 2 nlon dt None None GEquiangular radius omega gravity havg hamp = Some s /\ forall u n, timestep s u (S n) = None.
Proof.
  intros gl nlon dt radius omega gravity havg hamp Hr. destruct (equi_constructs gl 2 nlon dt radius omega gravity havg hamp ltac:(lia) Hr) as (s & E & HL & _). exists s. split; auto. intros.
  eapply one_degree; eauto. rewrite HL. change ((2 + 1) / 2)%nat with 1%nat. lia.
Qed.
(** coefficients of degree 0 of geopotential, vorticity and divergence never change ... *)
Theorem C50_means : forall gl nlat nlon dt lmax mmax g radius omega gravity havg hamp s, swe_init gl nlat nlon dt lmax mmax g radius omega gravity havg hamp = Some s -> (1 <= nlon)%nat ->
  forall u n v c m, (2 <= w_lmax s)%nat -> shp u = [3%nat; w_lmax s; w_mmax s] -> timestep s u n = Some v -> (c < 3)%nat -> (m < w_mmax s)%nat ->
  val v [c; 0; m]%nat = val u [c; 0; m]%nat.
Proof. exact means. Qed.
(** ... nor do their integrals over the sphere as integrate_grid computes them *)
Theorem C50_integrals : forall gl nlat nlon dt lmax mmax g radius omega gravity havg hamp s, swe_init gl nlat nlon dt lmax mmax g radius omega gravity havg hamp = Some s -> (1 <= nlon)%nat ->
  forall q u n v dl, sht_rule gl nlat g = Some q -> good_rule nlat q (w_lmax s - 1) -> (2 <= w_lmax s)%nat -> shp u = [3%nat; w_lmax s; w_mmax s] -> timestep s u n = Some v ->
  exists f y f' y', spec2grid s u = Some f /\ integrate_grid s f dl 0 = Some y /\ spec2grid s v = Some f' /\ integrate_grid s f' dl 0 = Some y' /\ teq y' y.
Proof. exact totals. Qed.
Theorem C50_integrals_equiangular : forall gl nlat nlon dt lmax mmax radius omega gravity havg hamp s, swe_init gl nlat nlon dt lmax mmax GEquiangular radius omega gravity havg hamp = Some s -> (1 <= nlon)%nat -> (2 <= nlat)%nat -> unset lmax ->
  forall u n v dl, (2 <= w_lmax s)%nat -> shp u = [3%nat; w_lmax s; w_mmax s] -> timestep s u n = Some v ->
  exists f y f' y', spec2grid s u = Some f /\ integrate_grid s f dl 0 = Some y /\ spec2grid s v = Some f' /\ integrate_grid s f' dl 0 = Some y' /\ teq y' y.
Proof. intros. destruct (equi_rule _ _ _ _ _ _ _ _ _ _ _ _ H H1 H2) as (q & Eq & _ & G). eapply totals; eauto. Qed.
Theorem C50_integrals_gauss : forall gl nlat nlon dt lmax mmax radius omega gravity havg hamp s, swe_init gl nlat nlon dt lmax mmax GLegendreGauss radius omega gravity havg hamp = Some s -> (1 <= nlon)%nat -> (1 <= nlat)%nat ->
  good_rule nlat (gl nlat) (2 * nlat - 1) -> unset lmax ->
  forall u n v dl, (2 <= w_lmax s)%nat -> shp u = [3%nat; w_lmax s; w_mmax s] -> timestep s u n = Some v ->
  exists f y f' y', spec2grid s u = Some f /\ integrate_grid s f dl 0 = Some y /\ spec2grid s v = Some f' /\ integrate_grid s f' dl 0 = Some y' /\ teq y' y.
Proof. intros. destruct (gauss_rule _ _ _ _ _ _ _ _ _ _ _ _ H H1 H2 H3) as (q & Eq & _ & G). eapply totals; eauto. Qed.
(** what integrate_grid computes, and for synthesised fields *)
Theorem C50_integrate_grid : forall gl nlat nlon dt lmax mmax g radius omega gravity havg hamp s, swe_init gl nlat nlon dt lmax mmax g radius omega gravity havg hamp = Some s -> (1 <= nlon)%nat ->
  forall q x n dl, sht_rule gl nlat g = Some q -> shp x = [n; nlat; nlon] -> exists y, integrate_grid s x dl 0 = Some y /\ shp y = [n] /\
  forall c, (c < n)%nat -> val y [c] = grid_integral (if dl then 1 else radius) nlat nlon (rw q) (fun k j => val x [c; k; j]).
Proof. exact grid_total. Qed.
Theorem C50_integrate_spectrum : forall gl nlat nlon dt lmax mmax g radius omega gravity havg hamp s, swe_init gl nlat nlon dt lmax mmax g radius omega gravity havg hamp = Some s -> (1 <= nlon)%nat ->
  forall q u dl, sht_rule gl nlat g = Some q -> good_rule nlat q (w_lmax s - 1) -> (1 <= w_lmax s)%nat -> forall n, shp u = [n; w_lmax s; w_mmax s] ->
  exists f y, spec2grid s u = Some f /\ integrate_grid s f dl 0 = Some y /\ shp y = [n] /\
  forall c, (c < n)%nat -> val y [c] = (if dl then 1 else radius) ^ 2 * sqrt (4 * PI) * Re (val u [c; 0; 0]%nat).
Proof. exact total_field. Qed.
(** rotating the initial state about the axis rotates the whole run *)
Theorem C50_rotation : forall gl nlat nlon dt lmax mmax g radius omega gravity havg hamp s, swe_init gl nlat nlon dt lmax mmax g radius omega gravity havg hamp = Some s -> (1 <= nlon)%nat ->
  forall sh u n v, (2 <= w_lmax s)%nat -> shp u = [3%nat; w_lmax s; w_mmax s] -> timestep s u n = Some v ->
  exists v', timestep s (phase_last nlon sh u) n = Some v' /\ teq v' (phase_last nlon sh v).
Proof. exact rotation. Qed.
(** states symmetric about the axis, and triangular coefficients, stay so *)
Theorem C50_zonal : forall gl nlat nlon dt lmax mmax g radius omega gravity havg hamp s, swe_init gl nlat nlon dt lmax mmax g radius omega gravity havg hamp = Some s -> (1 <= nlon)%nat ->
  forall u n v, (2 <= w_lmax s)%nat -> shp u = [3%nat; w_lmax s; w_mmax s] -> timestep s u n = Some v ->
  (forall c l m, (c < 3)%nat -> (l < w_lmax s)%nat -> (1 <= m < w_mmax s)%nat -> val u [c; l; m] = RtoC 0) ->
  forall c l m, (c < 3)%nat -> (l < w_lmax s)%nat -> (1 <= m < w_mmax s)%nat -> val v [c; l; m] = RtoC 0.
Proof. exact zonal_stays. Qed.
Theorem C50_triangular : forall gl nlat nlon dt lmax mmax g radius omega gravity havg hamp s, swe_init gl nlat nlon dt lmax mmax g radius omega gravity havg hamp = Some s -> (1 <= nlon)%nat ->
  forall u n v, (2 <= w_lmax s)%nat -> shp u = [3%nat; w_lmax s; w_mmax s] -> timestep s u n = Some v -> teq (tril u) u -> teq (tril v) v.
Proof. exact triangular_stays. Qed.
(** the state of rest is steady *)
Theorem C50_rest : forall gl nlat nlon dt lmax mmax g radius omega gravity havg hamp s, swe_init gl nlat nlon dt lmax mmax g radius omega gravity havg hamp = Some s -> (1 <= nlon)%nat ->
  forall q u n v, sht_rule gl nlat g = Some q -> good_rule nlat q (w_lmax s - 1) -> (2 <= w_lmax s)%nat -> shp u = [3%nat; w_lmax s; w_mmax s] -> timestep s u n = Some v ->
  (forall c l m, (c < 3)%nat -> (l < w_lmax s)%nat -> (m < w_mmax s)%nat -> (1 <= c + l + m)%nat -> val u [c; l; m] = RtoC 0) -> teq v u.
Proof. exact rest_stays. Qed.
Theorem C50_rest_equiangular : forall gl nlat nlon dt lmax mmax radius omega gravity havg hamp s, swe_init gl nlat nlon dt lmax mmax GEquiangular radius omega gravity havg hamp = Some s -> (1 <= nlon)%nat -> (2 <= nlat)%nat -> unset lmax ->
  forall u n v, (2 <= w_lmax s)%nat -> shp u = [3%nat; w_lmax s; w_mmax s] -> timestep s u n = Some v ->
  (forall c l m, (c < 3)%nat -> (l < w_lmax s)%nat -> (m < w_mmax s)%nat -> (1 <= c + l + m)%nat -> val u [c; l; m] = RtoC 0) -> teq v u.
Proof. intros. destruct (equi_rule _ _ _ _ _ _ _ _ _ _ _ _ H H1 H2) as (q & Eq & _ & G). eapply rest_stays; eauto. Qed.
(** zonal flow without divergence changes neither geopotential nor vorticity *)
Theorem C50_zonal_flow : forall gl nlat nlon dt lmax mmax g radius omega gravity havg hamp s, swe_init gl nlat nlon dt lmax mmax g radius omega gravity havg hamp = Some s -> (1 <= nlon)%nat ->
  forall u, (1 <= w_lmax s)%nat -> shp u = [3%nat; w_lmax s; w_mmax s] ->
  (forall c l m, (c < 3)%nat -> (l < w_lmax s)%nat -> (1 <= m < w_mmax s)%nat -> val u [c; l; m] = RtoC 0) -> (forall l m, (l < w_lmax s)%nat -> (m < w_mmax s)%nat -> val u [2%nat; l; m] = RtoC 0) ->
  exists D, dudtspec s u = Some D /\ forall c l m, (c < 2)%nat -> (l < w_lmax s)%nat -> (m < w_mmax s)%nat -> val D [c; l; m] = RtoC 0.
Proof. exact zonal_flow_tend. Qed.
(** vorticity and divergence of the wind built from a vorticity and a divergence are these *)
Theorem C50_wind : forall gl nlat nlon dt lmax mmax g radius omega gravity havg hamp s, swe_init gl nlat nlon dt lmax mmax g radius omega gravity havg hamp = Some s -> (1 <= nlon)%nat ->
  forall q v, sht_rule gl nlat g = Some q -> good_rule nlat q (2 * (w_lmax s - 1)) -> (2 <= w_lmax s)%nat -> shp v = [2%nat; w_lmax s; w_mmax s] ->
  (forall d l m, (d < 2)%nat -> (l < w_lmax s)%nat -> (m < w_mmax s)%nat -> (2 * m)%nat = nlon -> val v [d; l; m] = RtoC 0) ->
  exists f z, getuv s v = Some f /\ shp f = [2%nat; nlat; nlon] /\ vrtdivspec s f = Some z /\ teq z (vrepresentable nlon v).
Proof. exact winds. Qed.

(** ** SphereSolver *)
Theorem C50_pde_unknown : forall s u, pde_dudt s PdeOther u = None.
Proof. reflexivity. Qed.
(** spatially constant states follow the reaction equation: a' = a - a^3, so that 0, 1 and -1 are steady *)
Theorem C50_allen_cahn_constant : forall gl nlat nlon lmax mmax g radius coeff s q a u, pde_init gl nlat nlon lmax mmax g radius coeff = Some s -> sht_rule gl nlat g = Some q -> good_rule nlat q (p_lmax s - 1) ->
  (1 <= nlon)%nat -> (1 <= p_lmax s)%nat -> shp u = [p_lmax s; p_mmax s] ->
  (forall l m, (l < p_lmax s)%nat -> (m < p_mmax s)%nat -> val u [l; m] = if ((l =? 0) && (m =? 0))%nat%bool then RtoC (a * sqrt (4 * PI)) else RtoC 0) ->
  exists D, pde_dudt s AllenCahn u = Some D /\ shp D = [p_lmax s; p_mmax s] /\
  forall l m, (l < p_lmax s)%nat -> (m < p_mmax s)%nat -> val D [l; m] = if ((l =? 0) && (m =? 0))%nat%bool then RtoC ((a - a ^ 3) * sqrt (4 * PI)) else RtoC 0.
Proof.
  intros gl nlat nlon lmax mmax g radius coeff s q a u E Eq G Hn HL Su Hu. destruct (pde_init_inv _ _ _ _ _ _ _ _ _ E) as (q' & B & Ea & Eb & _).
  assert (q' = q). { pose proof (pb_rule _ _ _ _ _ _ B). rewrite Ea in H. congruence. } subst q'. assert (Hw : (1 <= p_nlon s)%nat) by congruence.
  pose proof (trunc_square _ _ _ _ _ _ _ (pb_trunc _ _ _ _ _ _ B)) as LM.
  destruct (pde_value s gl g lmax mmax q B Hw AllenCahn u ltac:(discriminate) Su) as (D & ED & SD & VD). exists D. repeat split; auto. intros l m Hl Hm. rewrite VD by auto.
  rewrite (ptend_const s q Hw AllenCahn _ a); auto. discriminate. lia. now rewrite Ea.
Qed.
(** rotation about the axis and change of sign *)
Theorem C50_pde_rotation : forall gl nlat nlon lmax mmax g radius coeff s ty sh u D, pde_init gl nlat nlon lmax mmax g radius coeff = Some s -> (1 <= nlon)%nat -> shp u = [p_lmax s; p_mmax s] ->
  pde_dudt s ty u = Some D -> exists D', pde_dudt s ty (phase_last nlon sh u) = Some D' /\ shp D' = [p_lmax s; p_mmax s] /\
  forall l m, (l < p_lmax s)%nat -> (m < p_mmax s)%nat -> val D' [l; m] = val (phase_last nlon sh D) [l; m].
Proof.
  intros gl nlat nlon lmax mmax g radius coeff s ty sh u D E Hn Su ED. destruct (pde_init_inv _ _ _ _ _ _ _ _ _ E) as (q & B & Ea & Eb & _). assert (Hw : (1 <= p_nlon s)%nat) by congruence.
  assert (N : ty <> PdeOther) by (intros ->; discriminate).
  destruct (pde_value s gl g lmax mmax q B Hw ty u N Su) as (D1 & E1 & S1 & V1). assert (D1 = D) by congruence. subst D1.
  destruct (pde_value s gl g lmax mmax q B Hw ty (phase_last nlon sh u) N Su) as (D2 & E2 & S2 & V2). exists D2. repeat split; auto. intros l m Hl Hm. rewrite V2 by auto.
  unfold phase_last at 2. cbn [val]. unfold ndim. rewrite S1. cbn [length Nat.sub nth]. rewrite V1 by auto. rewrite <- Eb, <- (ptend_turn s q Hw). apply ptend_ext; auto.
  intros l' m' Hl' Hm'. unfold pcoef, phase_last. cbn [val]. unfold ndim. rewrite Su. reflexivity.
Qed.
Theorem C50_pde_odd : forall gl nlat nlon lmax mmax g radius coeff s ty u D, pde_init gl nlat nlon lmax mmax g radius coeff = Some s -> (1 <= nlon)%nat -> shp u = [p_lmax s; p_mmax s] ->
  pde_dudt s ty u = Some D -> exists D', pde_dudt s ty (map_t Copp u) = Some D' /\ shp D' = [p_lmax s; p_mmax s] /\
  forall l m, (l < p_lmax s)%nat -> (m < p_mmax s)%nat -> val D' [l; m] = Copp (val D [l; m]).
Proof.
  intros gl nlat nlon lmax mmax g radius coeff s ty u D E Hn Su ED. destruct (pde_init_inv _ _ _ _ _ _ _ _ _ E) as (q & B & Ea & Eb & _). assert (Hw : (1 <= p_nlon s)%nat) by congruence.
  assert (N : ty <> PdeOther) by (intros ->; discriminate).
  destruct (pde_value s gl g lmax mmax q B Hw ty u N Su) as (D1 & E1 & S1 & V1). assert (D1 = D) by congruence. subst D1.
  destruct (pde_value s gl g lmax mmax q B Hw ty (map_t Copp u) N Su) as (D2 & E2 & S2 & V2). exists D2. repeat split; auto. intros l m Hl Hm. rewrite V2, V1 by auto.
  rewrite <- (ptend_odd s q). apply ptend_ext; auto.
Qed.
(** "ginzburg-landau" leaves the coefficients of real fields: a constant state gets an imaginary
    mean, which the inverse transform drops *)
Theorem C50_ginzburg_landau_real_refuted : forall gl nlat nlon lmax mmax g radius coeff s q u, pde_init gl nlat nlon lmax mmax g radius coeff = Some s -> sht_rule gl nlat g = Some q -> good_rule nlat q (p_lmax s - 1) ->
  (1 <= nlon)%nat -> (1 <= p_lmax s)%nat -> shp u = [p_lmax s; p_mmax s] ->
  (forall l m, (l < p_lmax s)%nat -> (m < p_mmax s)%nat -> val u [l; m] = if ((l =? 0) && (m =? 0))%nat%bool then RtoC (1 * sqrt (4 * PI)) else RtoC 0) ->
  exists D f, pde_dudt s GinzburgLandau u = Some D /\ Im (val D [0; 0]%nat) <> 0 /\
  inverse_sht (p_isht s) D = Some f /\ forall k j, val f [k; j] = 0.
Proof.
  intros gl nlat nlon lmax mmax g radius coeff s q u E Eq G Hn HL Su Hu. destruct (pde_init_inv _ _ _ _ _ _ _ _ _ E) as (q' & B & Ea & Eb & _).
  assert (q' = q). { pose proof (pb_rule _ _ _ _ _ _ B). rewrite Ea in H. congruence. } subst q'. assert (Hw : (1 <= p_nlon s)%nat) by congruence.
  pose proof (trunc_square _ _ _ _ _ _ _ (pb_trunc _ _ _ _ _ _ B)) as LM.
  destruct (pde_value s gl g lmax mmax q B Hw GinzburgLandau u ltac:(discriminate) Su) as (D & ED & SD & VD).
  destruct (SHTValueProofs.inverse_sht_value (mkSHT (p_nlat s) (p_nlon s) (p_lmax s) (p_mmax s) (inverse_sht_pct (p_nlat s) (p_lmax s) (p_mmax s) q Ortho false)) [] D Hw eq_refl SD) as (f & Ef & Sf & Vf).
  assert (V : forall l m, (l < p_lmax s)%nat -> (m < p_mmax s)%nat -> val D [l; m] = if ((l =? 0) && (m =? 0))%nat%bool then ((1 - 1 ^ 3) * sqrt (4 * PI), - 2 * 1 ^ 3 * sqrt (4 * PI)) else RtoC 0).
  { intros l m Hl Hm. rewrite VD by auto. rewrite (ptend_const s q Hw GinzburgLandau _ 1); auto. discriminate. lia. now rewrite Ea. }
  exists D, f. split; auto. split. { rewrite V by lia. cbn [Nat.eqb andb]. unfold Im. cbn [snd]. pose proof SHTMeanProofs.s4. lra. }
  split. { rewrite (pb_isht _ _ _ _ _ _ B). exact Ef. }
  intros k j. pose proof (Vf [] k j eq_refl) as F. cbn [app] in F. rewrite F. cbn [s_weights s_lmax s_mmax s_nlon]. rewrite const_field by (auto; try lia; intros l m Hl Hm P; rewrite V by auto; destruct l; destruct m; cbn [Nat.eqb andb]; auto; lia).
  rewrite V by lia. cbn [Nat.eqb andb]. unfold Re. cbn [fst]. unfold Rdiv. ring.
Qed.

(** a solver, a state and a run meeting all the hypotheses above: 5 x 8 equiangular points, three degrees *)
Example C50_ex : forall gl, exists s q, swe_init gl 5 8 600 None None GEquiangular 6371220 (7292 / 100000000) (980616 / 100000) 10000 120 = Some s /\ w_lmax s = 3%nat /\ w_mmax s = 3%nat /\
  sht_rule gl 5 GEquiangular = Some q /\ good_rule 5 q (2 * (w_lmax s - 1)) /\ good_rule 5 q (w_lmax s - 1) /\
  forall u, shp u = [3; 3; 3]%nat -> forall n, exists v, timestep s u n = Some v.
Proof.
  intros gl. destruct (equi_constructs gl 5 8 600 6371220 (7292 / 100000000) (980616 / 100000) 10000 120 ltac:(lia) ltac:(lra)) as (s & E & HL & HM). change (Nat.min ((5 + 1) / 2) (8 / 2 + 1))%nat with 3%nat in HL.
  assert (U : unset None) by (intros k H; inversion H; subst; discriminate).
  destruct (equi_rule _ _ _ _ _ _ _ _ _ _ _ _ E ltac:(lia) U) as (q & Eq & G1 & G2). exists s, q. repeat (split; [first [assumption|congruence]|]).
  intros u Su n. destruct (trajectory _ _ _ _ _ _ _ _ _ _ _ _ _ E ltac:(lia) u ltac:(lia)) as (U0 & D0 & _ & T). rewrite HL, HM, HL. exact Su. exists (U0 n). apply T.
Qed.
(** ... a state of rest and a zonal flow that are not zero *)
Example C50_ex_states : exists r z : tensor C, shp r = [3; 3; 3]%nat /\ val r [0; 0; 0]%nat = RtoC 1 /\
  (forall c l m, (c < 3)%nat -> (l < 3)%nat -> (m < 3)%nat -> (1 <= c + l + m)%nat -> val r [c; l; m] = RtoC 0) /\
  shp z = [3; 3; 3]%nat /\ val z [1; 1; 0]%nat = RtoC 1 /\ teq (tril z) z /\
  (forall c l m, (c < 3)%nat -> (l < 3)%nat -> (1 <= m < 3)%nat -> val z [c; l; m] = RtoC 0) /\ (forall l m, (l < 3)%nat -> (m < 3)%nat -> val z [2%nat; l; m] = RtoC 0).
Proof.
  exists (mkT [3; 3; 3]%nat (fun i => match i with [0; 0; 0]%nat => RtoC 1 | _ => RtoC 0 end)), (mkT [3; 3; 3]%nat (fun i => match i with [1; 1; 0]%nat => RtoC 1 | _ => RtoC 0 end)).
  split. reflexivity. split. reflexivity. split. { intros c l m Hc Hl Hm H. destruct c; [destruct l; [destruct m; [lia|reflexivity]|reflexivity]|reflexivity]. }
  split. reflexivity. split. reflexivity. split. { apply (teq3 _ 3 3 3); auto. intros c l m Hc Hl Hm. unfold tril. cbn. destruct (Nat.leb_spec m l); auto. destruct c as [|[|]]; auto; destruct l as [|[|]]; auto; destruct m; auto; lia. }
  split. { intros c l m Hc Hl Hm. cbn. destruct m; [lia|]. destruct c as [|[|]]; auto; destruct l as [|[|]]; auto. }
  intros. reflexivity.
Qed.
Print Assumptions C50_integrals_equiangular.
Print Assumptions C50_wind.
Print Assumptions C50_ginzburg_landau_real_refuted.

Print Assumptions C50_constructs.
Print Assumptions C50_laplacian.
Print Assumptions C50_coriolis.
Print Assumptions C50_coriolis_equiangular.
Print Assumptions C50_trajectory.
Print Assumptions C50_third_order.
Print Assumptions C50_third_order_increment.
Print Assumptions C50_second_step_consistent.
Print Assumptions C50_second_step_order_refuted.
Print Assumptions C50_damping.
Print Assumptions C50_single_degree_refuted.
Print Assumptions C50_means.
Print Assumptions C50_integrals.
Print Assumptions C50_integrals_gauss.
Print Assumptions C50_integrate_grid.
Print Assumptions C50_integrate_spectrum.
Print Assumptions C50_rotation.
Print Assumptions C50_zonal.
Print Assumptions C50_triangular.
Print Assumptions C50_rest.
Print Assumptions C50_rest_equiangular.
Print Assumptions C50_zonal_flow.
Print Assumptions C50_pde_unknown.
Print Assumptions C50_allen_cahn_constant.
Print Assumptions C50_pde_rotation.
Print Assumptions C50_pde_odd.
