(** C77: the initial conditions of the shallow-water solver and the PDE dataset. *)
From Coq Require Import List Arith Lia Bool Reals ZArith Lra.
From Coquelicot Require Import Coquelicot.
From Verif Require Import TensorModel TensorProofs BigSum FFTModel TruncModel LegendreModel QuadModel QuadProofs SHTModel SHTSpec SHTRoundSpec SHTValueProofs
  LossModel LossProofs SHTMeanProofs SolverModel SolverSpec SolverProofs SolverProofs2 SolverProofs3 SolverProofs4 PdeDataModel PdeDataSpec PdeDataProofs PdeDataProofs2 PdeDataProofs3.
Import ListNotations.
Local Open Scope R_scope.

(** An item is an initial state and the state of the same run after nsteps steps, together
    the time dt; both are on the grid and in the same units, which the constructor has
    fixed: they are the same for all items and do not follow set_initial_condition. *)
Theorem C77_item : forall gl dt nsteps nlat nlon g ic num normalize noise0 d, pdeset_init gl dt nsteps nlat nlon g ic num normalize noise0 = Some d ->
  INR nsteps * w_dt (e_solver d) = dt /\
  exists mean sd, (normalize = false -> forall c, mean c = 0 /\ sd c = 1) /\ forall ic' noise a b, pdeset_item (set_ic ic' d) noise = Some (a, b) ->
  (forall c, (c < 3)%nat -> 0 < sd c) /\ exists u v f0 f1, initial (e_solver d) ic' noise = Some u /\ timestep (e_solver d) u nsteps = Some v /\
  spec2grid (e_solver d) u = Some f0 /\ spec2grid (e_solver d) v = Some f1 /\
  in_units mean sd (fun c k j => val f0 [c; k; j]) (fun c k j => val a [c; k; j]) nlat nlon /\
  in_units mean sd (fun c k j => val f1 [c; k; j]) (fun c k j => val b [c; k; j]) nlat nlon.
Proof.
  intros gl dt nsteps nlat nlon g ic num normalize noise0 d E. split. exact (pdeset_dt _ _ _ _ _ _ _ _ _ _ _ E). exact (item_units _ _ _ _ _ _ _ _ _ _ _ E).
Qed.
Print Assumptions C77_item.

(** The item whose initial state gave the statistics has mean 0 and variance 1 in every channel. *)
Theorem C77_standardised : forall gl dt nsteps nlat nlon g ic num noise0 d a b, pdeset_init gl dt nsteps nlat nlon g ic num true noise0 = Some d ->
  pdeset_item d noise0 = Some (a, b) -> forall c, (c < 3)%nat -> standardised nlat nlon (fun k j => val a [c; k; j]).
Proof. intros gl dt nsteps nlat nlon g ic num noise0 d a b E Ep. exact (item_standardised _ _ _ _ _ _ _ _ _ _ _ E a b eq_refl Ep). Qed.
Print Assumptions C77_standardised.

(** On at least four latitudes every sample of a known kind exists, of shape (3, nlat, nlon), for all random numbers ... *)
Theorem C77_samples : forall gl dt nsteps nlat nlon g ic num normalize noise0 d, pdeset_init gl dt nsteps nlat nlon g ic num normalize noise0 = Some d ->
  (4 <= nlat)%nat -> (1 <= nlon)%nat -> forall ic' noise, ic' <> ICOther ->
  exists a b, get_sample (e_solver d) nsteps ic' noise = Some (a, b) /\ shp a = [3%nat; nlat; nlon] /\ shp b = [3%nat; nlat; nlon] /\
  (normalize = false -> pdeset_item (set_ic ic' d) noise = Some (a, b)).
Proof.
  intros gl dt nsteps nlat nlon g ic num normalize noise0 d E Hn Hw ic' noise Hi. destruct (sample_total _ _ _ _ _ _ _ _ _ _ _ E ic' noise Hn Hw Hi) as (a & b & G & Sa & Sb).
  exists a, b. split; auto. split; auto. split; auto. intros ->. destruct (pdeset_inv _ _ _ _ _ _ _ _ _ _ _ E) as (_ & En & _ & _ & _ & K).
  unfold pdeset_item. cbn [set_ic e_solver e_nsteps e_ic e_norm]. now rewrite En, G, K.
Qed.
Print Assumptions C77_samples.
(** Finding 50a: ... on two or three latitudes the constructor accepts, and every item is lost, since only
    degree 0 is kept. *)
Theorem C77_small_refuted : forall gl dt nsteps nlat nlon num noise0, (1 <= nsteps)%nat -> (2 <= nlat <= 3)%nat ->
  exists d, pdeset_init gl dt nsteps nlat nlon GEquiangular ICRandom num false noise0 = Some d /\ forall ic noise, pdeset_item (set_ic ic d) noise = None.
Proof.
  intros gl dt nsteps nlat nlon num noise0 Hs Hn. destruct (cc_model nlat (-1) 1 ltac:(lia)) as (q & Eq & _).
  destruct (proj2 (swe_constructs gl nlat nlon (dt / INR nsteps) (Some ((nlat + 2) / 3)%nat) (Some ((nlat + 2) / 3)%nat) GEquiangular (IZR 6371220) (7292 / IZR 100000000) (IZR 980616 / IZR 100000) (IZR 10000) 120)) as (s & Es).
  { split; [lra|]. split. exists q. exact Eq. unfold truncate_sht. destruct ((nlat + 2) / 3)%nat; eexists; reflexivity. }
  assert (E : pdeset_init gl dt nsteps nlat nlon GEquiangular ICRandom num false noise0 = Some (mkPdeset s nsteps ICRandom num None)).
  { unfold pdeset_init. rewrite (proj2 (Nat.leb_le _ _) Hs). cbn [guard bindo]. cbv zeta. rewrite Es. reflexivity. }
  exists (mkPdeset s nsteps ICRandom num None). split; auto. intros ic noise. apply (small_none _ _ _ _ _ _ _ _ _ _ _ E). lia.
Qed.
Print Assumptions C77_small_refuted.

(** On at least four equiangular latitudes the constructor accepts every known initial condition, normalised or not. *)
Theorem C77_constructs : forall gl dt nsteps nlat nlon ic num normalize noise0, (1 <= nsteps)%nat -> (4 <= nlat)%nat -> (1 <= nlon)%nat -> ic <> ICOther ->
  exists d, pdeset_init gl dt nsteps nlat nlon GEquiangular ic num normalize noise0 = Some d.
Proof.
  intros gl dt nsteps nlat nlon ic num normalize noise0 Hs Hn Hw Hi. destruct (cc_model nlat (-1) 1 ltac:(lia)) as (q & Eq & _).
  destruct (proj2 (swe_constructs gl nlat nlon (dt / INR nsteps) (Some ((nlat + 2) / 3)%nat) (Some ((nlat + 2) / 3)%nat) GEquiangular (IZR 6371220) (7292 / IZR 100000000) (IZR 980616 / IZR 100000) (IZR 10000) 120)) as (s & Es).
  { split; [lra|]. split. exists q. exact Eq. unfold truncate_sht. destruct ((nlat + 2) / 3)%nat; eexists; reflexivity. }
  assert (E : pdeset_init gl dt nsteps nlat nlon GEquiangular ic num false noise0 = Some (mkPdeset s nsteps ic num None)).
  { unfold pdeset_init. rewrite (proj2 (Nat.leb_le _ _) Hs). cbn [guard bindo]. cbv zeta. rewrite Es. reflexivity. }
  destruct normalize; [|eauto]. destruct (sample_total _ _ _ _ _ _ _ _ _ _ _ E ic noise0 Hn Hw Hi) as (a & b & G & _). unfold get_sample in G. cbn [e_solver] in G.
  unfold pdeset_init. rewrite (proj2 (Nat.leb_le _ _) Hs). cbn [guard bindo]. cbv zeta. rewrite Es. cbn [bindo].
  destruct (initial s ic noise0) as [u|]; [|discriminate]. cbn [bindo] in *. destruct (timestep s u nsteps); [|discriminate]. cbn [bindo] in G. destruct (spec2grid s u); [|discriminate]. cbn [bindo]. eauto.
Qed.
Print Assumptions C77_constructs.

(** The length. *)
Theorem C77_length : forall gl dt nsteps nlat nlon g ic num normalize noise0 d, pdeset_init gl dt nsteps nlat nlon g ic num normalize noise0 = Some d ->
  pdeset_len d = (match ic with ICRandom => num | _ => 1%nat end) /\ forall n, pdeset_len (set_num n (set_ic ICRandom d)) = n.
Proof.
  intros gl dt nsteps nlat nlon g ic num normalize noise0 d E. destruct (pdeset_inv _ _ _ _ _ _ _ _ _ _ _ E) as (_ & _ & Ei & En & _). unfold pdeset_len. rewrite Ei, En. split; reflexivity.
Qed.
Print Assumptions C77_length.

(** The jet of the Galewsky test: the state exists, its divergence is zero, its vorticity depends on the latitude only
    and has no mean; without the bump the geopotential and the vorticity do not start to change. *)
Theorem C77_galewsky : forall gl nlat nlon dt lmax mmax g radius omega gravity havg hamp s, swe_init gl nlat nlon dt lmax mmax g radius omega gravity havg hamp = Some s ->
  (1 <= nlon)%nat -> (1 <= w_lmax s)%nat -> exists u, galewsky_ic s = Some u /\ shp u = [3%nat; w_lmax s; w_mmax s] /\
  (forall l m, (l < w_lmax s)%nat -> (m < w_mmax s)%nat -> val u [2%nat; l; m] = RtoC 0) /\
  (forall l m, (l < w_lmax s)%nat -> (1 <= m < w_mmax s)%nat -> val u [1%nat; l; m] = RtoC 0) /\
  val u [1; 0; 0]%nat = RtoC 0 /\
  (w_hamp s = 0 -> exists D, dudtspec s u = Some D /\ forall c l m, (c < 2)%nat -> (l < w_lmax s)%nat -> (m < w_mmax s)%nat -> val D [c; l; m] = RtoC 0).
Proof.
  intros gl nlat nlon dt lmax mmax g radius omega gravity havg hamp s E Hn HL. destruct (swe_init_inv _ _ _ _ _ _ _ _ _ _ _ _ _ E) as (q & B & Ea & Eb & _).
  destruct (sizes _ _ _ _ _ _ _ _ _ _ _ _ _ E) as (LM & _). assert (Hw : (1 <= w_nlon s)%nat) by congruence.
  destruct (galewsky_value s gl g lmax mmax q B Hw HL) as (u & Eu & Su & D & Z & M0 & H0). exists u. repeat split; auto. apply M0; lia. intros Hh.
  apply (zonal_flow_tend _ _ _ _ _ _ _ _ _ _ _ _ _ E Hn); auto. intros c l m Hc Hl Hm. destruct c as [|[|[|c]]]; [apply H0| apply Z|apply D|]; auto; lia.
Qed.
Print Assumptions C77_galewsky.
(** Its wind is a jet of at most 80 m/s, reached at the latitude pi/4; the bump stays between 0 and hamp. *)
Theorem C77_jet : forall lat, jet lat = jet_wind lat /\ 0 <= jet lat <= 80 /\ (lat <= PI / 7 \/ PI / 2 - PI / 7 <= lat -> jet lat = 0) /\ jet (PI / 4) = 80.
Proof.
  intros lat. rewrite !jet_eq. repeat split; try apply jet_bounds; [|apply jet_peak]. unfold jet_wind, jet_south, jet_north. intros H.
  destruct (Rle_dec _ _); auto. destruct (Rle_dec _ _); auto. lra.
Qed.
Print Assumptions C77_jet.
Theorem C77_bump : forall hamp lat lon, bump hamp lat lon = bump_height hamp lat lon /\ (0 <= hamp -> - PI / 2 <= lat <= PI / 2 -> 0 <= bump hamp lat lon <= hamp).
Proof. intros hamp lat lon. split. apply bump_eq. rewrite bump_eq. apply bump_bounds. Qed.
Print Assumptions C77_bump.
(** The state solves the balance equation for the jet v: with z its vorticity, V = v (z + f), T the curl of V, K the
    kinetic energy and H the geopotential of the mean height with the bump, Laplace (phi + K - H) = T. *)
Theorem C77_galewsky_balance : forall gl nlat nlon dt lmax mmax g radius omega gravity havg hamp s, swe_init gl nlat nlon dt lmax mmax g radius omega gravity havg hamp = Some s ->
  (1 <= nlon)%nat -> forall q, sht_rule gl nlat g = Some q -> exists u v z zg V T K H k e, galewsky_ic s = Some u /\
  shp v = [2%nat; nlat; nlon] /\ (forall i j, val v [0%nat; i; j] = jet_wind (- asin (rn q i)) /\ val v [1%nat; i; j] = 0) /\
  vrtdivspec s v = Some z /\ spec2grid s z = Some zg /\
  shp V = [2%nat; nlat; nlon] /\
  (forall i j, (i < nlat)%nat -> (j < nlon)%nat -> val V [0%nat; i; j] = val v [0%nat; i; j] * (val zg [0%nat; i; j] + 2 * omega * sin (- asin (rn q i))) /\ val V [1%nat; i; j] = 0) /\
  vrtdivspec s V = Some T /\
  shp k = [nlat; nlon] /\ (forall i j, val k [i; j] = (val v [0%nat; i; j]) ^ 2 / 2) /\ grid2spec s k = Some K /\
  shp e = [nlat; nlon] /\ (forall i j, val e [i; j] = gravity * (havg + bump_height hamp (- asin (rn q i)) (2 * PI * INR j / INR nlon))) /\ grid2spec s e = Some H /\
  forall l m, (l < w_lmax s)%nat -> (m < w_mmax s)%nat -> (m <= l)%nat ->
    val u [1%nat; l; m] = val z [0%nat; l; m] /\ val u [2%nat; l; m] = val z [1%nat; l; m] /\
    cscale (laplace radius l) (Cminus (Cplus (val u [0%nat; l; m]) (val K [l; m])) (val H [l; m])) = (if (l =? 0)%nat then RtoC 0 else val T [0%nat; l; m]) /\
    (l = 0%nat -> Cplus (val u [0%nat; l; m]) (val K [l; m]) = val H [l; m]).
Proof.
  intros gl nlat nlon dt lmax mmax g radius omega gravity havg hamp s E Hn q Eq. destruct (swe_init_inv _ _ _ _ _ _ _ _ _ _ _ _ _ E) as (q' & B & Ea & Eb & _ & Er & _).
  destruct (swe_consts _ _ _ _ _ _ _ _ _ _ _ _ _ E) as (Eg & Eh & Ep & Q). specialize (Q q Eq). assert (Hw : (1 <= w_nlon s)%nat) by congruence.
  destruct (galewsky_balance s gl g lmax mmax q' B Hw) as (u & v & z & zg & V & T & K & H & k & e & R1 & R2 & R3 & R4 & R5 & R6 & R7 & R8 & R9 & R10 & R11 & R12 & R13 & R14 & R15).
  rewrite Ea, Eb, Er, Eg, Eh, Ep in *. exists u, v, z, zg, V, T, K, H, k, e.
  split; auto. split; auto. split. { intros i j. rewrite <- (proj1 (Q i)). apply R3. } split; auto. split; auto. split; auto. split. { intros i j Hi Hj. rewrite <- (proj2 (Q i)). now apply R7. }
  split; auto. split; auto. split; auto. split; auto. split; auto. split. { intros i j. rewrite <- (proj1 (Q i)). apply R13. } split; auto.
Qed.
Print Assumptions C77_galewsky_balance.
(** Finding 50b: hence the variance that normalize=True divides the third channel by is zero: no item of the normalised Galewsky
    dataset is a number (in floating point, the channel is rounding noise blown up to variance 1). *)
Theorem C77_galewsky_normalised_refuted : forall gl dt nsteps nlat nlon g num noise0 d, (1 <= nlat)%nat -> (1 <= nlon)%nat ->
  pdeset_init gl dt nsteps nlat nlon g ICGalewsky num true noise0 = Some d -> forall noise, pdeset_item d noise = None.
Proof. intros gl dt nsteps nlat nlon g num noise0 d Hn Hw E noise. exact (galewsky_none _ _ _ _ _ _ _ _ _ _ _ E noise Hn Hw eq_refl eq_refl). Qed.
Print Assumptions C77_galewsky_normalised_refuted.

(** The vorticity and divergence of any velocity field have no mean ... *)
Theorem C77_velocity_mean : forall gl nlat nlon dt lmax mmax g radius omega gravity havg hamp s, swe_init gl nlat nlon dt lmax mmax g radius omega gravity havg hamp = Some s ->
  (1 <= w_lmax s)%nat -> forall v f c, shp v = [2%nat; nlat; nlon] -> vrtdivspec s v = Some f -> (c < 2)%nat -> val f [c; 0; 0]%nat = RtoC 0.
Proof.
  intros gl nlat nlon dt lmax mmax g radius omega gravity havg hamp s E HL v f c Sv Ef Hc. destruct (swe_init_inv _ _ _ _ _ _ _ _ _ _ _ _ _ E) as (q & B & Ea & Eb & _).
  destruct (sizes _ _ _ _ _ _ _ _ _ _ _ _ _ E) as (LM & _). rewrite <- Ea, <- Eb in Sv. eapply (velocity_mean s gl g lmax mmax q B); eauto. lia.
Qed.
Print Assumptions C77_velocity_mean.
(** Finding 50c: ... the random initial state has one, for both, unless the first random numbers are zero, and keeps it at every later time. *)
Theorem C77_random_mean_refuted : forall gl nlat nlon dt lmax mmax g radius omega gravity havg hamp s, swe_init gl nlat nlon dt lmax mmax g radius omega gravity havg hamp = Some s ->
  (1 <= nlon)%nat -> (2 <= w_lmax s)%nat -> 0 < w_gravity s * w_havg s -> forall q, sht_rule gl nlat g = Some q -> good_rule nlat q (w_lmax s - 1) ->
  forall mach noise c n v, mach <> 0 -> (1 <= c < 3)%nat -> Re (val noise [c; 0; 0]%nat) <> 0 -> timestep s (random_ic s mach noise) n = Some v ->
  exists f y, spec2grid s v = Some f /\ integrate_grid s f true 0 = Some y /\ val y [c] <> 0.
Proof.
  intros gl nlat nlon dt lmax mmax g radius omega gravity havg hamp s E Hn HL Hg q Eq G mach noise c n v Hm Hc Nz Ev.
  destruct (swe_init_inv _ _ _ _ _ _ _ _ _ _ _ _ _ E) as (q' & B & Ea & Eb & _). destruct (sizes _ _ _ _ _ _ _ _ _ _ _ _ _ E) as (LM & _).
  pose proof (means _ _ _ _ _ _ _ _ _ _ _ _ _ E Hn (random_ic s mach noise) n v c 0 HL eq_refl Ev ltac:(lia) ltac:(lia)) as Mn.
  destruct (trajectory _ _ _ _ _ _ _ _ _ _ _ _ _ E Hn (random_ic s mach noise) HL eq_refl) as (U & D & U0 & T). destruct (T n) as (T1 & T2 & _). assert (U n = v) by congruence.
  destruct (total_field _ _ _ _ _ _ _ _ _ _ _ _ _ E Hn q v true Eq G ltac:(lia) 3%nat ltac:(congruence)) as (f & y & Ef & Ey & Sy & Vy).
  exists f, y. split; auto. split; auto. rewrite Vy by lia. rewrite Mn. unfold random_ic. rewrite tril3. cbn [Nat.leb nth Nat.ltb andb].
  destruct (c =? 0)%nat eqn:C0; [apply Nat.eqb_eq in C0; lia|]. unfold cscale. rewrite !Re_scal.
  assert (P1 := s4). assert (P2 : 0 < ic_scale). { apply sqrt_lt_R0. pose proof PI_RGT_0. lra. } assert (P3 := sqrt_lt_R0 _ Hg). assert (P4 := b_radius _ _ _ _ _ _ B).
  repeat apply Rmult_integral_contrapositive_currified; auto; try lra. apply Rinv_neq_0_compat; auto.
Qed.
Print Assumptions C77_random_mean_refuted.
(** With all random numbers zero the state is at rest with the geopotential gravity * havg everywhere. *)
Theorem C77_random_rest : forall gl nlat nlon dt lmax mmax g radius omega gravity havg hamp s, swe_init gl nlat nlon dt lmax mmax g radius omega gravity havg hamp = Some s ->
  (1 <= nlon)%nat -> (1 <= w_lmax s)%nat -> forall mach noise, (forall i, val noise i = RtoC 0) ->
  exists f, spec2grid s (random_ic s mach noise) = Some f /\ shp f = [3%nat; nlat; nlon] /\
  forall c k j, (c < 3)%nat -> val f [c; k; j] = if (c =? 0)%nat then w_gravity s * w_havg s else 0.
Proof.
  intros gl nlat nlon dt lmax mmax g radius omega gravity havg hamp s E Hn HL mach noise Z.
  destruct (swe_init_inv _ _ _ _ _ _ _ _ _ _ _ _ _ E) as (q & B & Ea & Eb & _). destruct (sizes _ _ _ _ _ _ _ _ _ _ _ _ _ E) as (LM & _). assert (Hw : (1 <= w_nlon s)%nat) by congruence.
  destruct (spec2grid_value s gl g lmax mmax q B Hw 3 (random_ic s mach noise) eq_refl) as (f & Ef & Sf & Vf). exists f. split; auto. rewrite Ea, Eb in Sf. split; auto.
  intros c k j Hc. rewrite Vf. unfold WI. rewrite (const_field (w_nlat s) (w_nlon s) (w_lmax s) (w_mmax s) q); try lia.
  - unfold random_ic. rewrite tril3. cbn [Nat.leb nth Nat.ltb Nat.eqb andb]. rewrite Z, !cscale_0. destruct (c =? 0)%nat; cbn [Re RtoC fst Cplus].
    + pose proof s4. unfold Re, RtoC, Cplus. cbn [fst snd]. field. lra.
    + rewrite ?cscale_0. unfold Re, RtoC. cbn [fst]. unfold Rdiv. ring.
  - intros l m Hl Hm Hlm. unfold random_ic. rewrite tril3. cbn [nth]. rewrite Z, cscale_0. replace (if (l <? 120)%nat && (m <? 120)%nat then RtoC 0 else RtoC 0) with (RtoC 0) by (destruct (_ && _)%bool; reflexivity).
    rewrite !cscale_0. replace ((l =? 0)%nat && (m =? 0)%nat)%bool with false. 2:{ symmetry. apply andb_false_iff. rewrite !Nat.eqb_neq. lia. }
    destruct (m <=? l)%nat; [|reflexivity]. destruct (c =? 0)%nat; [ring|reflexivity].
Qed.
Print Assumptions C77_random_rest.
(** Finding 50d: [dimensionless] subtracts the mean geopotential from every coefficient; of the state at rest it makes one that is not 0. *)
Theorem C77_dimensionless_refuted : forall gl nlat nlon dt lmax mmax g radius omega gravity havg hamp s, swe_init gl nlat nlon dt lmax mmax g radius omega gravity havg hamp = Some s ->
  w_gravity s <> 0 -> w_havg s <> 0 -> w_hamp s <> 0 -> forall mach noise, (forall i, val noise i = RtoC 0) ->
  forall l m, (1 <= l)%nat -> (m <= l)%nat -> val (dimensionless s (random_ic s mach noise)) [0%nat; l; m] = RtoC (- (w_havg s / w_hamp s)) /\ - (w_havg s / w_hamp s) <> 0.
Proof.
  intros gl nlat nlon dt lmax mmax g radius omega gravity havg hamp s E Hg Ha Hh mach noise Z l m Hl Hm. split.
  - unfold dimensionless. cbn [val nth Nat.eqb]. unfold random_ic. rewrite tril3. cbn [nth Nat.eqb]. rewrite Z, cscale_0.
    replace (if (l <? 120)%nat && (m <? 120)%nat then RtoC 0 else RtoC 0) with (RtoC 0) by (destruct (_ && _)%bool; reflexivity).
    replace (l =? 0)%nat with false by (symmetry; apply Nat.eqb_neq; lia). rewrite (proj2 (Nat.leb_le _ _) Hm), cscale_0. cbn [andb]. unfold cscale.
    replace (Cplus (RtoC 0) (RtoC 0)) with (RtoC 0) by ring. rewrite <- RtoC_minus, <- RtoC_mult. f_equal. field. auto.
  - apply Ropp_neq_0_compat. apply Rmult_integral_contrapositive_currified; auto. apply Rinv_neq_0_compat; auto.
Qed.
Print Assumptions C77_dimensionless_refuted.

(** The hypotheses are met: the dataset on 4 x 8 points can be built, and its items exist. *)
Example C77_case : forall gl noise0 noise, exists d a b, pdeset_init gl 3600 6 4 8 GEquiangular ICRandom 32 false noise0 = Some d /\
  pdeset_item d noise = Some (a, b) /\ shp b = [3; 4; 8]%nat /\ pdeset_len d = 32%nat.
Proof.
  intros gl noise0 noise. destruct (cc_model 4 (-1) 1 ltac:(lia)) as (q & Eq & _).
  destruct (proj2 (swe_constructs gl 4 8 (3600 / INR 6) (Some 2%nat) (Some 2%nat) GEquiangular (IZR 6371220) (7292 / IZR 100000000) (IZR 980616 / IZR 100000) (IZR 10000) 120)) as (s & Es).
  { split; [lra|]. split. exists q. exact Eq. eexists; reflexivity. }
  assert (E : pdeset_init gl 3600 6 4 8 GEquiangular ICRandom 32 false noise0 = Some (mkPdeset s 6 ICRandom 32 None)).
  { unfold pdeset_init. cbn [Nat.leb guard bindo]. cbv zeta. change ((4 + 2) / 3)%nat with 2%nat. rewrite Es. reflexivity. }
  destruct (C77_samples _ _ _ _ _ _ _ _ _ _ _ E ltac:(lia) ltac:(lia) ICRandom noise ltac:(discriminate)) as (a & b & _ & _ & Sb & K).
  exists (mkPdeset s 6 ICRandom 32 None), a, b. repeat split; auto.
Qed.
