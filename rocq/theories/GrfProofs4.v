(** The default (equiangular) grid: no hypothesis on the rule is left. *)
From Coq Require Import List Arith Lia Bool Reals Lra.
From Coquelicot Require Import Coquelicot.
From Verif Require Import TensorModel TensorProofs BigSum FFTModel TruncModel TruncSpec TruncProofs LegendreModel LegSpec QuadModel QuadSpec PolyProofs CCProofs QuadProofs LegTableProofs
  SHTModel SHTSpec SHTRoundSpec SHTValueProofs SHTRoundProofs FFTProofs SHTMeanProofs UnsoldProofs SHTBandProofs QuadPropProofs ResampleProofs GrfModel GrfSpec GrfProofs GrfProofs2 GrfProofs3.
Import ListNotations.
Local Open Scope R_scope.

Lemma equiangular_init : forall gl nlat alpha tau sigma radius s, (2 <= nlat)%nat -> grf_sigma alpha tau sigma = Some s ->
  exists f, grf_init gl nlat alpha tau sigma radius GEquiangular = Some f /\ s_lmax (g_isht f) = ((nlat + 1) / 2)%nat /\ s_mmax (g_isht f) = ((nlat + 1) / 2)%nat.
Proof.
  intros gl nlat alpha tau sigma radius s Hn Es. destruct (cc_model nlat (-1) 1 Hn) as (q & Eq & _).
  destruct (grf_init gl nlat alpha tau sigma radius GEquiangular) as [f|] eqn:E.
  - exists f. split; auto. destruct (sizes _ _ _ _ _ _ _ _ E) as (A & B). change (default_lmax GEquiangular nlat) with (Some ((nlat + 1) / 2)%nat) in B. split; congruence.
  - exfalso. unfold grf_init in E. rewrite Es in E. cbn [bindo] in E. unfold inverse_sht_init in E. cbn [sht_rule] in E. rewrite Eq in E. cbn [bindo] in E.
    destruct (truncate_sht nlat (2 * nlat) None None GEquiangular) as [[L M]|] eqn:T. cbn [bindo] in E. discriminate. apply truncate_sht_none in T. destruct T; discriminate.
Qed.
Lemma half_bounds : forall n, (2 <= n)%nat -> (2 * ((n + 1) / 2 - 1) <= n - 1)%nat /\ (1 <= (n + 1) / 2)%nat.
Proof. intros n H. pose proof (Nat.div_mod (n + 1) 2 ltac:(lia)). pose proof (Nat.mod_upper_bound (n + 1) 2 ltac:(lia)). lia. Qed.
Lemma good_weaken : forall n q d d', (d' <= d)%nat -> good_rule n q d -> good_rule n q d'.
Proof. intros n q d d' H (A & B). split; auto. eapply exact_mono; eauto. Qed.
Section E.
Variables (gl : nat -> rule) (nlat : nat) (alpha tau : R) (sigma : option R) (radius : R) (f : grf) (s : R).
Hypotheses (Hn : (2 <= nlat)%nat) (E : grf_init gl nlat alpha tau sigma radius GEquiangular = Some f) (Es : grf_sigma alpha tau sigma = Some s).

Lemma eq_rule : exists q, sht_rule gl nlat GEquiangular = Some q /\ good_rule nlat q (2 * (s_lmax (g_isht f) - 1)) /\ good_rule nlat q (s_lmax (g_isht f) - 1).
Proof.
  destruct (cc_model nlat (-1) 1 Hn) as (q & Eq & _). exists q. split; auto. pose proof (cc_good nlat q Hn Eq) as G.
  destruct (sizes _ _ _ _ _ _ _ _ E) as (_ & B). change (default_lmax GEquiangular nlat) with (Some ((nlat + 1) / 2)%nat) in B.
  assert (B' : s_lmax (g_isht f) = ((nlat + 1) / 2)%nat) by congruence. rewrite B'. pose proof (half_bounds nlat Hn). split; (apply (good_weaken nlat q (nlat - 1)); [lia|exact G]).
Qed.
Lemma eq_coefficients : forall nm cs lead xi, (1 <= length lead)%nat -> shp xi = lead ++ [s_lmax (g_isht f); s_mmax (g_isht f)] ->
  exists S u z, real_sht_init gl nlat (2 * nlat) None None GEquiangular nm cs = Some S /\ grf_forward f xi = Some u /\ real_sht S u = Some z /\ shp z = shp xi /\
  forall I l m, valid lead I -> (l < s_lmax (g_isht f))%nat -> (m < s_mmax (g_isht f))%nat ->
    val z (I ++ [l; m]%nat) = Cmult (RtoC (norm_spec nm false l / sqrt (4 * PI) * phase_spec (negb cs) m * amp alpha tau s radius l m))
      (Re (val xi (I ++ [l; m]%nat)), if (m =? 0)%nat then 0 else Im (val xi (I ++ [l; m]%nat))).
Proof. destruct eq_rule as (q & Eq & G & _). exact (coefficients gl nlat alpha tau sigma radius GEquiangular f q s E Eq Es G). Qed.
Lemma eq_zero : forall N K nz xi u, shp xi = [N; s_lmax (g_isht f); s_mmax (g_isht f)] -> grf_forward f xi = Some u ->
  exists v, quadrature_s2 gl nlat (2 * nlat) GEquiangular nz u = Some v /\ ((K < N)%nat -> val v [0; K]%nat = 0).
Proof. destruct eq_rule as (q & Eq & _ & G). exact (zero_integral gl nlat alpha tau sigma radius GEquiangular f q E Eq G). Qed.

Lemma eq_lats : exists lat, precompute_latitudes gl nlat GEquiangular = Some lat /\ forall k, (k < nlat)%nat -> rn lat k = PI * INR k / INR (nlat - 1).
Proof. destruct (lats_equiangular gl nlat Hn) as (q & A & _ & B). exists q. auto. Qed.

(** the field is less variable at the pole than on every circle of latitude between the poles *)
Lemma anisotropic : 0 < tau -> s <> 0 -> (3 <= nlat)%nat -> forall k j j0, (0 < k < nlat - 1)%nat -> (j < 2 * nlat)%nat -> (j0 < 2 * nlat)%nat ->
  variance f (s_lmax (g_isht f)) (s_mmax (g_isht f)) 0 j0 < variance f (s_lmax (g_isht f)) (s_mmax (g_isht f)) k j.
Proof.
  intros Ht Hs H3 k j j0 Hk Hj Hj0. destruct eq_lats as (lat & El & Vl).
  destruct (variance_bounds gl nlat alpha tau sigma radius GEquiangular f lat s E El Es Ht k j 0%nat j0) as (_ & H); auto; try lia.
  - rewrite Vl by lia. cbn [INR]. replace (PI * 0 / INR (nlat - 1)) with 0 by (unfold Rdiv; ring). apply cos_0.
  - apply H; auto.
    + destruct (sizes _ _ _ _ _ _ _ _ E) as (_ & B). change (default_lmax GEquiangular nlat) with (Some ((nlat + 1) / 2)%nat) in B. assert (B' : s_lmax (g_isht f) = ((nlat + 1) / 2)%nat) by congruence. rewrite B'.
      pose proof (Nat.div_mod (nlat + 1) 2 ltac:(lia)). pose proof (Nat.mod_upper_bound (nlat + 1) 2 ltac:(lia)). lia.
    + rewrite Vl by lia. pose proof PI_RGT_0. assert (0 < INR k) by (apply lt_0_INR; lia). assert (INR k < INR (nlat - 1)) by (apply lt_INR; lia).
      assert (0 < PI * INR k / INR (nlat - 1)). { apply Rdiv_lt_0_compat; nra. }
      assert (PI * INR k / INR (nlat - 1) < PI). { apply Rmult_lt_reg_r with (INR (nlat - 1)); [lra|]. replace (PI * INR k / INR (nlat - 1) * INR (nlat - 1)) with (PI * INR k) by (field; lra). nra. }
      split. rewrite <- cos_PI. apply cos_decreasing_1; lra. rewrite <- cos_0. apply cos_decreasing_1; lra.
Qed.
(** unit noise at an order-zero mode *)
Lemma power : 0 < tau -> forall l0 , (1 <= l0 < s_lmax (g_isht f))%nat ->
  exists S u z, real_sht_init gl nlat (2 * nlat) None None GEquiangular Ortho true = Some S /\
    grf_forward f (unit_noise [1; s_lmax (g_isht f); s_mmax (g_isht f)]%nat (RtoC 1) l0 0) = Some u /\ real_sht S u = Some z /\
    Cmod (val z [0; l0; 0]%nat) ^ 2 = matern s tau radius alpha l0 / (4 * PI).
Proof.
  intros Ht l0 Hl. destruct (sizes _ _ _ _ _ _ _ _ E) as (HM & _).
  destruct (eq_coefficients Ortho true [1%nat] (unit_noise [1; s_lmax (g_isht f); s_mmax (g_isht f)]%nat (RtoC 1) l0 0) ltac:(cbn; lia) eq_refl) as (S & u & z & E1 & E2 & E3 & _ & V).
  exists S, u, z. repeat split; auto. specialize (V [0%nat] l0 0%nat). cbn [app] in V. rewrite V; try lia. 2:{ split; auto. intros [|d] Hd; cbn in *; lia. }
  unfold unit_noise. cbn [val length app nth Nat.sub]. rewrite !Nat.eqb_refl. cbn [andb].
  replace (Re (RtoC 1), 0) with (RtoC 1) by reflexivity. rewrite <- RtoC_mult, Cmod_R, <- (amp_sq alpha tau s radius l0 0) by (auto; lia).
  set (a := amp _ _ _ _ _ _). rewrite pow2_abs. pose proof s4 as K. pose proof s4_sq as K2. unfold norm_spec, phase_spec. cbn [negb].
  replace ((1 / sqrt (4 * PI) * 1 * a * 1) ^ 2) with (a ^ 2 / (sqrt (4 * PI) * sqrt (4 * PI))) by (field; lra). rewrite K2. reflexivity.
Qed.
End E.
