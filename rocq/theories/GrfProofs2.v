(** Spectrum, variance and documentation of the random fields. *)
From Coq Require Import List Arith Lia Bool Reals Lra.
From Coquelicot Require Import Coquelicot.
From Verif Require Import TensorModel TensorProofs BigSum FFTModel TruncModel LegendreModel LegSpec QuadModel QuadSpec PolyProofs CCProofs QuadProofs LegTableProofs
  SHTModel SHTSpec SHTRoundSpec SHTValueProofs SHTRoundProofs FFTProofs SHTMeanProofs UnsoldProofs SHTBandProofs QuadPropProofs GrfModel GrfSpec GrfProofs.
Import ListNotations.
Local Open Scope R_scope.

Lemma synth_single : forall n sz c m0 j, (m0 < sz)%nat -> (m0 <= n / 2)%nat ->
  synth n sz (fun m => if (m =? m0)%nat then c else RtoC 0) j = mirror n m0 * Re (Cmult c (cis (2 * PI * INR j * INR m0 / INR n))).
Proof.
  intros n sz c m0 j H Hn. unfold synth.
  rewrite (bsum_ext sz _ (fun m => if (m =? m0)%nat then mirror n m * Re (Cmult c (cis (2 * PI * INR j * INR m / INR n))) else 0)).
  - rewrite (bsum_delta_f RT sz m0 (fun m => mirror n m * Re (Cmult c (cis (2 * PI * INR j * INR m / INR n))))) by auto. reflexivity.
  - intros m Hm. destruct (Nat.eqb_spec m m0) as [->|]. rewrite (proj2 (Nat.leb_le _ _)) by auto. reflexivity.
    destruct (m <=? n / 2)%nat; auto. replace (Cmult (RtoC 0) (cis (2 * PI * INR j * INR m / INR n))) with (RtoC 0) by ring. unfold Re, RtoC. cbn [fst]. ring.
Qed.
Lemma synthesise_single : forall w L M n z (a : nat -> nat -> R) l0 m0 k j, (l0 < L)%nat -> (m0 < M)%nat -> (m0 <= n / 2)%nat ->
  synthesise w L M n (fun l m => Cmult (if (l =? l0)%nat && (m =? m0)%nat then z else RtoC 0) (RtoC (a l m))) k j =
  mirror n m0 * (val w [m0; k; l0]%nat * a l0 m0) * Re (Cmult z (cis (2 * PI * INR j * INR m0 / INR n))).
Proof.
  intros w L M n z a l0 m0 k j Hl Hm Hn. unfold synthesise.
  rewrite (synth_ext n M _ (fun m => if (m =? m0)%nat then Cmult (RtoC (val w [m0; k; l0]%nat * a l0 m0)) z else RtoC 0)).
  - rewrite synth_single by auto. replace (Cmult (Cmult (RtoC (val w [m0; k; l0]%nat * a l0 m0)) z) (cis (2 * PI * INR j * INR m0 / INR n))) with (Cmult (RtoC (val w [m0; k; l0]%nat * a l0 m0)) (Cmult z (cis (2 * PI * INR j * INR m0 / INR n)))) by ring.
    rewrite Re_scal. ring.
  - intros m Hm'. destruct (Nat.eqb_spec m m0) as [->|].
    + rewrite (bsum_ext L _ (fun l => if (l =? l0)%nat then Cmult (RtoC (val w [m0; k; l0]%nat * a l0 m0)) z else RtoC 0)).
      rewrite (bsum_delta CT) by auto. reflexivity.
      intros l Hl'. destruct (Nat.eqb_spec l l0) as [->|]; cbn [andb]. rewrite RtoC_mult. ring. ring.
    + apply (bsum_zero' CT). intros l Hl'. rewrite andb_false_r. ring.
Qed.
Lemma fourpi_entry : forall h L M q m l k, (l < L)%nat -> val (inverse_sht_pct h L M q FourPi true) [m; k; l]%nat ^ 2 = alf l m (cos (sht_colat h q k)) ^ 2 / (4 * PI).
Proof.
  intros. rewrite inverse_sht_entry by auto. unfold norm_spec. pose proof s4. pose proof s4_sq. pose proof (phase_sq true m) as P. pose proof PI_RGT_0. cbn [pow]. rewrite !Rmult_1_r. set (z := alf l m _). set (p := phase_spec true m) in *.
  replace (/ sqrt (4 * PI) * p * z * (/ sqrt (4 * PI) * p * z)) with (p * p * (z * z) * / (sqrt (4 * PI) * sqrt (4 * PI))) by (field; lra). rewrite P, H1. field. lra.
Qed.

Section V.
Variables (gl : nat -> rule) (nlat : nat) (alpha tau : R) (sigma : option R) (radius : R) (g : grid) (f : grf) (lat : rule) (s : R).
Hypotheses (E : grf_init gl nlat alpha tau sigma radius g = Some f) (El : precompute_latitudes gl nlat g = Some lat) (Es : grf_sigma alpha tau sigma = Some s) (Ht : 0 < tau).

Lemma lat_colat' : forall q k, sht_rule gl nlat g = Some q -> rn lat k = sht_colat nlat q k.
Proof.
  intros q k Eq. unfold precompute_latitudes in El. rewrite quad_rule_lat in El.
  assert (quadrature_s2_rule gl nlat g = Some q) as Q by (destruct g; cbn in *; auto; discriminate). rewrite Q in El. injection El as <-. reflexivity.
Qed.
Lemma response : forall z l0 m0 k j, (l0 < s_lmax (g_isht f))%nat -> (m0 < s_lmax (g_isht f))%nat -> (k < nlat)%nat -> (j < 2 * nlat)%nat -> exists q, sht_rule gl nlat g = Some q /\
  value_at (grf_forward f (unit_noise [1; s_lmax (g_isht f); s_mmax (g_isht f)]%nat z l0 m0)) [0; k; j]%nat =
  mirror (2 * nlat) m0 * (val (inverse_sht_pct nlat (s_lmax (g_isht f)) (s_lmax (g_isht f)) q FourPi true) [m0; k; l0]%nat * amp alpha tau s radius l0 m0) * Re (Cmult z (cis (2 * PI * INR j * INR m0 / INR (2 * nlat)))).
Proof.
  intros z l0 m0 k j Hl Hm Hk Hj. destruct (sizes _ _ _ _ _ _ _ _ E) as (HM & _).
  destruct (forward_value _ _ _ _ _ _ _ _ E [1%nat] (unit_noise [1; s_lmax (g_isht f); s_mmax (g_isht f)]%nat z l0 m0) ltac:(cbn; lia) eq_refl) as (s' & q & u & Es' & Eq & Eu & Su & Vu).
  rewrite Es in Es'. injection Es' as <-. exists q. split; auto. rewrite Eu. cbn [value_at]. specialize (Vu [0%nat] k j eq_refl). cbn [app] in Vu. rewrite Vu.
  destruct (init_inv _ _ _ _ _ _ _ _ E) as (s1 & q1 & L & _ & _ & _ & Hn & HLn & Ef). assert (HLL : s_lmax (g_isht f) = L) by (rewrite Ef; reflexivity).
  rewrite <- (synthesise_single (inverse_sht_pct nlat (s_lmax (g_isht f)) (s_lmax (g_isht f)) q FourPi true) (s_lmax (g_isht f)) (s_lmax (g_isht f)) (2 * nlat) z (amp alpha tau s radius)) by (auto; rewrite Nat.mul_comm, Nat.div_mul; lia).
  unfold synthesise. apply synth_ext. intros m Hm'. apply bsum_ext. intros l Hl'. unfold unit_noise. cbn [val length app nth Nat.sub]. reflexivity.
Qed.
Lemma Re_1 : forall t, Re (Cmult (RtoC 1) (cis t)) = cos t. Proof. intros. unfold Re, Cmult, RtoC, cis. cbn [fst snd]. ring. Qed.
Lemma Re_i : forall t, Re (Cmult Ci (cis t)) = - sin t. Proof. intros. unfold Re, Cmult, Ci, cis. cbn [fst snd]. ring. Qed.
Lemma two_responses : forall l0 m0 k j, (l0 < s_lmax (g_isht f))%nat -> (m0 < s_lmax (g_isht f))%nat -> (k < nlat)%nat -> (j < 2 * nlat)%nat ->
  value_at (grf_forward f (unit_noise [1; s_lmax (g_isht f); s_mmax (g_isht f)]%nat (RtoC 1) l0 m0)) [0; k; j]%nat ^ 2 +
  value_at (grf_forward f (unit_noise [1; s_lmax (g_isht f); s_mmax (g_isht f)]%nat Ci l0 m0)) [0; k; j]%nat ^ 2 =
  mirror (2 * nlat) m0 ^ 2 * amp alpha tau s radius l0 m0 ^ 2 * (alf l0 m0 (cos (rn lat k)) ^ 2 / (4 * PI)).
Proof.
  intros l0 m0 k j Hl Hm Hk Hj. destruct (response (RtoC 1) l0 m0 k j Hl Hm Hk Hj) as (q & Eq & ->). destruct (response Ci l0 m0 k j Hl Hm Hk Hj) as (q2 & Eq2 & ->). rewrite Eq in Eq2. injection Eq2 as <-.
  rewrite Re_1, Re_i, (lat_colat' q k Eq). rewrite <- (fourpi_entry nlat (s_lmax (g_isht f)) (s_lmax (g_isht f)) q m0 l0 k) by auto.
  pose proof (sin2_cos2 (2 * PI * INR j * INR m0 / INR (2 * nlat))) as T. unfold Rsqr in T. set (t := 2 * PI * INR j * INR m0 / INR (2 * nlat)) in *. set (v := val _ _). set (a := amp _ _ _ _ _ _). set (mm := mirror _ _).
  transitivity (mm ^ 2 * a ^ 2 * v ^ 2 * (sin t * sin t + cos t * cos t)); [ring|]. rewrite T. ring.
Qed.
(** The variance: the same along every circle of latitude, but not isotropic. *)
Lemma variance_value : forall k j, (k < nlat)%nat -> (j < 2 * nlat)%nat ->
  variance f (s_lmax (g_isht f)) (s_mmax (g_isht f)) k j =
  rsum (s_lmax (g_isht f)) (fun l => if (l =? 0)%nat then 0 else matern s tau radius alpha l / (4 * PI) * ((2 * INR l + 1) / (4 * PI) * (2 - legendre l (cos (rn lat k)) ^ 2))).
Proof.
  intros k j Hk Hj. destruct (sizes _ _ _ _ _ _ _ _ E) as (HM & _). unfold variance.
  destruct (init_inv _ _ _ _ _ _ _ _ E) as (s1 & q1 & L & _ & _ & _ & Hn & HLn & Ef). assert (HLL : s_lmax (g_isht f) = L) by (rewrite Ef; reflexivity).
  apply bsum_ext. intros l Hl. rewrite (bsum_ext (s_mmax (g_isht f)) _ (fun m => mirror (2 * nlat) m ^ 2 * amp alpha tau s radius l m ^ 2 * (alf l m (cos (rn lat k)) ^ 2 / (4 * PI)))).
  2:{ intros m Hm. apply two_responses; auto. rewrite HM in Hm. exact Hm. }
  destruct (Nat.eqb_spec l 0) as [->|Hl0].
  { apply (bsum_zero' RT). intros m _. unfold amp. cbn [Nat.leb andb]. ring. }
  rewrite HM in *. rewrite HLL in *. replace L with (S l + (L - S l))%nat at 1 by lia. rewrite (bsum_split RT), (bsum_S_l RT).
  rewrite (bsum_zero' RT (L - S l)). 2:{ intros m _. rewrite alf_above by lia. unfold Rdiv. ring. }
  rewrite (bsum_ext l _ (fun m => matern s tau radius alpha l / (4 * PI) * 2 * (2 * alf l (S m) (cos (rn lat k)) ^ 2))).
  2:{ intros m Hm. rewrite amp_sq by (auto; lia). unfold mirror. cbn [Nat.eqb orb]. destruct (Nat.eqb_spec (2 * S m) (2 * nlat)); [lia|]. unfold Rdiv. ring. }
  rewrite (bsum_scal_l RT). pose proof (unsold l (cos (rn lat k)) (COS_bound _)) as U. rewrite alf0_legendre in U.
  rewrite amp_sq by (auto; lia). unfold mirror. cbn [Nat.eqb orb]. rewrite alf0_legendre.
  assert (RR : rsum l (fun m => 2 * alf l (S m) (cos (rn lat k)) ^ 2) = (2 * INR l + 1) / (4 * PI) - (2 * INR l + 1) / (4 * PI) * legendre l (cos (rn lat k)) ^ 2) by lra.
  rewrite RR. unfold Rdiv. ring.
Qed.
Lemma matern_pos : forall l, s <> 0 -> 0 < matern s tau radius alpha l.
Proof. intros. unfold matern. apply Rmult_lt_0_compat. nra. apply exp_pos. Qed.
Lemma variance_bounds : forall k j kp jp, (k < nlat)%nat -> (j < 2 * nlat)%nat -> (kp < nlat)%nat -> (jp < 2 * nlat)%nat -> cos (rn lat kp) = 1 ->
  variance f (s_lmax (g_isht f)) (s_mmax (g_isht f)) kp jp <= variance f (s_lmax (g_isht f)) (s_mmax (g_isht f)) k j <= 2 * variance f (s_lmax (g_isht f)) (s_mmax (g_isht f)) kp jp /\
  (s <> 0 -> (2 <= s_lmax (g_isht f))%nat -> -1 < cos (rn lat k) < 1 -> variance f (s_lmax (g_isht f)) (s_mmax (g_isht f)) kp jp < variance f (s_lmax (g_isht f)) (s_mmax (g_isht f)) k j).
Proof.
  intros k j kp jp Hk Hj Hkp Hjp Hp. rewrite !variance_value by auto. rewrite Hp. pose proof PI_RGT_0.
  assert (M0 : forall l, 0 <= matern s tau radius alpha l / (4 * PI) * ((2 * INR l + 1) / (4 * PI))).
  { intros l. pose proof (pos_INR l). unfold matern. assert (0 < / (4 * PI)) by (apply Rinv_0_lt_compat; lra). unfold Rdiv.
    apply Rmult_le_pos; [apply Rmult_le_pos; [apply Rmult_le_pos; [apply pow2_ge_0|left; apply exp_pos]|lra]|apply Rmult_le_pos; lra]. }
  assert (P1 : forall l, legendre l 1 = 1) by (intros; rewrite <- legP_legendre; apply legP_1).
  assert (LB := fun l => legendre_bound l (cos (rn lat k)) (COS_bound _)).
  split; [split|].
  - apply rsum_le. intros l Hl. destruct (l =? 0)%nat; [lra|]. rewrite P1. rewrite <- !Rmult_assoc. apply Rmult_le_compat_l; auto. specialize (LB l). lra.
  - rewrite <- (bsum_scal_l RT). apply rsum_le. intros l Hl. destruct (l =? 0)%nat; [lra|]. rewrite P1. specialize (LB l). specialize (M0 l). rewrite <- !Rmult_assoc.
    replace (2 * (matern s tau radius alpha l / (4 * PI))) with (matern s tau radius alpha l / (4 * PI) * 2) by ring. rewrite Rmult_assoc, (Rmult_comm 2), <- Rmult_assoc.
    rewrite (Rmult_comm (matern _ _ _ _ _ / (4 * PI) * 2)). nra.
  - intros Hs HL Hx. destruct (s_lmax (g_isht f)) as [|[|L]]; try lia.
    rewrite !(bsum_S_l RT (S L)), !(bsum_S_l RT L). cbn [Nat.eqb]. apply Rplus_lt_compat_l. apply Rplus_lt_le_compat.
    + rewrite P1. rewrite <- !Rmult_assoc. apply Rmult_lt_compat_l.
      * pose proof (matern_pos 1 Hs). cbn [INR]. assert (0 < / (4 * PI)) by (apply Rinv_0_lt_compat; lra). unfold Rdiv. apply Rmult_lt_0_compat; nra.
      * unfold legendre. cbn [legendre2 fst]. nra.
    + apply rsum_le. intros l Hl. rewrite P1. rewrite <- !Rmult_assoc. apply Rmult_le_compat_l; auto. specialize (LB (S (S l))). lra.
Qed.
End V.

(** The spectrum decays strictly with the degree. *)
Lemma amp_decreasing : forall alpha tau s radius l l' m, 0 < tau -> radius <> 0 -> 0 < alpha -> 0 < s -> (1 <= l < l')%nat -> (m <= l)%nat ->
  0 < amp alpha tau s radius l' m < amp alpha tau s radius l m.
Proof.
  intros alpha tau s radius l l' m Ht Hr Ha Hs Hl Hm. unfold amp. rewrite !(proj2 (Nat.leb_le _ _)) by lia. cbn [andb].
  split. apply Rmult_lt_0_compat; auto; apply exp_pos. apply Rmult_lt_compat_l; auto. unfold Rpower. apply exp_increasing.
  pose proof (amp_base tau radius l Ht). assert (INR l < INR l') by (apply lt_INR; lia). assert (0 < radius ^ 2) by nra.
  assert (INR l * (INR l + 1) / radius ^ 2 < INR l' * (INR l' + 1) / radius ^ 2). { apply Rmult_lt_compat_r. now apply Rinv_0_lt_compat. pose proof (pos_INR l). nra. }
  assert (ln (INR l * (INR l + 1) / radius ^ 2 + tau ^ 2) < ln (INR l' * (INR l' + 1) / radius ^ 2 + tau ^ 2)) by (apply ln_increasing; lra).
  assert (- alpha / 2 < 0) by lra. nra.
Qed.
