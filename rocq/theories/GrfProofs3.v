(** The coefficients of a sampled field, its mean and the constructor. *)
From Coq Require Import List Arith Lia Bool Reals Lra.
From Coquelicot Require Import Coquelicot.
From Verif Require Import TensorModel TensorProofs BigSum FFTModel TruncModel TruncSpec TruncProofs LegendreModel LegSpec QuadModel QuadSpec PolyProofs CCProofs QuadProofs LegTableProofs
  SHTModel SHTSpec SHTRoundSpec SHTValueProofs SHTRoundProofs FFTProofs SHTMeanProofs UnsoldProofs SHTBandProofs QuadPropProofs GrfModel GrfSpec GrfProofs GrfProofs2.
Import ListNotations.
Local Open Scope R_scope.

Lemma same_sign : forall cs cs' m, phase_spec cs m * phase_spec cs' m = phase_spec (xorb cs cs') m.
Proof.
  intros. pose proof (phase_sq true m) as P. unfold phase_spec in *. destruct cs, cs'; cbn [xorb]; try ring. exact P.
Qed.
Lemma valid_2 : forall lead a b L p q, valid lead L -> (p < a)%nat -> (q < b)%nat -> valid (lead ++ [a; b]) (L ++ [p; q]).
Proof.
  intros lead a b L p q [H1 H2] Ha Hb. split. rewrite !app_length, H1. reflexivity. intros d Hd. rewrite app_length in Hd. cbn in Hd.
  destruct (lt_dec d (length lead)). { rewrite !app_nth1 by lia. auto. }
  rewrite !app_nth2 by lia. rewrite H1. destruct (d - length lead)%nat as [|[|k]] eqn:Q; cbn; lia.
Qed.
Section C.
Variables (gl : nat -> rule) (nlat : nat) (alpha tau : R) (sigma : option R) (radius : R) (g : grid) (f : grf) (q : rule) (s : R).
Hypotheses (E : grf_init gl nlat alpha tau sigma radius g = Some f) (Eq : sht_rule gl nlat g = Some q) (Es : grf_sigma alpha tau sigma = Some s)
  (G : good_rule nlat q (2 * (s_lmax (g_isht f) - 1))).

Lemma coefficients : forall nm cs lead xi, (1 <= length lead)%nat -> shp xi = lead ++ [s_lmax (g_isht f); s_mmax (g_isht f)] ->
  exists S u z, real_sht_init gl nlat (2 * nlat) None None g nm cs = Some S /\ grf_forward f xi = Some u /\ real_sht S u = Some z /\ shp z = shp xi /\
  forall I l m, valid lead I -> (l < s_lmax (g_isht f))%nat -> (m < s_mmax (g_isht f))%nat ->
    val z (I ++ [l; m]%nat) = Cmult (RtoC (norm_spec nm false l / sqrt (4 * PI) * phase_spec (negb cs) m * amp alpha tau s radius l m))
      (Re (val xi (I ++ [l; m]%nat)), if (m =? 0)%nat then 0 else Im (val xi (I ++ [l; m]%nat))).
Proof.
  intros nm cs lead xi HL Sx.
  assert (E' := E). unfold grf_init in E'. rewrite Es in E'. cbn [bindo] in E'.
  destruct (inverse_sht_init gl nlat (2 * nlat) None None g FourPi true) as [t|] eqn:Et; [|discriminate]. cbn [bindo] in E'. injection E' as Ef.
  destruct (inverse_sht_init_eq _ _ _ _ _ _ _ _ _ Et) as (q' & L & M & Eq' & ET & Dt). rewrite Eq in Eq'. injection Eq' as <-.
  assert (RI : forall nm cs, real_sht_init gl nlat (2 * nlat) None None g nm cs = Some (mkSHT nlat (2 * nlat) L M (real_sht_weights nlat L M q nm cs))).
  { intros. unfold real_sht_init. rewrite Eq. cbn [bindo]. rewrite ET. reflexivity. }
  destruct (init_inv _ _ _ _ _ _ _ _ E) as (s1 & q1 & L1 & _ & _ & _ & Hn & HLn & Ef1).
  assert (Gt : g_isht f = t) by (rewrite <- Ef; reflexivity). assert (HLt : s_lmax t = L) by (rewrite Dt; reflexivity). assert (HMt : s_mmax t = M) by (rewrite Dt; reflexivity).
  assert (HML : M = L /\ (L <= nlat)%nat). { rewrite <- HLt, <- HMt, <- Gt, Ef1. cbn. auto. } destruct HML as [HML HLn']. clear HLn. rename HLn' into HLn.
  assert (G' : good_rule nlat q (2 * (L - 1))) by (rewrite <- HLt, <- Gt; exact G). rewrite Gt in Sx |- *. rewrite HLt, HMt in Sx |- *.
  destruct (mul_modes_value (grf_sqrt_eig L M alpha tau s radius) lead L M xi eq_refl HL Sx) as (c & Ec & Sc & Vc).
  destruct (sht_isht gl nlat (2 * nlat) None None g FourPi true _ t q (RI FourPi true) Et Eq) with (lead := lead) (c := c) as (u & zF & Eu & EzF & TzF); auto; try lia.
  assert (Hw : (1 <= s_nlon t)%nat) by (rewrite Dt; cbn; lia). assert (Sc' : shp c = lead ++ [s_lmax t; s_mmax t]) by (rewrite HLt, HMt; exact Sc).
  destruct (inverse_sht_value t lead c Hw (inv_init_weights _ _ _ _ _ _ _ _ _ Et) Sc') as (u' & Eu' & Su & _). rewrite Eu in Eu'. injection Eu' as <-. rewrite Dt in Su. cbn [s_nlat s_nlon] in Su.
  destruct (sht_convention gl nlat (2 * nlat) None None g FourPi true _ _ lead u (RI FourPi true) (RI Ortho false) Su) as (zF' & z0 & EzF' & Ez0 & T0). rewrite EzF in EzF'. injection EzF' as <-.
  destruct (sht_convention gl nlat (2 * nlat) None None g nm cs _ _ lead u (RI nm cs) (RI Ortho false) Su) as (z & z0' & Ez & Ez0' & T1). rewrite Ez0 in Ez0'. injection Ez0' as <-.
  exists (mkSHT nlat (2 * nlat) L M (real_sht_weights nlat L M q nm cs)), u, z. split; [apply RI|]. split.
  { unfold grf_forward. rewrite <- Ef. cbn [g_sqrt_eig g_isht]. rewrite HLt, HMt, Ec. cbn [bindo]. exact Eu. }
  split; [exact Ez|]. destruct TzF as [SF VF]. destruct T0 as [S0 V0]. destruct T1 as [S1 V1]. cbn [representable convention shp] in *.
  assert (Sz0 : shp z0 = lead ++ [L; M]) by congruence. assert (Sz : shp z = lead ++ [L; M]) by congruence. split; [congruence|].
  intros I l m VI Hl Hm. assert (HI : length I = length lead) by exact (proj1 VI).
  assert (W : valid (lead ++ [L; M]) (I ++ [l; m]%nat)) by (apply valid_2; auto).
  rewrite V1 by (rewrite Sz; auto). specialize (V0 (I ++ [l; m]%nat)). rewrite SF, Sc in V0. specialize (V0 W). rewrite VF in V0 by (rewrite SF, Sc; auto).
  unfold convention, representable in *. cbn [val] in *. assert (Nd : ndim c = (length lead + 2)%nat) by (unfold ndim; rewrite Sc, app_length; reflexivity).
  assert (Nz : ndim z0 = (length lead + 2)%nat) by (unfold ndim; rewrite Sz0, app_length; reflexivity). rewrite Nd, Nz in *.
  replace (nth (length lead + 2 - 2) (I ++ [l; m]%nat) 0%nat) with l in * by (rewrite app_nth2 by lia; replace (length lead + 2 - 2 - length I)%nat with 0%nat by lia; reflexivity).
  replace (nth (length lead + 2 - 1) (I ++ [l; m]%nat) 0%nat) with m in * by (rewrite app_nth2 by lia; replace (length lead + 2 - 1 - length I)%nat with 1%nat by lia; reflexivity).
  rewrite Vc, eig_value in V0 by auto. pose proof s4 as K4. assert (PP := phase_sq true m).
  assert (RO : representable_at (2 * nlat) l m (Cmult (val xi (I ++ [l; m]%nat)) (RtoC (amp alpha tau s radius l m))) =
    Cmult (RtoC (amp alpha tau s radius l m)) (Re (val xi (I ++ [l; m]%nat)), if (m =? 0)%nat then 0 else Im (val xi (I ++ [l; m]%nat)))).
  { unfold representable_at, real_order. replace (2 * nlat / 2)%nat with nlat by (rewrite Nat.mul_comm, Nat.div_mul; lia). rewrite (proj2 (Nat.leb_le m nlat)) by lia.
    destruct (Nat.leb_spec m l) as [Hml|Hml]. 2:{ unfold amp. rewrite (proj2 (Nat.leb_gt m l)), andb_false_r by auto. ring. }
    replace (2 * m =? 2 * nlat)%nat with false by (symmetry; apply Nat.eqb_neq; lia). rewrite orb_false_r. unfold Cmult, RtoC, Re, Im. cbn [fst snd]. destruct (m =? 0)%nat; apply injective_projections; cbn [fst snd]; ring. }
  rewrite RO in V0. set (y := (Re (val xi (I ++ [l; m]%nat)), _)) in *.
  assert (NF : norm_spec FourPi false l = sqrt (4 * PI)) by reflexivity. rewrite NF in V0.
  assert (Z0 : val z0 (I ++ [l; m]%nat) = Cmult (RtoC (phase_spec true m / sqrt (4 * PI) * amp alpha tau s radius l m)) y).
  { replace (phase_spec true m / sqrt (4 * PI) * amp alpha tau s radius l m) with (phase_spec true m / sqrt (4 * PI) * amp alpha tau s radius l m) by ring. rewrite RtoC_mult.
    rewrite <- Cmult_assoc, V0, Cmult_assoc, <- RtoC_mult.
    replace (phase_spec true m / sqrt (4 * PI) * (sqrt (4 * PI) * phase_spec true m)) with (phase_spec true m * phase_spec true m) by (field; lra). rewrite PP. ring. }
  rewrite Z0, Cmult_assoc, <- RtoC_mult. f_equal. f_equal. rewrite <- (xorb_true_r cs), <- same_sign. unfold Rdiv. ring.
Qed.
End C.

Lemma init_decides : forall gl nlat alpha tau sigma radius g,
  grf_init gl nlat alpha tau sigma radius g = None <->
  (sigma = None /\ alpha <= 1) \/ inverse_sht_init gl nlat (2 * nlat) None None g FourPi true = None.
Proof.
  intros. unfold grf_init. destruct (grf_sigma alpha tau sigma) as [s|] eqn:Es; cbn [bindo].
  - assert (N : ~ (sigma = None /\ alpha <= 1)) by (rewrite <- sigma_none with (tau := tau); congruence).
    destruct (inverse_sht_init _ _ _ _ _ _ _ _); cbn [bindo]; split; try discriminate; auto. intros [Q|Q]; [contradiction|discriminate].
  - apply sigma_none in Es. tauto.
Qed.

Section M.
Variables (gl : nat -> rule) (nlat : nat) (alpha tau : R) (sigma : option R) (radius : R) (g : grid) (f : grf) (q : rule).
Hypotheses (E : grf_init gl nlat alpha tau sigma radius g = Some f) (Eq : quadrature_s2_rule gl nlat g = Some q) (G : good_rule nlat q (s_lmax (g_isht f) - 1)).
Lemma zero_integral : forall N K nz xi u, shp xi = [N; s_lmax (g_isht f); s_mmax (g_isht f)] -> grf_forward f xi = Some u ->
  exists v, quadrature_s2 gl nlat (2 * nlat) g nz u = Some v /\ ((K < N)%nat -> val v [0; K]%nat = 0).
Proof.
  intros N K nz xi u Sx Eu. destruct (forward_value _ _ _ _ _ _ _ _ E [N] xi ltac:(cbn; lia) Sx) as (s & q' & u' & Es & Eq' & Eu' & Su & _). rewrite Eu in Eu'. injection Eu' as <-.
  assert (q' = q). { destruct g; cbn in *; congruence. } subst q'.
  unfold quadrature_s2. rewrite Eq. unfold integrate_last2, ndim, dimsz. rewrite Su. cbn [app length Nat.sub Nat.add nth Nat.leb andb].
  assert (SQ : shape_eqb (shp (quad_weight_tensor nlat (2 * nlat) (rw q) nz)) [1; 1; nlat; (2 * nlat)]%nat = true) by (apply shape_eqb_true; reflexivity). rewrite SQ.
  eexists. split; [reflexivity|]. intros HK. cbn [val skipn app].
  pose proof (forward_total _ _ _ _ _ _ _ _ E [N] xi q u [K] ltac:(cbn; lia) Sx Eq' G Eu eq_refl) as T. cbn [app] in T.
  set (d := if nz then 2 * PI / INR (2 * nlat) / (4 * PI) else 2 * PI / INR (2 * nlat)).
  rewrite (bsum_ext nlat _ (fun k => d * rsum (2 * nlat) (fun j => val u [K; k; j]%nat * rw q k))).
  rewrite (bsum_scal_l RT), T. ring.
  intros k Hk. rewrite <- (bsum_scal_l RT). apply bsum_ext. intros j Hj. unfold quad_weight_tensor. cbn [val nth]. unfold d. destruct nz; unfold Rdiv; ring.
Qed.
End M.

Section R.
Variables (gl : nat -> rule) (nlat : nat) (alpha tau : R) (sigma : option R) (radius : R) (g : grid) (f : grf).
Hypothesis (E : grf_init gl nlat alpha tau sigma radius g = Some f).
Lemma rotation : forall lead r xi u, (1 <= length lead)%nat -> shp xi = lead ++ [s_lmax (g_isht f); s_mmax (g_isht f)] -> grf_forward f xi = Some u ->
  exists v, grf_forward f (phase_last (2 * nlat) r xi) = Some v /\ teq v (roll_last r u).
Proof.
  intros lead r xi u HL Sx Eu.
  assert (E' := E). unfold grf_init in E'. destruct (grf_sigma alpha tau sigma) as [s|]; [|discriminate]. cbn [bindo] in E'.
  destruct (inverse_sht_init gl nlat (2 * nlat) None None g FourPi true) as [t|] eqn:Et; [|discriminate]. cbn [bindo] in E'. injection E' as Ef.
  assert (Gt : g_isht f = t) by (rewrite <- Ef; reflexivity). destruct (init_inv _ _ _ _ _ _ _ _ E) as (s1 & q1 & L1 & _ & _ & _ & Hn & HLn & Ef1).
  assert (Nt : s_nlon t = (2 * nlat)%nat) by (rewrite <- Gt, Ef1; reflexivity).
  rewrite Gt in Sx. destruct (mul_modes_value (g_sqrt_eig f) lead (s_lmax t) (s_mmax t) xi ltac:(rewrite <- Ef; reflexivity) HL Sx) as (c & Ec & Sc & Vc).
  destruct (mul_modes_value (g_sqrt_eig f) lead (s_lmax t) (s_mmax t) (phase_last (2 * nlat) r xi) ltac:(rewrite <- Ef; reflexivity) HL Sx) as (c' & Ec' & Sc' & Vc').
  unfold grf_forward in *. rewrite Ec in Eu. rewrite Ec'. cbn [bindo] in *. rewrite Gt in *.
  pose proof (inv_init_weights _ _ _ _ _ _ _ _ _ Et) as W. assert (Hw : (1 <= s_nlon t)%nat) by lia.
  destruct (inverse_sht_phase t lead Hw r c u W Sc Eu) as (Z & EZ & TZ).
  assert (TC : teq c' (phase_last (s_nlon t) r c)).
  { apply (teq_last2 _ lead (s_lmax t) (s_mmax t)); auto. intros I l m HI VI Hl Hm. rewrite Vc' by auto. unfold phase_last. cbn [val].
    assert (N1 : ndim xi = (length I + 2)%nat) by (unfold ndim; rewrite Sx, app_length, HI; reflexivity). assert (N2 : ndim c = (length I + 2)%nat) by (unfold ndim; rewrite Sc, app_length, HI; reflexivity).
    rewrite N1, N2. rewrite Vc by auto. rewrite app_nth2 by lia. replace (length I + 2 - 1 - length I)%nat with 1%nat by lia. cbn [nth]. rewrite Nt. ring. }
  destruct (inverse_sht_teq t lead (phase_last (s_nlon t) r c) c' Z Hw W Sc TC EZ) as (Y & EY & TY). exists Y. split; auto.
  destruct TY as [A1 A2], TZ as [B1 B2]. split. congruence. intros i Vi. rewrite A2 by auto. apply B2. rewrite <- A1. auto.
Qed.
End R.
