(** Round trips of the scalar transforms. *)
From Coq Require Import List Arith Lia Bool Reals Lra.
From Coquelicot Require Import Coquelicot.
From Verif Require Import TensorModel TensorProofs BigSum FFTModel FFTProofs TruncModel LegendreModel QuadModel SHTModel
  SHTSpec SHTValueProofs LegSpec LegProofs LegTableProofs QuadSpec PolyProofs QuadProofs SHTRoundSpec.
Import ListNotations.
Local Open Scope R_scope.

(** ** The longitudinal part *)
Lemma synth_trunc : forall n sz c j, synth n sz c j = synth n (Nat.min sz (n / 2 + 1)) c j.
Proof.
  intros. unfold synth. destruct (le_lt_dec sz (n / 2 + 1)). rewrite Nat.min_l by auto. auto.
  rewrite Nat.min_r by lia. replace sz with ((n / 2 + 1) + (sz - (n / 2 + 1)))%nat at 1 by lia. rewrite (bsum_split RT).
  rewrite (bsum_zero' RT (sz - (n / 2 + 1))). ring. intros i Hi. destruct (Nat.leb_spec (n / 2 + 1 + i) (n / 2)); auto; lia.
Qed.
Lemma fourier_synth : forall n sz c m, (1 <= n)%nat -> (m < sz)%nat -> fourier n (synth n sz c) m = Cmult (RtoC (2 * PI)) (real_order n m (c m)).
Proof.
  intros n sz c m Hn Hm. destruct (le_lt_dec m (n / 2)).
  2:{ unfold fourier, real_order. destruct (Nat.leb_spec m (n / 2)); try lia. ring. }
  set (sz' := Nat.min sz (n / 2 + 1)).
  rewrite (fourier_ext n _ (irfft NForward (Some n) sz' c)). 2:{ intros. rewrite synth_trunc, irfft_synth by auto. auto. }
  rewrite <- (fourier_eq (S m)) by lia. f_equal. rewrite rfft_irfft by (auto; unfold sz'; lia).
  destruct (Nat.ltb_spec m sz'); [|unfold sz' in *; lia]. unfold real_order. destruct (Nat.leb_spec m (n / 2)); [|lia].
  f_equal. unfold imag_scale. pose proof (Nat.div_mod n 2 ltac:(lia)). pose proof (Nat.mod_upper_bound n 2 ltac:(lia)).
  destruct (Nat.eqb_spec m 0), (Nat.eqb_spec (2 * m) n), (Nat.eqb_spec (n mod 2) 0), (Nat.ltb_spec (n / 2) sz'), (Nat.eqb_spec m (n / 2));
    cbn [orb andb]; try ring; exfalso; lia.
Qed.
Lemma real_order_sum : forall n m N (f : nat -> C) (r : nat -> R),
  real_order n m (csum N (fun l => Cmult (RtoC (r l)) (f l))) = csum N (fun l => Cmult (RtoC (r l)) (real_order n m (f l))).
Proof.
  intros. unfold real_order. destruct (m <=? n / 2)%nat.
  2:{ rewrite (bsum_zero' CT); auto. intros. ring. }
  apply C_ext; rewrite ?csum_Re, ?csum_Im; cbn [Re Im fst snd].
  - apply bsum_ext. intros. unfold Cmult, RtoC, Re. cbn [fst snd]. ring.
  - destruct (_ || _).
    + symmetry. apply (bsum_zero' RT). intros. unfold Cmult, RtoC, Im. cbn [fst snd]. ring.
    + apply bsum_ext. intros. unfold Cmult, RtoC, Im. cbn [fst snd]. ring.
Qed.
(** Synthesis only sees the representable part. *)
Lemma synth_real_order : forall n sz c j, (1 <= n)%nat -> synth n sz (fun m => real_order n m (c m)) j = synth n sz c j.
Proof.
  intros n sz c j Hn. rewrite synth_trunc, (synth_trunc n sz c). rewrite <- !irfft_synth by auto. apply irfft_ignores; auto;
  intros k Hk; unfold real_order; destruct (Nat.leb_spec k (n / 2)); try lia; cbn [Re Im fst snd]; auto.
  intros. destruct (Nat.eqb_spec k 0), (Nat.eqb_spec (2 * k) n); auto; lia.
Qed.
Lemma real_order_idem : forall n m z, real_order n m (real_order n m z) = real_order n m z.
Proof. intros. unfold real_order. destruct (m <=? n / 2)%nat; auto. cbn [Re Im fst snd]. destruct (_ || _); auto. Qed.

(** ** The tables *)
Lemma norm_cancel : forall nm l, norm_spec nm false l * norm_spec nm true l = 1.
Proof.
  intros. unfold norm_spec. apply Rinv_r. pose proof PI_RGT_0. pose proof (pos_INR l).
  assert (sqrt (4 * PI) <> 0) by (apply Rgt_not_eq, sqrt_lt_R0; lra).
  destruct nm; try lra; auto. apply Rmult_integral_contrapositive. split; auto. apply Rinv_neq_0_compat, Rgt_not_eq, sqrt_lt_R0. lra.
Qed.
Lemma phase_sq : forall cs m, phase_spec cs m * phase_spec cs m = 1.
Proof. intros. unfold phase_spec. destruct cs; [|ring]. rewrite odd_pow. destruct (Nat.odd m); ring. Qed.
Lemma real_sht_entry : forall h L M q nm cs m l k, (l < L)%nat ->
  val (real_sht_weights h L M q nm cs) [m; l; k]%nat = norm_spec nm false l * phase_spec cs m * alf l m (cos (sht_colat h q k)) * rw q k.
Proof. intros. unfold real_sht_weights. cbn [val nth]. unfold precompute_legpoly. rewrite legpoly_value by (try apply COS_bound; lia). auto. Qed.
Lemma inverse_sht_entry : forall h L M q nm cs m l k, (l < L)%nat ->
  val (inverse_sht_pct h L M q nm cs) [m; k; l]%nat = norm_spec nm true l * phase_spec cs m * alf l m (cos (sht_colat h q k)).
Proof. intros. unfold inverse_sht_pct. cbn [val nth]. unfold precompute_legpoly. rewrite legpoly_value by (try apply COS_bound; lia). auto. Qed.
Lemma colat_cos : forall h q k, (k < h)%nat -> (forall i, (i < h)%nat -> -1 <= rn q i <= 1) -> cos (sht_colat h q k) = rn q (h - 1 - k).
Proof. intros. unfold sht_colat, flip. apply cos_acos. apply H0. lia. Qed.

(** The rule sees a polynomial through the flipped nodes. *)
Lemma flipped_sum : forall h q d f, good_rule h q d -> is_poly d f ->
  rsum h (fun k => rw q k * f (cos (sht_colat h q k))) = RInt f (-1) 1.
Proof.
  intros h q d f (E & S & B) P. rewrite <- E by auto.
  rewrite (bsum_rev RT h (fun i => rw q i * f (rn q i))). apply bsum_ext. intros k Hk. cbv beta. rewrite colat_cos by auto. now rewrite S.
Qed.
Lemma good_rule_le : forall n q d d', good_rule n q d -> (d' <= d)%nat -> good_rule n q d'.
Proof. intros n q d d' (E & S & B) H. split; [|split]; auto. intros f P. apply E. eapply is_poly_le; eauto. Qed.
Lemma gram : forall h q nm cs L M m l l', good_rule h q (2 * (L - 1)) -> (l < L)%nat -> (l' < L)%nat ->
  rsum h (fun k => val (real_sht_weights h L M q nm cs) [m; l; k]%nat * val (inverse_sht_pct h L M q nm cs) [m; k; l']%nat)
  = if ((l =? l') && (m <=? l))%nat%bool then / (2 * PI) else 0.
Proof.
  intros h q nm cs L M m l l' G Hl Hl'.
  destruct (le_lt_dec m l). 2:{ rewrite (bsum_zero' RT). destruct (Nat.leb_spec m l); try lia. rewrite andb_false_r; auto.
    intros. rewrite real_sht_entry, alf_above by auto. ring. }
  destruct (Nat.leb_spec m l); [|lia]. rewrite andb_true_r.
  destruct (le_lt_dec m l'). 2:{ rewrite (bsum_zero' RT). destruct (Nat.eqb_spec l l'); auto; lia.
    intros. rewrite (inverse_sht_entry h L M q nm cs m l' i), (alf_above l') by auto. ring. }
  rewrite (bsum_ext h _ (fun k => (norm_spec nm false l * norm_spec nm true l') * (rw q k * alf2 m l l' (cos (sht_colat h q k))))).
  2:{ intros k Hk. rewrite real_sht_entry, inverse_sht_entry by auto. rewrite <- (alf_prod m l l') by (auto; apply COS_bound).
      transitivity ((phase_spec cs m * phase_spec cs m) * (norm_spec nm false l * norm_spec nm true l') * (rw q k * (alf l m (cos (sht_colat h q k)) * alf l' m (cos (sht_colat h q k))))).
      ring. rewrite phase_sq. ring. }
  rewrite (bsum_scal_l RT), (flipped_sum h q (l + l')).
  2:{ eapply good_rule_le; eauto. lia. } 2: now apply alf2_poly.
  rewrite alf2_int by auto. destruct (Nat.eqb_spec l l') as [->|]; [rewrite norm_cancel|]; ring.
Qed.

Lemma real_sht_init_eq : forall gl h w lm mm g nm cs s, real_sht_init gl h w lm mm g nm cs = Some s ->
  exists q L M, sht_rule gl h g = Some q /\ truncate_sht h w lm mm g = Some (L, M) /\ s = mkSHT h w L M (real_sht_weights h L M q nm cs).
Proof.
  intros gl h w lm mm g nm cs s E. unfold real_sht_init in E. destruct (sht_rule gl h g) as [q|]; [|discriminate]. cbn [bindo] in E.
  destruct (truncate_sht h w lm mm g) as [[a b]|]; [|discriminate]. cbn [bindo] in E. inversion E. exists q, a, b. auto.
Qed.
Lemma inverse_sht_init_eq : forall gl h w lm mm g nm cs s, inverse_sht_init gl h w lm mm g nm cs = Some s ->
  exists q L M, sht_rule gl h g = Some q /\ truncate_sht h w lm mm g = Some (L, M) /\ s = mkSHT h w L M (inverse_sht_pct h L M q nm cs).
Proof.
  intros gl h w lm mm g nm cs s E. unfold inverse_sht_init in E. destruct (sht_rule gl h g) as [q|]; [|discriminate]. cbn [bindo] in E.
  destruct (truncate_sht h w lm mm g) as [[a b]|]; [|discriminate]. cbn [bindo] in E. inversion E. exists q, a, b. auto.
Qed.
Lemma representable_value : forall n (c : tensor C) lead a b L l m, shp c = lead ++ [a; b]%nat -> length L = length lead ->
  val (representable n c) (L ++ [l; m]%nat) = representable_at n l m (val c (L ++ [l; m]%nat)).
Proof.
  intros n c lead a b L l m S HL. destruct (ndimAB _ c lead _ _ S) as (N2 & N1 & _). unfold representable. cbn [val].
  rewrite N2, N1, <- HL, nthA, nthB. auto.
Qed.

Lemma analyse_synthesise : forall h w L M q nm cs c l m, (1 <= w)%nat -> good_rule h q (2 * (L - 1)) -> (l < L)%nat -> (m < M)%nat ->
  analyse (real_sht_weights h L M q nm cs) h w (synthesise (inverse_sht_pct h L M q nm cs) L M w c) l m = representable_at w l m (c l m).
Proof.
  intros h w L M q nm cs c l m Hw G Hl Hm. unfold analyse, synthesise.
  set (W := real_sht_weights h L M q nm cs). set (V := inverse_sht_pct h L M q nm cs).
  rewrite (bsum_ext h _ (fun k => csum L (fun l' => Cmult (RtoC (2 * PI * (val W [m; l; k]%nat * val V [m; k; l']%nat))) (real_order w m (c l' m))))).
  2:{ intros k Hk. rewrite fourier_synth by auto. rewrite real_order_sum. rewrite <- !(bsum_scal_l CT). apply bsum_ext. intros l' Hl'. rewrite !RtoC_mult. ring. }
  rewrite (bsum_swap CT).
  rewrite (bsum_ext L _ (fun l' => if (l' =? l)%nat then representable_at w l m (c l m) else RtoC 0)).
  - now rewrite (bsum_delta_f CT L l (fun _ => representable_at w l m (c l m))) by auto.
  - intros l' Hl'. rewrite (bsum_scal_r CT).
    assert (E : csum h (fun k => RtoC (2 * PI * (val W [m; l; k]%nat * val V [m; k; l']%nat))) = RtoC (2 * PI * rsum h (fun k => val W [m; l; k]%nat * val V [m; k; l']%nat))).
    { rewrite <- (bsum_scal_l RT). symmetry. apply C_ext. rewrite csum_Re. reflexivity. rewrite csum_Im. symmetry. apply (bsum_zero' RT). reflexivity. }
    rewrite E. unfold W, V. rewrite gram by auto. pose proof PI_RGT_0. rewrite (Nat.eqb_sym l l'). unfold representable_at.
    destruct (Nat.eqb_spec l' l) as [->|]; cbn [andb].
    + destruct (m <=? l)%nat. replace (2 * PI * / (2 * PI)) with 1 by (field; lra). ring. rewrite Rmult_0_r. ring.
    + rewrite Rmult_0_r. ring.
Qed.

Section Round.
Variables (gl : nat -> rule) (h w : nat) (lm mm : option nat) (g : grid) (nm : shnorm) (cs : bool) (s t : sht) (q : rule).
Hypotheses (Es : real_sht_init gl h w lm mm g nm cs = Some s) (Et : inverse_sht_init gl h w lm mm g nm cs = Some t)
  (Eq : sht_rule gl h g = Some q) (G : good_rule h q (2 * (s_lmax s - 1))) (Hw : (1 <= w)%nat).

Lemma sht_isht : forall lead c, shp c = lead ++ [s_lmax s; s_mmax s] ->
  exists f z, inverse_sht t c = Some f /\ real_sht s f = Some z /\ teq z (representable w c).
Proof.
  intros lead c Sc. pose proof (init_weights _ _ _ _ _ _ _ _ _ Es) as W1. pose proof (inv_init_weights _ _ _ _ _ _ _ _ _ Et) as W2.
  destruct (real_sht_init_eq _ _ _ _ _ _ _ _ _ Es) as (q1 & L & M & E1 & T1 & ->).
  destruct (inverse_sht_init_eq _ _ _ _ _ _ _ _ _ Et) as (q2 & L2 & M2 & E2 & T2 & ->).
  rewrite Eq in E1, E2. inversion E1; inversion E2; subst q1 q2. rewrite T1 in T2. inversion T2; subst L2 M2.
  cbn [s_lmax s_mmax s_nlat s_nlon s_weights] in *.
  destruct (inverse_sht_value (mkSHT h w L M (inverse_sht_pct h L M q nm cs)) lead c Hw W2 Sc) as (f & Ef & Sf & Vf). cbn [s_lmax s_mmax s_nlat s_nlon s_weights] in *.
  destruct (real_sht_value (mkSHT h w L M (real_sht_weights h L M q nm cs)) lead f W1 Sf) as (z & Ez & Sz & Vz). cbn [s_lmax s_mmax s_nlat s_nlon s_weights] in *.
  exists f, z. repeat split; auto. unfold representable. cbn [shp]. congruence.
  intros i Vi. rewrite Sz in Vi. destruct (valid_last2 _ _ _ _ Vi) as (I & l & m & -> & HL & VL & Hl & Hm).
  rewrite Vz by auto. erewrite representable_value by eauto.
  rewrite <- (analyse_synthesise h w L M q nm cs (fun l m => val c (I ++ [l; m]%nat))) by auto.
  apply analyse_ext. intros. apply Vf. auto.
Qed.

(** The inverse transform ignores what is not representable. *)
Lemma isht_representable : forall lead c, shp c = lead ++ [s_lmax s; s_mmax s] ->
  exists f f', inverse_sht t c = Some f /\ inverse_sht t (representable w c) = Some f' /\ teq f' f.
Proof.
  intros lead c Sc. pose proof (inv_init_weights _ _ _ _ _ _ _ _ _ Et) as W2.
  destruct (real_sht_init_eq _ _ _ _ _ _ _ _ _ Es) as (q1 & L & M & E1 & T1 & ->).
  destruct (inverse_sht_init_eq _ _ _ _ _ _ _ _ _ Et) as (q2 & L2 & M2 & E2 & T2 & ->).
  rewrite Eq in E1, E2. inversion E1; inversion E2; subst q1 q2. rewrite T1 in T2. inversion T2; subst L2 M2.
  cbn [s_lmax s_mmax s_nlat s_nlon s_weights] in *.
  destruct (inverse_sht_value (mkSHT h w L M (inverse_sht_pct h L M q nm cs)) lead c Hw W2 Sc) as (f & Ef & Sf & Vf).
  destruct (inverse_sht_value (mkSHT h w L M (inverse_sht_pct h L M q nm cs)) lead (representable w c) Hw W2 Sc) as (f' & Ef' & Sf' & Vf').
  cbn [s_lmax s_mmax s_nlat s_nlon s_weights] in *.
  exists f, f'. repeat split; auto. congruence. intros i Vi. rewrite Sf' in Vi. destruct (valid_last2 _ _ _ _ Vi) as (I & k & j & -> & HL & VL & Hk & Hj).
  rewrite Vf, Vf' by auto. unfold synthesise. rewrite <- synth_real_order by auto. rewrite <- (synth_real_order w M (fun m => csum L (fun l => Cmult _ (val c (I ++ [l; m]%nat))))) by auto.
  apply synth_ext. intros m Hm. rewrite !real_order_sum. apply bsum_ext. intros l Hl. erewrite representable_value by eauto. rewrite inverse_sht_entry by auto.
  unfold representable_at. destruct (Nat.leb_spec m l). now rewrite real_order_idem. rewrite alf_above by auto. rewrite !Rmult_0_r. ring.
Qed.

Lemma isht_sht_isht : forall lead c, shp c = lead ++ [s_lmax s; s_mmax s] ->
  exists f z f', inverse_sht t c = Some f /\ real_sht s f = Some z /\ inverse_sht t z = Some f' /\ teq f' f.
Proof.
  intros lead c Sc. destruct (sht_isht lead c Sc) as (f & z & Ef & Ez & Tz). destruct (isht_representable lead c Sc) as (f2 & f' & Ef2 & Ef' & Tf).
  rewrite Ef in Ef2. inversion Ef2; subst f2.
  pose proof (inv_init_weights _ _ _ _ _ _ _ _ _ Et) as W2.
  destruct (real_sht_init_eq _ _ _ _ _ _ _ _ _ Es) as (q1 & L & M & E1 & T1 & Hs).
  destruct (inverse_sht_init_eq _ _ _ _ _ _ _ _ _ Et) as (q2 & L2 & M2 & E2 & T2 & Ht).
  rewrite T1 in T2. inversion T2; subst L2 M2.
  assert (L1 : s_lmax t = s_lmax s) by now rewrite Hs, Ht. assert (L2 : s_mmax t = s_mmax s) by now rewrite Hs, Ht. assert (Hw' : (1 <= s_nlon t)%nat) by now rewrite Ht.
  assert (Sz : shp z = lead ++ [s_lmax t; s_mmax t]). { destruct Tz as [Tz _]. rewrite Tz. unfold representable. cbn [shp]. now rewrite L1, L2. }
  assert (Sr : shp (representable w c) = lead ++ [s_lmax t; s_mmax t]) by now rewrite L1, L2.
  destruct (inverse_sht_value t lead z Hw' W2 Sz) as (f3 & Ef3 & Sf3 & Vf3).
  destruct (inverse_sht_value t lead (representable w c) Hw' W2 Sr) as (f4 & Ef4 & Sf4 & Vf4).
  rewrite Ef' in Ef4. inversion Ef4; subst f4.
  exists f, z, f3. repeat split; auto. destruct Tf as [Tf _]. congruence.
  intros i Vi. destruct Tf as [Tf1 Tf2]. rewrite <- Tf2 by congruence. rewrite Sf3 in Vi. destruct (valid_last2 _ _ _ _ Vi) as (I & k & j & -> & HL & VL & Hk & Hj).
  rewrite Vf3, Vf4 by auto. unfold synthesise. apply synth_ext. intros m Hm. apply bsum_ext. intros l Hl. f_equal.
  destruct Tz as [Tz1 Tz2]. apply Tz2. rewrite Sz. apply valid_app; auto. split; auto. apply valid_cons. split; auto. apply valid_cons. split; auto. apply valid_nil.
Qed.
End Round.
