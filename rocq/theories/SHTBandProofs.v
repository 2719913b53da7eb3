(** Band-limited fields, and independence of the conventions. *)
From Coq Require Import List Arith Lia Bool Reals Lra.
From Coquelicot Require Import Coquelicot.
From Verif Require Import TensorModel TensorProofs BigSum FFTModel FFTProofs TruncModel TruncSpec TruncProofs LegendreModel QuadModel SHTModel
  SHTSpec SHTValueProofs LegSpec LegProofs LegTableProofs QuadSpec PolyProofs QuadProofs QuadPropProofs SHTRoundSpec SHTRoundProofs.
Import ListNotations.
Local Open Scope R_scope.

Lemma real_sht_teq : forall s lead x y X, wshape s (s_mmax s) (s_lmax s) (s_nlat s) -> shp x = lead ++ [s_nlat s; s_nlon s] ->
  teq y x -> real_sht s x = Some X -> exists Y, real_sht s y = Some Y /\ teq Y X.
Proof.
  intros s lead x y X W Sx [T1 T2] E. destruct (real_sht_value s lead x W Sx) as (X' & E' & SX & VX). rewrite E in E'. inversion E'; subst X'.
  destruct (real_sht_value s lead y W ltac:(congruence)) as (Y & EY & SY & VY). exists Y. split; auto. eapply teq_last2; eauto.
  intros. rewrite VY, VX by auto. apply analyse_ext. intros. apply T2. rewrite T1, Sx. apply valid_app; auto. split; auto.
  apply valid_cons; split; auto. apply valid_cons; split; auto. apply valid_nil.
Qed.
Lemma inverse_sht_teq : forall s lead x y X, (1 <= s_nlon s)%nat -> wshape s (s_mmax s) (s_nlat s) (s_lmax s) -> shp x = lead ++ [s_lmax s; s_mmax s] ->
  teq y x -> inverse_sht s x = Some X -> exists Y, inverse_sht s y = Some Y /\ teq Y X.
Proof.
  intros s lead x y X Hw W Sx [T1 T2] E. destruct (inverse_sht_value s lead x Hw W Sx) as (X' & E' & SX & VX). rewrite E in E'. inversion E'; subst X'.
  destruct (inverse_sht_value s lead y Hw W ltac:(congruence)) as (Y & EY & SY & VY). exists Y. split; auto. eapply teq_last2; eauto.
  intros. rewrite VY, VX by auto. unfold synthesise. apply synth_ext. intros. apply bsum_ext. intros. f_equal. apply T2. rewrite T1, Sx. apply valid_app; auto. split; auto.
  apply valid_cons; split; auto. apply valid_cons; split; auto. apply valid_nil.
Qed.

Lemma rsum_indicator : forall N k f, (k <= N)%nat -> rsum N (fun i => if (i <? k)%nat then f i else 0) = rsum k f.
Proof.
  intros. replace N with (k + (N - k))%nat by lia. rewrite (bsum_split RT), (bsum_zero' RT (N - k)). rewrite Rplus_0_r.
  apply bsum_ext. intros. destruct (Nat.ltb_spec i k); auto; lia. intros. destruct (Nat.ltb_spec (k + i) k); auto; lia.
Qed.
Lemma longitude : forall w j, (1 <= w)%nat -> precompute_longitudes w j = 2 * PI * INR j / INR w.
Proof. intros. unfold precompute_longitudes, linspace. replace (w + 1 - 1)%nat with w by lia. unfold Rdiv. ring. Qed.
Lemma sin_npi : forall j, sin (INR j * PI) = 0.
Proof. induction j. simpl. rewrite Rmult_0_l. apply sin_0. rewrite S_INR, Rmult_plus_distr_r, Rmult_1_l, neg_sin, IHj. ring. Qed.
Lemma norm_nz : forall nm l, norm_spec nm true l <> 0.
Proof. intros nm l E. pose proof (norm_cancel nm l). rewrite E in H. lra. Qed.

Lemma harmonic_synth : forall h w L M q nm cs a b k j, (1 <= w)%nat -> (M <= w / 2)%nat ->
  synthesise (inverse_sht_pct h L L q nm cs) L L w (harmonic_coeff nm cs w M a b) k j =
  harmonic_sum L M a b (sht_colat h q k) (precompute_longitudes w j).
Proof.
  intros h w L M q nm cs a b k j Hw HM. assert (Nz : INR w <> 0) by (apply not_0_INR; lia).
  pose (T := fun l m => alf l m (cos (sht_colat h q k)) * (a l m * cos (INR m * precompute_longitudes w j) + b l m * sin (INR m * precompute_longitudes w j))).
  transitivity (rsum L (fun m => rsum L (fun l => if (m <? S (Nat.min l M))%nat then T l m else 0))).
  2:{ rewrite (bsum_swap RT). unfold harmonic_sum. apply bsum_ext. intros l Hl. exact (rsum_indicator L (S (Nat.min l M)) (T l) ltac:(lia)). }
  unfold synthesise, synth. apply bsum_ext. intros m Hm. destruct (Nat.leb_spec m (w / 2)).
  2:{ symmetry. apply (bsum_zero' RT). intros l Hl. destruct (Nat.ltb_spec m (S (Nat.min l M))); auto; lia. }
  rewrite <- (bsum_scal_r CT), csum_Re, <- (bsum_scal_l RT). apply bsum_ext. intros l Hl. rewrite inverse_sht_entry by auto. unfold harmonic_coeff.
  destruct (Nat.ltb_spec m (S (Nat.min l M))), (Nat.leb_spec m (Nat.min l M)); try lia.
  2:{ unfold Cmult, RtoC, Re, cis. cbn [fst snd]. ring. }
  unfold T. rewrite longitude by auto. replace (INR m * (2 * PI * INR j / INR w)) with (2 * PI * INR j * INR m / INR w) by (unfold Rdiv; ring).
  set (x := 2 * PI * INR j * INR m / INR w). set (A := alf l m _). assert (N := norm_cancel nm l). assert (P := phase_sq cs m).
  set (nf := norm_spec nm false l) in *. set (nt := norm_spec nm true l) in *. set (ph := phase_spec cs m) in *.
  assert (S0 : (m = 0 \/ 2 * m = w)%nat -> sin x = 0).
  { intros [->|E]. unfold x. rewrite Rmult_0_r. unfold Rdiv. rewrite Rmult_0_l. apply sin_0.
    replace x with (INR j * PI). apply sin_npi. unfold x. rewrite <- E in Nz |- *. rewrite mult_INR in *. simpl (INR 2) in *. field. intros Z. rewrite Z in Nz. lra. }
  unfold mirror, Cmult, RtoC, Re, cis. cbn [fst snd].
  transitivity ((nf * nt) * (ph * ph) * (A * (a l m * cos x + b l m * sin x))); [|rewrite N, P; ring].
  destruct (Nat.eqb_spec m 0), (Nat.eqb_spec (2 * m) w); cbn [orb]; try rewrite S0 by auto; field.
Qed.

(** ** A band-limited field is its inverse transform *)
Section Band.
Variables (gl : nat -> rule) (h w : nat) (lm mm : option nat) (g : grid) (nm : shnorm) (cs : bool) (s t : sht) (q lat : rule).
Hypotheses (Es : real_sht_init gl h w lm mm g nm cs = Some s) (Et : inverse_sht_init gl h w lm mm g nm cs = Some t)
  (Eq : sht_rule gl h g = Some q) (G : good_rule h q (2 * (s_lmax s - 1))) (Hw : (1 <= w)%nat)
  (El : precompute_latitudes gl h g = Some lat).
Variables (lead : list nat) (M : nat) (a b : list nat -> nat -> nat -> R) (x : tensor R).
Hypotheses (HM : (M <= w / 2)%nat) (Sx : shp x = lead ++ [h; w])
  (Vx : forall I k j, valid lead I -> (k < h)%nat -> (j < w)%nat ->
     val x (I ++ [k; j]%nat) = harmonic_sum (s_lmax s) M (a I) (b I) (rn lat k) (precompute_longitudes w j)).

Lemma lat_colat : forall k, rn lat k = sht_colat h q k.
Proof.
  intros. assert (E : quadrature_s2_rule gl h g = Some q) by (destruct g; auto; discriminate). destruct (lat_value _ _ _ _ _ E El k). auto.
Qed.
Definition band_coeffs : tensor C :=
  mkT (lead ++ [s_lmax s; s_mmax s]) (fun i => harmonic_coeff nm cs w M (a (firstn (length lead) i)) (b (firstn (length lead) i)) (nth (length lead) i 0%nat) (nth (S (length lead)) i 0%nat)).
Lemma band_coeffs_value : forall I l m, length I = length lead -> val band_coeffs (I ++ [l; m]%nat) = harmonic_coeff nm cs w M (a I) (b I) l m.
Proof. intros. unfold band_coeffs. cbn [val]. rewrite <- H, firstn_app, firstn_all, Nat.sub_diag, nthA, nthB. cbn [firstn]. now rewrite app_nil_r. Qed.

Lemma band_isht : exists f, inverse_sht t band_coeffs = Some f /\ teq f x.
Proof.
  pose proof (inv_init_weights _ _ _ _ _ _ _ _ _ Et) as W2.
  destruct (real_sht_init_eq _ _ _ _ _ _ _ _ _ Es) as (q1 & L & M1 & E1 & T1 & Hs).
  destruct (inverse_sht_init_eq _ _ _ _ _ _ _ _ _ Et) as (q2 & L2 & M2 & E2 & T2 & Ht).
  rewrite Eq in E1, E2. inversion E1; inversion E2; subst q1 q2. rewrite T1 in T2. inversion T2; subst L2 M2.
  pose proof (truncate_sht_triangular _ _ _ _ _ _ _ T1) as TR. subst M1.
  assert (Hw' : (1 <= s_nlon t)%nat) by now rewrite Ht.
  destruct (inverse_sht_value t lead band_coeffs Hw' W2) as (f & Ef & Sf & Vf). unfold band_coeffs. cbn [shp]. rewrite Hs, Ht. reflexivity.
  exists f. split; auto. apply (teq_last2 _ lead h w); auto. rewrite Sf, Ht. reflexivity.
  intros I k j HI VI Hk Hj. rewrite Vf, Vx, lat_colat by auto. rewrite Ht, Hs. cbn [s_lmax s_mmax s_nlon s_weights].
  rewrite <- (harmonic_synth h w L M q nm cs) by auto. unfold synthesise. apply synth_ext. intros. apply bsum_ext. intros. now rewrite band_coeffs_value.
Qed.

Lemma band_representable : forall l m A B, representable_at w l m (harmonic_coeff nm cs w M A B l m) = harmonic_coeff nm cs w M A B l m.
Proof.
  intros. unfold representable_at, harmonic_coeff, real_order. destruct (Nat.leb_spec m (Nat.min l M)).
  - destruct (Nat.leb_spec m l); [|lia]. destruct (Nat.leb_spec m (w / 2)); [|lia]. apply C_ext; auto. cbn [Im snd]. destruct (_ || _); auto.
    unfold Cmult, RtoC, Im. cbn [fst snd]. ring.
  - destruct (m <=? l)%nat; auto. destruct (m <=? w / 2)%nat; auto. destruct (_ || _); reflexivity.
Qed.

Lemma band_sht : exists c, real_sht s x = Some c /\ teq c band_coeffs.
Proof.
  destruct band_isht as (f & Ef & Tf). destruct (sht_isht gl h w lm mm g nm cs s t q Es Et Eq G Hw lead band_coeffs eq_refl) as (f' & z & Ef' & Ez & Tz).
  rewrite Ef in Ef'. inversion Ef'; subst f'. pose proof (init_weights _ _ _ _ _ _ _ _ _ Es) as W1.
  destruct (real_sht_init_eq _ _ _ _ _ _ _ _ _ Es) as (q1 & L & M1 & E1 & T1 & Hs).
  assert (Sf : shp f = lead ++ [s_nlat s; s_nlon s]). { destruct Tf as [-> _]. now rewrite Sx, Hs. }
  destruct (real_sht_teq s lead f x z W1 Sf (teq_sym _ _ _ Tf) Ez) as (c & Ec & Tc). exists c. split; auto.
  eapply teq_trans; eauto. eapply teq_trans; eauto. apply (teq_last2 _ lead (s_lmax s) (s_mmax s)); auto.
  intros I l m HI _ _ _. erewrite representable_value by (eauto; reflexivity). rewrite band_coeffs_value by auto. apply band_representable.
Qed.
Lemma band_reproduced : exists c f, real_sht s x = Some c /\ inverse_sht t c = Some f /\ teq f x.
Proof.
  destruct band_sht as (c & Ec & Tc). destruct band_isht as (f & Ef & Tf). pose proof (inv_init_weights _ _ _ _ _ _ _ _ _ Et) as W2.
  destruct (real_sht_init_eq _ _ _ _ _ _ _ _ _ Es) as (q1 & L & M1 & E1 & T1 & Hs).
  destruct (inverse_sht_init_eq _ _ _ _ _ _ _ _ _ Et) as (q2 & L2 & M2 & E2 & T2 & Ht). rewrite T1 in T2. inversion T2; subst L2 M2.
  assert (Hw' : (1 <= s_nlon t)%nat) by now rewrite Ht.
  destruct (inverse_sht_teq t lead band_coeffs c f Hw' W2) as (f' & Ef' & Tf'); auto. unfold band_coeffs. cbn [shp]. now rewrite Hs, Ht.
  exists c, f'. repeat split; auto; eapply teq_trans; eauto.
Qed.
End Band.

(** ** Conventions *)
Lemma csum_factor : forall n (r : R) (u v : nat -> R) (f : nat -> C), (forall k, (k < n)%nat -> u k = r * v k) ->
  csum n (fun k => Cmult (RtoC (u k)) (f k)) = Cmult (RtoC r) (csum n (fun k => Cmult (RtoC (v k)) (f k))).
Proof. intros. rewrite <- (bsum_scal_l CT). apply bsum_ext. intros. rewrite H by auto. rewrite RtoC_mult. ring. Qed.

Lemma sht_convention : forall gl h w lm mm g nm cs s s0 lead x, real_sht_init gl h w lm mm g nm cs = Some s ->
  real_sht_init gl h w lm mm g Ortho false = Some s0 -> shp x = lead ++ [h; w] ->
  exists c c0, real_sht s x = Some c /\ real_sht s0 x = Some c0 /\ teq c (convention nm cs c0).
Proof.
  intros gl h w lm mm g nm cs s s0 lead x Es E0 Sx. pose proof (init_weights _ _ _ _ _ _ _ _ _ Es) as W1. pose proof (init_weights _ _ _ _ _ _ _ _ _ E0) as W0.
  destruct (real_sht_init_eq _ _ _ _ _ _ _ _ _ Es) as (q1 & L & M & E1 & T1 & Hs).
  destruct (real_sht_init_eq _ _ _ _ _ _ _ _ _ E0) as (q2 & L2 & M2 & E2 & T2 & H0).
  rewrite E1 in E2; inversion E2; subst q2. rewrite T1 in T2; inversion T2; subst L2 M2.
  destruct (real_sht_value s lead x W1) as (c & Ec & Sc & Vc). now rewrite Sx, Hs.
  destruct (real_sht_value s0 lead x W0) as (c0 & Ec0 & Sc0 & Vc0). now rewrite Sx, H0.
  exists c, c0. repeat split; auto. unfold convention. cbn [shp]. rewrite Sc, Sc0, Hs, H0. reflexivity.
  intros i Vi. rewrite Sc in Vi. destruct (valid_last2 _ _ _ _ Vi) as (I & l & m & -> & HI & VI & Hl & Hm).
  rewrite Vc by auto. destruct (ndimAB _ c0 lead _ _ Sc0) as (N2 & N1 & _). unfold convention. cbn [val]. rewrite N2, N1, <- HI, nthA, nthB.
  rewrite Vc0 by (auto; rewrite Hs in Hm; rewrite H0; auto). unfold analyse. rewrite Hs, H0. cbn [s_nlat s_nlon s_weights].
  apply csum_factor. intros k Hk. rewrite !real_sht_entry by (rewrite Hs in Hl; auto).
  change (norm_spec Ortho false l) with 1. change (phase_spec false m) with 1. ring.
Qed.

Lemma round_convention : forall gl h w lm mm g nm cs nm' cs' s t s' t' lead x, (1 <= w)%nat ->
  real_sht_init gl h w lm mm g nm cs = Some s -> inverse_sht_init gl h w lm mm g nm cs = Some t ->
  real_sht_init gl h w lm mm g nm' cs' = Some s' -> inverse_sht_init gl h w lm mm g nm' cs' = Some t' -> shp x = lead ++ [h; w] ->
  exists c c' f f', real_sht s x = Some c /\ inverse_sht t c = Some f /\ real_sht s' x = Some c' /\ inverse_sht t' c' = Some f' /\ teq f f'.
Proof.
  intros gl h w lm mm g nm cs nm' cs' s t s' t' lead x Hw Es Et Es' Et' Sx.
  pose proof (init_weights _ _ _ _ _ _ _ _ _ Es) as W1. pose proof (init_weights _ _ _ _ _ _ _ _ _ Es') as W1'.
  pose proof (inv_init_weights _ _ _ _ _ _ _ _ _ Et) as W2. pose proof (inv_init_weights _ _ _ _ _ _ _ _ _ Et') as W2'.
  destruct (real_sht_init_eq _ _ _ _ _ _ _ _ _ Es) as (q & L & M & E1 & T1 & Hs).
  destruct (real_sht_init_eq _ _ _ _ _ _ _ _ _ Es') as (q' & L' & M' & E1' & T1' & Hs').
  destruct (inverse_sht_init_eq _ _ _ _ _ _ _ _ _ Et) as (q2 & L2 & M2 & E2 & T2 & Ht).
  destruct (inverse_sht_init_eq _ _ _ _ _ _ _ _ _ Et') as (q2' & L2' & M2' & E2' & T2' & Ht').
  rewrite E1 in *. rewrite T1 in *. inversion E1'; inversion T1'; inversion E2; inversion T2; inversion E2'; inversion T2'; subst q' L' M' q2 L2 M2 q2' L2' M2'. clear E1' T1' E2 T2 E2' T2'.
  destruct (real_sht_value s lead x W1) as (c & Ec & Sc & Vc). now rewrite Sx, Hs.
  destruct (real_sht_value s' lead x W1') as (c' & Ec' & Sc' & Vc'). now rewrite Sx, Hs'.
  destruct (inverse_sht_value t lead c) as (f & Ef & Sf & Vf); auto. now rewrite Ht. now rewrite Sc, Hs, Ht.
  destruct (inverse_sht_value t' lead c') as (f' & Ef' & Sf' & Vf'); auto. now rewrite Ht'. now rewrite Sc', Hs', Ht'.
  exists c, c', f, f'. repeat split; auto. rewrite Sf, Sf', Ht, Ht'. reflexivity.
  intros i Vi. rewrite Sf in Vi. destruct (valid_last2 _ _ _ _ Vi) as (I & k & j & -> & HI & VI & Hk & Hj).
  rewrite Vf, Vf' by auto. rewrite Ht, Ht'. cbn [s_lmax s_mmax s_nlon s_weights]. unfold synthesise. apply synth_ext. intros m Hm. apply bsum_ext. intros l Hl.
  rewrite Vc, Vc' by (auto; rewrite ?Hs, ?Hs'; auto). rewrite Hs, Hs'. cbn [s_nlat s_nlon s_weights]. rewrite !inverse_sht_entry by auto. unfold analyse.
  rewrite (csum_factor h (norm_spec nm false l * phase_spec cs m) _ (fun k => alf l m (cos (sht_colat h q k)) * rw q k)) by (intros; rewrite real_sht_entry by auto; ring).
  rewrite (csum_factor h (norm_spec nm' false l * phase_spec cs' m) (fun k => val (real_sht_weights h L M q nm' cs') [m; l; k]%nat) (fun k => alf l m (cos (sht_colat h q k)) * rw q k)) by (intros; rewrite real_sht_entry by auto; ring).
  rewrite !Cmult_assoc, <- !RtoC_mult. f_equal. f_equal.
  assert (K : forall n0 c0 A, norm_spec n0 true l * phase_spec c0 m * A * (norm_spec n0 false l * phase_spec c0 m) = A).
  { intros. transitivity ((norm_spec n0 false l * norm_spec n0 true l) * (phase_spec c0 m * phase_spec c0 m) * A). ring. rewrite norm_cancel, phase_sq. ring. }
  now rewrite !K.
Qed.

(** ** Rules *)
Lemma cc_good : forall h q, (2 <= h)%nat -> clenshaw_curtiss_weights h (-1) 1 = Some q -> good_rule h q (h - 1).
Proof.
  intros h q Hh E. destruct (cc_model h (-1) 1 Hh) as (q' & E' & H'). rewrite E in E'. inversion E'; subst q'. split; [|split].
  - eapply exact_of_eq; eauto. now apply rescale_exact, cc_rule_exact.
  - intros i Hi. assert (S : symmetric_rule h q (-1) 1). { eapply symmetric_of_eq; eauto. now apply rescale_symmetric, cc_rule_symmetric. }
    now apply S.
  - intros; exact (cc_nodes_range h q Hh E i).
Qed.
Lemma gl_good : forall gl h q d, good_rule h (gl h) d -> legendre_gauss_weights gl h (-1) 1 = Some q -> good_rule h q d.
Proof.
  intros gl h q d (E & S & B) Eq. unfold legendre_gauss_weights in Eq. destruct (h =? 0)%nat; inversion Eq; subst q. split; [|split].
  - now apply rescale_exact.
  - intros i Hi. unfold rescale. cbn [rw]. now rewrite S.
  - intros i Hi. unfold rescale. cbn [rn]. specialize (B i Hi). rewrite half. lra.
Qed.

Lemma equiangular_round_explicit : forall gl h w lm mm nm cs s t lead c, (2 <= h)%nat -> (1 <= w)%nat ->
  real_sht_init gl h w lm mm GEquiangular nm cs = Some s -> inverse_sht_init gl h w lm mm GEquiangular nm cs = Some t ->
  (2 * s_lmax s - 1 <= h)%nat -> shp c = lead ++ [s_lmax s; s_mmax s] ->
  exists f z, inverse_sht t c = Some f /\ real_sht s f = Some z /\ teq z (representable w c).
Proof.
  intros gl h w lm mm nm cs s t lead c Hh Hw Es Et Hl Sc. destruct (real_sht_init_eq _ _ _ _ _ _ _ _ _ Es) as (q & L & M & E1 & T1 & Hs).
  eapply sht_isht; eauto. apply good_rule_le with (h - 1)%nat; [|lia]. now apply cc_good.
Qed.
Lemma equiangular_round : forall gl h w lm mm nm cs lead, (2 <= h)%nat -> (1 <= w)%nat -> unset lm ->
  exists s t, real_sht_init gl h w lm mm GEquiangular nm cs = Some s /\ inverse_sht_init gl h w lm mm GEquiangular nm cs = Some t /\
  forall c, shp c = lead ++ [s_lmax s; s_mmax s] ->
  exists f z, inverse_sht t c = Some f /\ real_sht s f = Some z /\ teq z (representable w c).
Proof.
  intros gl h w lm mm nm cs lead Hh Hw U. destruct (cc_model h (-1) 1 Hh) as (q & E & _).
  destruct (truncate_sht h w lm mm GEquiangular) as [[L M]|] eqn:T. 2:{ apply truncate_sht_none in T. destruct T; discriminate. }
  assert (Es : real_sht_init gl h w lm mm GEquiangular nm cs = Some (mkSHT h w L M (real_sht_weights h L M q nm cs))).
  { unfold real_sht_init. cbn [sht_rule]. rewrite E. cbn [bindo]. rewrite T. reflexivity. }
  assert (Et : inverse_sht_init gl h w lm mm GEquiangular nm cs = Some (mkSHT h w L M (inverse_sht_pct h L M q nm cs))).
  { unfold inverse_sht_init. cbn [sht_rule]. rewrite E. cbn [bindo]. rewrite T. reflexivity. }
  eexists. eexists. split; [exact Es|]. split; [exact Et|]. intros c Sc. eapply equiangular_round_explicit; eauto. cbn [s_lmax].
  destruct (truncate_sht_bounds _ _ _ _ _ _ _ T) as (_ & _ & _ & B). destruct (B U) as (d & D & B'). change (Some ((h + 1) / 2)%nat = Some d) in D. assert (d = (h + 1) / 2)%nat by congruence.
  pose proof (Nat.div_mod (h + 1) 2 ltac:(lia)). lia.
Qed.
Lemma gauss_round : forall gl h w lm mm nm cs lead, (1 <= h)%nat -> (1 <= w)%nat -> unset lm -> good_rule h (gl h) (2 * h - 1) ->
  exists s t, real_sht_init gl h w lm mm GLegendreGauss nm cs = Some s /\ inverse_sht_init gl h w lm mm GLegendreGauss nm cs = Some t /\
  forall c, shp c = lead ++ [s_lmax s; s_mmax s] ->
  exists f z, inverse_sht t c = Some f /\ real_sht s f = Some z /\ teq z (representable w c).
Proof.
  intros gl h w lm mm nm cs lead Hh Hw U G. destruct (legendre_gauss_weights gl h (-1) 1) as [q|] eqn:E.
  2:{ unfold legendre_gauss_weights in E. destruct (Nat.eqb_spec h 0). lia. discriminate. }
  destruct (truncate_sht h w lm mm GLegendreGauss) as [[L M]|] eqn:T. 2:{ apply truncate_sht_none in T. destruct T; discriminate. }
  assert (Es : real_sht_init gl h w lm mm GLegendreGauss nm cs = Some (mkSHT h w L M (real_sht_weights h L M q nm cs))).
  { unfold real_sht_init. cbn [sht_rule]. rewrite E. cbn [bindo]. rewrite T. reflexivity. }
  assert (Et : inverse_sht_init gl h w lm mm GLegendreGauss nm cs = Some (mkSHT h w L M (inverse_sht_pct h L M q nm cs))).
  { unfold inverse_sht_init. cbn [sht_rule]. rewrite E. cbn [bindo]. rewrite T. reflexivity. }
  eexists. eexists. split; [exact Es|]. split; [exact Et|]. intros c Sc. eapply sht_isht; eauto. apply good_rule_le with (2 * h - 1)%nat. eapply gl_good; eauto.
  cbn [s_lmax]. destruct (truncate_sht_bounds _ _ _ _ _ _ _ T) as (_ & _ & _ & B). destruct (B U) as (d & D & B'). inversion D. subst d. lia.
Qed.
Lemma round_identity : forall gl h w lm mm g nm cs s t q lead c,
  real_sht_init gl h w lm mm g nm cs = Some s -> inverse_sht_init gl h w lm mm g nm cs = Some t ->
  sht_rule gl h g = Some q -> good_rule h q (2 * (s_lmax s - 1)) -> (1 <= w)%nat ->
  shp c = lead ++ [s_lmax s; s_mmax s] ->
  (forall I l m, valid lead I -> (l < s_lmax s)%nat -> (m < s_mmax s)%nat ->
     ((l < m)%nat \/ (w < 2 * m)%nat -> val c (I ++ [l; m]%nat) = RtoC 0) /\
     (m = 0%nat \/ (2 * m)%nat = w -> Im (val c (I ++ [l; m]%nat)) = 0)) ->
  exists f z, inverse_sht t c = Some f /\ real_sht s f = Some z /\ teq z c.
Proof.
  intros gl h w lm mm g nm cs s t q lead c Es Et Eq G Hw Sc H. destruct (sht_isht gl h w lm mm g nm cs s t q Es Et Eq G Hw lead c Sc) as (f & z & Ef & Ez & Tz).
  exists f, z. repeat split; auto. now destruct Tz. intros i Vi. destruct Tz as [Tz1 Tz2]. rewrite Tz2 by auto. rewrite Tz1 in Vi. unfold representable in Vi. cbn [shp] in Vi.
  rewrite Sc in Vi. destruct (valid_last2 _ _ _ _ Vi) as (I & l & m & -> & HI & VI & Hl & Hm). erewrite representable_value by eauto.
  destruct (H I l m VI Hl Hm) as [A B]. unfold representable_at, real_order. pose proof (Nat.div_mod w 2 ltac:(lia)). pose proof (Nat.mod_upper_bound w 2 ltac:(lia)).
  destruct (Nat.leb_spec m l). 2: symmetry; apply A; auto. destruct (Nat.leb_spec m (w / 2)). 2: symmetry; apply A; right; lia.
  destruct (val c (I ++ [l; m]%nat)) as [u v] eqn:Ev. cbn [Re Im fst snd] in *. f_equal.
  destruct (Nat.eqb_spec m 0), (Nat.eqb_spec (2 * m) w); cbn [orb]; auto; symmetry; apply B; auto.
Qed.
Lemma fourier_real_order : forall w f m, (1 <= w)%nat -> real_order w m (fourier w f m) = fourier w f m.
Proof.
  intros w f m Hw. assert (Nz : INR w <> 0) by (apply not_0_INR; lia). unfold real_order, fourier. destruct (Nat.leb_spec m (w / 2)); auto.
  apply C_ext; auto. cbn [Im snd]. destruct (Nat.eqb_spec m 0), (Nat.eqb_spec (2 * m) w); cbn [orb]; auto;
  symmetry; rewrite <- (bsum_scal_l CT), csum_Im; apply (bsum_zero' RT); intros j Hj; unfold Cmult, RtoC, Im, cis; cbn [fst snd]; rewrite sin_neg.
  - subst m. simpl (INR 0). rewrite Rmult_0_r. unfold Rdiv. rewrite Rmult_0_l, sin_0. ring.
  - subst m. simpl (INR 0). rewrite Rmult_0_r. unfold Rdiv. rewrite Rmult_0_l, sin_0. ring.
  - replace (2 * PI * INR j * INR m / INR w) with (INR j * PI). rewrite sin_npi. ring.
    rewrite <- e in Nz |- *. rewrite mult_INR in *. simpl (INR 2) in *. field. intros Z. rewrite Z in Nz. lra.
Qed.
Lemma sht_representable : forall gl h w lm mm g nm cs s lead x c, (1 <= w)%nat ->
  real_sht_init gl h w lm mm g nm cs = Some s -> shp x = lead ++ [h; w] -> real_sht s x = Some c -> teq (representable w c) c.
Proof.
  intros gl h w lm mm g nm cs s lead x c Hw Es Sx Ec. pose proof (init_weights _ _ _ _ _ _ _ _ _ Es) as W1.
  destruct (real_sht_init_eq _ _ _ _ _ _ _ _ _ Es) as (q & L & M & E1 & T1 & Hs).
  destruct (real_sht_value s lead x W1) as (c' & Ec' & Sc & Vc). now rewrite Hs. rewrite Ec in Ec'. inversion Ec'; subst c'.
  apply (teq_last2 _ lead (s_lmax s) (s_mmax s)); auto. intros I l m HI VI Hl Hm. erewrite representable_value by eauto.
  rewrite Vc by auto. rewrite Hs in *. cbn [s_nlat s_nlon s_weights s_lmax s_mmax] in *. unfold analyse.
  rewrite (bsum_ext h _ (fun k => Cmult (RtoC (norm_spec nm false l * phase_spec cs m * alf l m (cos (sht_colat h q k)) * rw q k)) (fourier w (fun j => val x (I ++ [k; j]%nat)) m))) by (intros; now rewrite real_sht_entry).
  unfold representable_at. destruct (Nat.leb_spec m l).
  - rewrite real_order_sum. apply bsum_ext. intros k Hk. f_equal. now apply fourier_real_order.
  - symmetry. apply (bsum_zero' CT). intros. rewrite alf_above by auto. rewrite Rmult_0_r, Rmult_0_l. ring.
Qed.
Lemma projection : forall gl h w lm mm g nm cs s t q lead x,
  real_sht_init gl h w lm mm g nm cs = Some s -> inverse_sht_init gl h w lm mm g nm cs = Some t ->
  sht_rule gl h g = Some q -> good_rule h q (2 * (s_lmax s - 1)) -> (1 <= w)%nat ->
  shp x = lead ++ [h; w] ->
  exists c f z f', real_sht s x = Some c /\ inverse_sht t c = Some f /\ real_sht s f = Some z /\ inverse_sht t z = Some f' /\ teq f' f /\ teq z c.
Proof.
  intros gl h w lm mm g nm cs s t q lead x Es Et Eq G Hw Sx. pose proof (init_weights _ _ _ _ _ _ _ _ _ Es) as W1.
  destruct (real_sht_init_eq _ _ _ _ _ _ _ _ _ Es) as (q1 & L & M & E1 & T1 & Hs).
  destruct (real_sht_value s lead x W1) as (c & Ec & Sc & _). now rewrite Hs.
  destruct (isht_sht_isht gl h w lm mm g nm cs s t q Es Et Eq G Hw lead c Sc) as (f & z & f' & Ef & Ez & Ef' & Tf).
  destruct (sht_isht gl h w lm mm g nm cs s t q Es Et Eq G Hw lead c Sc) as (f2 & z2 & Ef2 & Ez2 & Tz).
  rewrite Ef in Ef2. inversion Ef2; subst f2. rewrite Ez in Ez2. inversion Ez2; subst z2.
  exists c, f, z, f'. do 5 (split; auto). eapply teq_trans; eauto. eapply sht_representable; eauto.
Qed.
Lemma band_coefficients : forall gl h w lm mm g nm cs s t q lat lead M a b x,
  real_sht_init gl h w lm mm g nm cs = Some s -> inverse_sht_init gl h w lm mm g nm cs = Some t ->
  sht_rule gl h g = Some q -> good_rule h q (2 * (s_lmax s - 1)) -> (1 <= w)%nat ->
  precompute_latitudes gl h g = Some lat -> (M <= w / 2)%nat -> shp x = lead ++ [h; w] ->
  (forall I k j, valid lead I -> (k < h)%nat -> (j < w)%nat ->
     val x (I ++ [k; j]%nat) = harmonic_sum (s_lmax s) M (a I) (b I) (rn lat k) (precompute_longitudes w j)) ->
  exists c, real_sht s x = Some c /\ shp c = lead ++ [s_lmax s; s_mmax s] /\
    forall I l m, valid lead I -> (l < s_lmax s)%nat -> (m < s_mmax s)%nat -> val c (I ++ [l; m]%nat) = harmonic_coeff nm cs w M (a I) (b I) l m.
Proof.
  intros gl h w lm mm g nm cs s t q lat lead M a b x H1 H2 H3 H4 H5 H6 H7 H8 H9.
  destruct (band_sht gl h w lm mm g nm cs s t q lat H1 H2 H3 H4 H5 H6 lead M a b x H7 H8 H9) as (c & Ec & [Tc Vc]). exists c. split; auto. split; auto.
  intros I l m VI Hl Hm. rewrite Vc. apply band_coeffs_value. now apply valid_len. rewrite Tc. cbn [band_coeffs shp]. apply valid_app. now apply valid_len. split; auto.
  apply valid_cons; split; auto. apply valid_cons; split; auto. apply valid_nil.
Qed.
Lemma gauss2 : exists gl, good_rule 2 (gl 2%nat) (2 * 2 - 1).
Proof.
  exists (fun _ => mkRule (fun i => if (i =? 0)%nat then - sqrt (/ 3) else sqrt (/ 3)) (fun _ => 1)).
  assert (S3 : sqrt (/ 3) * sqrt (/ 3) = / 3) by (apply sqrt_sqrt; lra). assert (P3 := sqrt_pos (/ 3)).
  split; [|split].
  - intros f (c & F). cbn [bsum_ rn rw Nat.eqb]. assert (FG : forall x, f x = c 0%nat + c 1%nat * x + c 2%nat * (x * x) + c 3%nat * (x * x * x)) by (intros; rewrite F; cbn [bsum_ pow Nat.mul Nat.add Nat.sub]; ring).
    rewrite (RInt_derive (fun x => c 0%nat * x + c 1%nat * x * x / 2 + c 2%nat * x * x * x / 3 + c 3%nat * x * x * x * x / 4) f).
    + rewrite !FG. set (r := sqrt (/ 3)) in *. replace (- r * - r) with (r * r) by ring. rewrite S3. field.
    + intros. auto_derive; auto. rewrite FG. field.
    + intros x. eapply is_poly_continuous. exists c. exact F.
  - intros i Hi. reflexivity.
  - intros i Hi. cbn [rn]. assert (sqrt (/ 3) <= 1) by nra. destruct (i =? 0)%nat; lra.
Qed.
