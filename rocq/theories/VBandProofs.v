(** The inverse vector transform synthesises a gradient plus a rotated gradient. *)
From Coq Require Import List Arith Lia Bool Reals Lra.
From Coquelicot Require Import Coquelicot.
From Verif Require Import TensorModel TensorProofs BigSum FFTModel FFTProofs TruncModel TruncSpec TruncProofs LegendreModel QuadModel SHTModel
  SHTSpec SHTValueProofs VSHTValueProofs LegSpec LegProofs LegTableProofs VLegProofs QuadSpec PolyProofs QuadProofs SHTRoundSpec SHTRoundProofs SHTBandProofs DistSHTProofs VRoundProofs.
Import ListNotations.
Local Open Scope R_scope.

Lemma rsum_is_derive : forall n (f df : nat -> R -> R) (x : R), (forall i, (i < n)%nat -> is_derive (f i) x (df i x)) ->
  is_derive (fun u => rsum n (fun i => f i u)) x (rsum n (fun i => df i x)).
Proof.
  induction n; intros f df x H; cbn [bsum_].
  - apply (is_derive_const (V := R_NormedModule)).
  - apply (is_derive_plus (fun u => rsum n (fun i => f i u)) (f n)). apply IHn. intros; apply H; lia. apply H; lia.
Qed.

(** d/dtheta and d/dlambda of a finite sum of harmonics *)
Lemma harmonic_dtheta : forall L M a b t lam, 0 < t < PI ->
  Derive (fun u => harmonic_sum L M a b u lam) t =
  rsum L (fun l => rsum (S (Nat.min l M)) (fun m => dalf l m (cos t) * (a l m * cos (INR m * lam) + b l m * sin (INR m * lam)))).
Proof.
  intros. apply is_derive_unique. unfold harmonic_sum.
  apply (rsum_is_derive L (fun l u => rsum (S (Nat.min l M)) (fun m => alf l m (cos u) * (a l m * cos (INR m * lam) + b l m * sin (INR m * lam))))
    (fun l u => rsum (S (Nat.min l M)) (fun m => dalf l m (cos u) * (a l m * cos (INR m * lam) + b l m * sin (INR m * lam))))).
  intros l Hl. apply (rsum_is_derive (S (Nat.min l M)) (fun m u => alf l m (cos u) * (a l m * cos (INR m * lam) + b l m * sin (INR m * lam)))
    (fun m u => dalf l m (cos u) * (a l m * cos (INR m * lam) + b l m * sin (INR m * lam)))).
  intros m Hm. set (k := a l m * _ + _). apply (is_derive_ext (fun u => k * alf l m (cos u))). intros. apply Rmult_comm.
  rewrite Rmult_comm. apply (is_derive_scal (fun u => alf l m (cos u))). now apply alf_cos_derive.
Qed.
Lemma harmonic_dlambda : forall L M a b t lam,
  Derive (fun u => harmonic_sum L M a b t u) lam =
  rsum L (fun l => rsum (S (Nat.min l M)) (fun m => INR m * alf l m (cos t) * (b l m * cos (INR m * lam) - a l m * sin (INR m * lam)))).
Proof.
  intros. apply is_derive_unique. unfold harmonic_sum.
  apply (rsum_is_derive L (fun l u => rsum (S (Nat.min l M)) (fun m => alf l m (cos t) * (a l m * cos (INR m * u) + b l m * sin (INR m * u))))
    (fun l u => rsum (S (Nat.min l M)) (fun m => INR m * alf l m (cos t) * (b l m * cos (INR m * u) - a l m * sin (INR m * u))))).
  intros l Hl. apply (rsum_is_derive (S (Nat.min l M)) (fun m u => alf l m (cos t) * (a l m * cos (INR m * u) + b l m * sin (INR m * u)))
    (fun m u => INR m * alf l m (cos t) * (b l m * cos (INR m * u) - a l m * sin (INR m * u)))).
  intros m Hm. set (A := alf l m (cos t)). set (k := INR m). auto_derive; auto. ring.
Qed.

Definition vharmonic_coeff (nm : shnorm) (cs : bool) (w M : nat) (a b a' b' : nat -> nat -> R) (d l m : nat) : C :=
  if (d =? 0)%nat then harmonic_coeff nm cs w M a b l m else harmonic_coeff nm cs w M a' b' l m.

Lemma vharmonic_synth : forall h w L M q nm cs a b a' b' k j d, (1 <= w)%nat -> (2 * M < w)%nat -> (d < 2)%nat -> 0 < sht_colat h q k < PI ->
  vsynthesise (inverse_vector_dpct h L L q nm cs) L L w (vharmonic_coeff nm cs w M a b a' b') d k j =
  let t := sht_colat h q k in let lam := precompute_longitudes w j in
  if (d =? 0)%nat
  then Derive (fun u => harmonic_sum L M a b u lam) t + Derive (fun u => harmonic_sum L M a' b' t u) lam / sin t
  else Derive (fun u => harmonic_sum L M a b t u) lam / sin t - Derive (fun u => harmonic_sum L M a' b' u lam) t.
Proof.
  intros h w L M q nm cs a b a' b' k j d Hw HM Hd Ht. assert (Nz : INR w <> 0) by (apply not_0_INR; lia). cbv zeta.
  rewrite !harmonic_dtheta, !harmonic_dlambda by auto. set (t := sht_colat h q k) in *. set (lam := precompute_longitudes w j).
  assert (St : sin t <> 0) by (apply Rgt_not_eq, sin_gt_0; lra).
  pose (U := fun (a b : nat -> nat -> R) l m => dalf l m (cos t) * (a l m * cos (INR m * lam) + b l m * sin (INR m * lam))).
  pose (V := fun (a b : nat -> nat -> R) l m => ealf l m (cos t) * (b l m * cos (INR m * lam) - a l m * sin (INR m * lam))).
  pose (T := fun l m => if (d =? 0)%nat then U a b l m + V a' b' l m else V a b l m - U a' b' l m).
  assert (EV : forall a b, rsum L (fun l => rsum (S (Nat.min l M)) (fun m => INR m * alf l m (cos t) * (b l m * cos (INR m * lam) - a l m * sin (INR m * lam)))) / sin t
    = rsum L (fun l => rsum (S (Nat.min l M)) (fun m => V a b l m))).
  { intros. unfold Rdiv. rewrite <- (bsum_scal_r RT). apply bsum_ext. intros l _. rewrite <- (bsum_scal_r RT). apply bsum_ext. intros m _. unfold V. rewrite ealf_is_quotient by auto. unfold malf_sin. field. auto. }
  rewrite !EV. transitivity (rsum L (fun l => rsum (S (Nat.min l M)) (fun m => T l m))).
  2:{ unfold T. destruct (d =? 0)%nat.
      rewrite <- (bsum_plus RT). apply bsum_ext. intros l _. rewrite <- (bsum_plus RT). apply bsum_ext. intros m _. reflexivity.
      rewrite <- (bsum_sub RT). apply bsum_ext. intros l _. rewrite <- (bsum_sub RT). apply bsum_ext. intros m _. reflexivity. }
  transitivity (rsum L (fun m => rsum L (fun l => if (m <? S (Nat.min l M))%nat then T l m else 0))).
  2:{ rewrite (bsum_swap RT). apply bsum_ext. intros l Hl. exact (rsum_indicator L (S (Nat.min l M)) (T l) ltac:(lia)). }
  unfold vsynthesise, synth. apply bsum_ext. intros m Hm. pose proof (Nat.div_mod w 2 ltac:(lia)) as DM. pose proof (Nat.mod_upper_bound w 2 ltac:(lia)). destruct (Nat.leb_spec m (w / 2)).
  2:{ symmetry. apply (bsum_zero' RT). intros l Hl. destruct (Nat.ltb_spec m (S (Nat.min l M))); auto; lia. }
  rewrite <- (bsum_scal_r CT), csum_Re, <- (bsum_scal_l RT). apply bsum_ext. intros l Hl. rewrite !inverse_vector_entry by auto. fold t. unfold comp. cbn [Nat.eqb]. unfold vharmonic_coeff at 1 2. cbn [Nat.eqb]. unfold harmonic_coeff.
  destruct (Nat.ltb_spec m (S (Nat.min l M))), (Nat.leb_spec m (Nat.min l M)); try lia.
  2:{ unfold vcomb. destruct (d =? 0)%nat; unfold Cminus, Cmult, Cplus, Copp, Ci, RtoC, Re, cis; cbn [fst snd]; ring. }
  replace (2 * PI * INR j * INR m / INR w) with (INR m * lam). 2:{ unfold lam. rewrite longitude by auto. unfold Rdiv; ring. }
  unfold T, U, V. set (x := INR m * lam).
  assert (N := norm_cancel nm l). assert (P := phase_sq cs m).
  set (nf := norm_spec nm false l) in *. set (nt := norm_spec nm true l) in *. set (ph := phase_spec cs m) in *.
  assert (S0 : (m = 0)%nat -> sin x = 0 /\ ealf l m (cos t) = 0).
  { intros ->. split. unfold x. cbn [INR]. rewrite Rmult_0_l. apply sin_0. rewrite ealf_is_quotient by auto. unfold malf_sin. cbn [INR]. field. auto. }
  set (D := dalf l m (cos t)). set (E := ealf l m (cos t)) in *.
  unfold mirror, vcomb. destruct (Nat.eqb_spec (2 * m) w); [lia|]. rewrite orb_false_r.
  transitivity ((nf * nt) * (ph * ph) * T l m); [|rewrite N, P; unfold T, U, V; fold D E x; ring]. unfold T, U, V. fold D E x.
  destruct (Nat.eqb_spec m 0) as [Z|Z].
  - destruct (S0 Z) as [S1 S2]. rewrite S1, S2. destruct (d =? 0)%nat; unfold Cminus, Cmult, Cplus, Copp, Ci, RtoC, Re, cis; cbn [fst snd]; rewrite S1; field.
  - destruct (d =? 0)%nat; unfold Cminus, Cmult, Cplus, Copp, Ci, RtoC, Re, cis; cbn [fst snd]; field.
Qed.

Lemma vector_synthesis : forall gl h w lm mm g nm cs t q lead M a b a' b' c, inverse_vector_sht_init gl h w lm mm g nm cs = Some t -> sht_rule gl h g = Some q ->
  (1 <= w)%nat -> (2 * M < w)%nat -> shp c = lead ++ [2%nat; s_lmax t; s_mmax t] ->
  (forall I l m, valid lead I -> (l < s_lmax t)%nat -> (m < s_mmax t)%nat ->
    val c (I ++ [0; l; m]%nat) = harmonic_coeff nm cs w M (a I) (b I) l m /\ val c (I ++ [1; l; m]%nat) = harmonic_coeff nm cs w M (a' I) (b' I) l m) ->
  exists u, inverse_vector_sht t c = Some u /\ shp u = lead ++ [2; h; w]%nat /\
  forall I k j, valid lead I -> let th := sht_colat h q k in let lam := precompute_longitudes w j in 0 < th < PI ->
    val u (I ++ [0; k; j]%nat) = Derive (fun x => harmonic_sum (s_lmax t) M (a I) (b I) x lam) th + Derive (fun x => harmonic_sum (s_lmax t) M (a' I) (b' I) th x) lam / sin th /\
    val u (I ++ [1; k; j]%nat) = Derive (fun x => harmonic_sum (s_lmax t) M (a I) (b I) th x) lam / sin th - Derive (fun x => harmonic_sum (s_lmax t) M (a' I) (b' I) x lam) th.
Proof.
  intros gl h w lm mm g nm cs t q lead M a b a' b' c Et Eq Hw HM Sc Vc.
  destruct (inverse_vector_sht_init_eq _ _ _ _ _ _ _ _ _ Et) as (q2 & L & M2 & E2 & T2 & Ht). rewrite Eq in E2. inversion E2; subst q2.
  pose proof (truncate_sht_triangular _ _ _ _ _ _ _ T2) as TR. subst M2. rewrite Ht in *. cbn [s_lmax s_mmax] in *.
  destruct (inverse_vector_sht_value (mkSHT h w L L (inverse_vector_dpct h L L q nm cs)) lead c Hw eq_refl Sc) as (f & Ef & Sf & Vf).
  exists f. split; [exact Ef|]. split; [exact Sf|]. intros I k j VI Hth. cbn [s_weights s_lmax s_mmax s_nlon] in Vf.
  assert (V : forall d, (d < 2)%nat -> val f (I ++ [d; k; j]%nat) = vsynthesise (inverse_vector_dpct h L L q nm cs) L L w (vharmonic_coeff nm cs w M (a I) (b I) (a' I) (b' I)) d k j).
  { intros d Hd. rewrite Vf by now apply valid_len. unfold vsynthesise. apply synth_ext. intros m Hm. apply bsum_ext. intros l Hl. destruct (Vc I l m VI Hl Hm) as [-> ->]. reflexivity. }
  split; rewrite V by lia; rewrite vharmonic_synth by auto; reflexivity.
Qed.

Lemma vround_identity : forall gl h w lm mm g nm cs s t q lead c,
  vector_sht_init gl h w lm mm g nm cs = Some s -> inverse_vector_sht_init gl h w lm mm g nm cs = Some t ->
  sht_rule gl h g = Some q -> good_rule h q (2 * (s_lmax s - 1)) -> (1 <= w)%nat ->
  shp c = lead ++ [2%nat; s_lmax s; s_mmax s] ->
  (forall I d l m, valid lead I -> (d < 2)%nat -> (l < s_lmax s)%nat -> (m < s_mmax s)%nat ->
     (l = 0%nat \/ (l < m)%nat \/ (w <= 2 * m)%nat -> val c (I ++ [d; l; m]%nat) = RtoC 0) /\
     (m = 0%nat -> Im (val c (I ++ [d; l; m]%nat)) = 0)) ->
  exists f z, inverse_vector_sht t c = Some f /\ vector_sht s f = Some z /\ teq z c.
Proof.
  intros gl h w lm mm g nm cs s t q lead c Es Et Eq G Hw Sc H.
  assert (NY : no_nyquist w c).
  { intros i Vi E. rewrite Sc in Vi. destruct (valid_last3 _ _ _ _ _ Vi) as (I & d & l & m & -> & HL & VL & Hd & Hl & Hm). apply H; auto. right. right.
    destruct (ndimABC _ c lead _ _ _ Sc) as (N & _). rewrite N, <- HL in E. replace (length I + 3 - 1)%nat with (length I + 2)%nat in E by lia. rewrite nth_app_r in E. cbn [nth] in E. lia. }
  destruct (vsht_visht gl h w lm mm g nm cs s t q Es Et Eq G Hw lead c Sc NY) as (f & z & Ef & Ez & Tz).
  exists f, z. repeat split; auto. now destruct Tz. intros i Vi. destruct Tz as [Tz1 Tz2]. rewrite Tz2 by auto. rewrite Tz1 in Vi. unfold vrepresentable in Vi. cbn [shp] in Vi.
  rewrite Sc in Vi. destruct (valid_last3 _ _ _ _ _ Vi) as (I & d & l & m & -> & HL & VL & Hd & Hl & Hm). erewrite vrepresentable_value by eauto.
  destruct (H I d l m VL Hd Hl Hm) as [A B]. unfold vrepresentable_at, real_order. pose proof (Nat.div_mod w 2 ltac:(lia)). pose proof (Nat.mod_upper_bound w 2 ltac:(lia)).
  destruct (Nat.leb_spec 1 l). 2: symmetry; apply A; lia. destruct (Nat.leb_spec m l). 2: symmetry; apply A; lia. cbn [andb]. destruct (Nat.leb_spec m (w / 2)). 2: symmetry; apply A; right; lia.
  destruct (val c (I ++ [d; l; m]%nat)) as [u v] eqn:Ev. cbn [Re Im fst snd] in *.
  destruct (Nat.eqb_spec (2 * m) w). { rewrite orb_true_r. assert (A' := A ltac:(lia)). unfold RtoC in A'. inversion A'. reflexivity. }
  destruct (Nat.eqb_spec m 0); cbn [orb]; auto. now rewrite B.
Qed.
Lemma vgauss_round : forall gl h w lm mm nm cs lead, (1 <= h)%nat -> (1 <= w)%nat -> unset lm -> good_rule h (gl h) (2 * h - 1) ->
  exists s t, vector_sht_init gl h w lm mm GLegendreGauss nm cs = Some s /\ inverse_vector_sht_init gl h w lm mm GLegendreGauss nm cs = Some t /\
  forall c, shp c = lead ++ [2%nat; s_lmax s; s_mmax s] -> no_nyquist w c ->
  exists f z, inverse_vector_sht t c = Some f /\ vector_sht s f = Some z /\ teq z (vrepresentable w c).
Proof.
  intros gl h w lm mm nm cs lead Hh Hw U G. destruct (legendre_gauss_weights gl h (-1) 1) as [q|] eqn:E.
  2:{ unfold legendre_gauss_weights in E. destruct (Nat.eqb_spec h 0). lia. discriminate. }
  destruct (truncate_sht h w lm mm GLegendreGauss) as [[L M]|] eqn:T. 2:{ apply truncate_sht_none in T. destruct T; discriminate. }
  assert (Es : vector_sht_init gl h w lm mm GLegendreGauss nm cs = Some (mkSHT h w L M (vector_sht_weights h L M q nm cs))).
  { unfold vector_sht_init. cbn [sht_rule]. rewrite E. cbn [bindo]. rewrite T. reflexivity. }
  assert (Et : inverse_vector_sht_init gl h w lm mm GLegendreGauss nm cs = Some (mkSHT h w L M (inverse_vector_dpct h L M q nm cs))).
  { unfold inverse_vector_sht_init. cbn [sht_rule]. rewrite E. cbn [bindo]. rewrite T. reflexivity. }
  eexists. eexists. split; [exact Es|]. split; [exact Et|]. intros c Sc NY. eapply vsht_visht; eauto. apply good_rule_le with (2 * h - 1)%nat. eapply gl_good; eauto.
  cbn [s_lmax]. destruct (truncate_sht_bounds _ _ _ _ _ _ _ T) as (_ & _ & _ & B). destruct (B U) as (d & D & B'). inversion D. subst d. lia.
Qed.
