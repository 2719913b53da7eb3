(** Gaussian random fields. *)
From Coq Require Import List Arith Lia Bool Reals Lra.
From Coquelicot Require Import Coquelicot.
From Verif Require Import TensorModel TensorProofs BigSum FFTModel TruncModel LegendreModel LegSpec QuadModel QuadSpec PolyProofs CCProofs QuadProofs LegTableProofs
  SHTModel SHTSpec SHTRoundSpec SHTValueProofs SHTRoundProofs FFTProofs SHTMeanProofs UnsoldProofs SHTBandProofs GrfModel GrfSpec.
Import ListNotations.
Local Open Scope R_scope.

Lemma sigma_spec : forall alpha tau sigma s, grf_sigma alpha tau sigma = Some s -> default_sigma alpha tau sigma s.
Proof.
  intros alpha tau sigma s E. unfold grf_sigma in E. destruct sigma as [v|]; cbn [default_sigma]; [congruence|].
  destruct (Rle_dec alpha 1); [discriminate|]. injection E as <-. split; [lra|]. split.
  - rewrite <- Rpower_pow by apply exp_pos. rewrite Rpower_mult. f_equal. cbn [INR]. lra.
  - apply exp_pos.
Qed.
Lemma sigma_none : forall alpha tau sigma, grf_sigma alpha tau sigma = None <-> sigma = None /\ alpha <= 1.
Proof.
  intros. unfold grf_sigma. destruct sigma as [v|]; [split; [discriminate|intros [Q _]; discriminate]|]. destruct (Rle_dec alpha 1); split; auto; try discriminate. intros [_ Q]. contradiction.
Qed.
Lemma eig_value : forall L M alpha tau s radius l m, val (grf_sqrt_eig L M alpha tau s radius) [0; l; m]%nat = amp alpha tau s radius l m.
Proof.
  intros. unfold grf_sqrt_eig, amp, map_t. cbn [val shp tl nth]. destruct l as [|l]; cbn [Nat.eqb Nat.leb andb].
  - destruct m as [|m]; reflexivity.
  - reflexivity.
Qed.
Lemma amp_base : forall tau radius l, 0 < tau -> 0 < INR l * (INR l + 1) / radius ^ 2 + tau ^ 2.
Proof.
  intros. assert (0 < tau ^ 2) by (apply pow_lt; auto). pose proof (pos_INR l).
  destruct (Req_dec radius 0) as [->|Hr].
  - unfold Rdiv. cbn [pow]. rewrite Rmult_0_l. assert (E : / 0 * (INR l * (INR l + 1)) = (INR l * (INR l + 1)) * / 0) by ring.
    destruct (Req_dec (/ 0) 0) as [Q|Q]; [rewrite Q; lra|]. 
    assert (Z : / 0 = 0) by apply Rinv_0. lra.
  - assert (0 < radius ^ 2) by nra. assert (0 <= INR l * (INR l + 1) / radius ^ 2). { apply Rmult_le_pos; [nra|left; now apply Rinv_0_lt_compat]. } lra.
Qed.
Lemma amp_sq : forall alpha tau s radius l m, 0 < tau -> (1 <= l)%nat -> (m <= l)%nat -> amp alpha tau s radius l m ^ 2 = matern s tau radius alpha l.
Proof.
  intros alpha tau s radius l m Ht Hl Hm. unfold amp, matern. rewrite (proj2 (Nat.leb_le 1 l)), (proj2 (Nat.leb_le m l)) by auto. cbn [andb].
  rewrite Rpow_mult_distr. f_equal. rewrite <- Rpower_pow by apply exp_pos. rewrite Rpower_mult. f_equal. cbn [INR]. lra.
Qed.

Lemma init_inv : forall gl nlat alpha tau sigma radius g f, grf_init gl nlat alpha tau sigma radius g = Some f ->
  exists s q L, grf_sigma alpha tau sigma = Some s /\ sht_rule gl nlat g = Some q /\ default_lmax g nlat = Some L /\ (1 <= nlat)%nat /\ (L <= nlat)%nat /\
  f = mkGRF (mkSHT nlat (2 * nlat) L L (inverse_sht_pct nlat L L q FourPi true)) (grf_sqrt_eig L L alpha tau s radius).
Proof.
  intros gl nlat alpha tau sigma radius g f E. unfold grf_init in E. destruct (grf_sigma alpha tau sigma) as [s|]; [|discriminate]. cbn [bindo] in E.
  destruct (inverse_sht_init gl nlat (2 * nlat) None None g FourPi true) as [t|] eqn:Et; [|discriminate]. cbn [bindo] in E. injection E as <-.
  destruct (inverse_sht_init_eq _ _ _ _ _ _ _ _ _ Et) as (q & L & M & Eq & ET & ->). exists s, q, L.
  unfold truncate_sht in ET. cbn [or_default] in ET. destruct (default_lmax g nlat) as [l|] eqn:EL; [|discriminate]. unfold default_mmax in ET.
  replace (2 * nlat / 2)%nat with nlat in ET by (rewrite Nat.mul_comm, Nat.div_mul; lia).
  assert (Hn : (1 <= nlat)%nat).
  { destruct nlat; [|lia]. exfalso. destruct g; cbn in Eq; try discriminate; unfold lobatto_default, lobatto_weights, clenshaw_curtiss_weights, legendre_gauss_weights in Eq; cbn in Eq; discriminate. }
  assert (Hl : (l <= nlat)%nat).
  { clear ET. unfold default_lmax in EL. destruct g; try discriminate;
      try (destruct (nlat =? 0)%nat; [discriminate|]); match type of EL with Some ?x = Some _ => assert (Q : l = x) by congruence end; rewrite Q; try lia; apply Nat.div_le_upper_bound; lia. }
  rewrite Nat.min_l in ET by lia. injection ET as <- <-. repeat split; auto.
Qed.

Lemma mul_modes_value : forall (e : tensor R) lead a b (x : tensor C), shp e = [1; a; b]%nat -> (1 <= length lead)%nat -> shp x = lead ++ [a; b]%nat ->
  exists y, mul_modes e x = Some y /\ shp y = lead ++ [a; b]%nat /\ forall I l m, length I = length lead ->
    val y (I ++ [l; m]%nat) = Cmult (val x (I ++ [l; m]%nat)) (RtoC (val e [0; l; m]%nat)).
Proof.
  intros e lead a b x Se HL Sx. destruct (ndimAB _ x lead a b Sx) as (N2 & N1 & D2 & D1). unfold mul_modes. rewrite D1, D2, Se.
  assert (Nd : (3 <=? ndim x)%nat = true) by (apply Nat.leb_le; unfold ndim; rewrite Sx, lenAB; lia). rewrite Nd. cbn [andb].
  unfold shape_eqb. destruct (list_eq_dec Nat.eq_dec [1; a; b]%nat [1; a; b]%nat) as [_|Q]; [|congruence]. cbn [guard bindo].
  eexists. split; [reflexivity|]. split; [exact Sx|]. intros I l m HI. cbn [val]. rewrite N2, N1, <- HI, nthA, nthB. reflexivity.
Qed.

Section F.
Variables (gl : nat -> rule) (nlat : nat) (alpha tau : R) (sigma : option R) (radius : R) (g : grid) (f : grf).
Hypothesis E : grf_init gl nlat alpha tau sigma radius g = Some f.

Lemma sizes : s_mmax (g_isht f) = s_lmax (g_isht f) /\ default_lmax g nlat = Some (s_lmax (g_isht f)).
Proof. destruct (init_inv _ _ _ _ _ _ _ _ E) as (s & q & L & _ & _ & EL & _ & _ & ->). auto. Qed.

Lemma forward_value : forall lead xi, (1 <= length lead)%nat -> shp xi = lead ++ [s_lmax (g_isht f); s_mmax (g_isht f)] ->
  exists s q u, grf_sigma alpha tau sigma = Some s /\ sht_rule gl nlat g = Some q /\ grf_forward f xi = Some u /\ shp u = lead ++ [nlat; 2 * nlat]%nat /\
  forall I k j, length I = length lead ->
    val u (I ++ [k; j]%nat) = synthesise (inverse_sht_pct nlat (s_lmax (g_isht f)) (s_lmax (g_isht f)) q FourPi true) (s_lmax (g_isht f)) (s_lmax (g_isht f)) (2 * nlat)
      (fun l m => Cmult (val xi (I ++ [l; m]%nat)) (RtoC (amp alpha tau s radius l m))) k j.
Proof.
  intros lead xi HL Sx. destruct (init_inv _ _ _ _ _ _ _ _ E) as (s & q & L & Es & Eq & EL & Hn & HLn & Ef). rewrite Ef in *. cbn [g_isht g_sqrt_eig s_lmax s_mmax s_nlat s_nlon s_weights] in *.
  destruct (mul_modes_value (grf_sqrt_eig L L alpha tau s radius) lead L L xi eq_refl HL Sx) as (c & Ec & Sc & Vc).
  destruct (inverse_sht_value (mkSHT nlat (2 * nlat) L L (inverse_sht_pct nlat L L q FourPi true)) lead c) as (u & Eu & Su & Vu); cbn [s_nlon s_weights s_lmax s_mmax s_nlat] in *; try lia; auto.
  { reflexivity. }
  exists s, q, u. split; auto. split; auto. split. { unfold grf_forward. cbn [g_sqrt_eig g_isht]. rewrite Ec. exact Eu. } split; auto.
  intros I k j HI. rewrite Vu by auto. unfold synthesise. apply synth_ext. intros m Hm. apply bsum_ext. intros l Hl. rewrite Vc, eig_value by auto. reflexivity.
Qed.

(** linear in the noise *)
Lemma forward_linear : forall lead a b x y u v, (1 <= length lead)%nat -> shp x = lead ++ [s_lmax (g_isht f); s_mmax (g_isht f)] -> shp y = shp x ->
  grf_forward f x = Some u -> grf_forward f y = Some v -> exists z, grf_forward f (lin_c a b x y) = Some z /\ teq z (lin_r a b u v).
Proof.
  intros lead a b x y u v HL Sx Sy Eu Ev.
  destruct (forward_value lead x HL Sx) as (s & q & u' & Es & Eq & Eu' & Su & Vu). rewrite Eu in Eu'. injection Eu' as <-.
  destruct (forward_value lead y HL (eq_trans Sy Sx)) as (s2 & q2 & v' & Es2 & Eq2 & Ev' & Sv & Vv). rewrite Ev in Ev'. injection Ev' as <-. rewrite Es in Es2. injection Es2 as <-. rewrite Eq in Eq2. injection Eq2 as <-.
  destruct (forward_value lead (lin_c a b x y) HL Sx) as (s2 & q2 & z & Es2 & Eq2 & Ez & Sz & Vz). rewrite Es in Es2. injection Es2 as <-. rewrite Eq in Eq2. injection Eq2 as <-.
  exists z. split; auto. apply (teq_last2 _ lead nlat (2 * nlat)); auto. intros I k j HI _ _ _. unfold lin_r. cbn [val]. rewrite Vz, Vu, Vv, <- synthesise_lin by auto.
  unfold synthesise. apply synth_ext. intros m Hm. apply bsum_ext. intros l Hl. f_equal. unfold lin_c. cbn [val]. ring.
Qed.
(** only the modes with 1 <= l and m <= l matter *)
Lemma forward_modes : forall lead x y u, (1 <= length lead)%nat -> shp x = lead ++ [s_lmax (g_isht f); s_mmax (g_isht f)] -> shp y = shp x ->
  (forall I l m, valid lead I -> (1 <= l < s_lmax (g_isht f))%nat -> (m <= l)%nat -> val x (I ++ [l; m]) = val y (I ++ [l; m])) ->
  grf_forward f x = Some u -> exists v, grf_forward f y = Some v /\ teq v u.
Proof.
  intros lead x y u HL Sx Sy H Eu.
  destruct (forward_value lead x HL Sx) as (s & q & u' & Es & Eq & Eu' & Su & Vu). rewrite Eu in Eu'. injection Eu' as <-.
  destruct (forward_value lead y HL (eq_trans Sy Sx)) as (s2 & q2 & v & Es2 & Eq2 & Ev & Sv & Vv). rewrite Es in Es2. injection Es2 as <-. rewrite Eq in Eq2. injection Eq2 as <-.
  exists v. split; auto. apply (teq_last2 _ lead nlat (2 * nlat)); auto. intros I k j HI VI _ _. rewrite Vu, Vv by auto.
  unfold synthesise. apply synth_ext. intros m Hm. apply bsum_ext. intros l Hl. f_equal. unfold amp.
  destruct (Nat.leb_spec 1 l); cbn [andb]; [|ring]. destruct (Nat.leb_spec m l); [|ring]. rewrite H by (auto; lia). reflexivity.
Qed.
(** the total over the sphere is zero *)
Lemma forward_total : forall lead xi q u I, (1 <= length lead)%nat -> shp xi = lead ++ [s_lmax (g_isht f); s_mmax (g_isht f)] ->
  sht_rule gl nlat g = Some q -> good_rule nlat q (s_lmax (g_isht f) - 1) -> grf_forward f xi = Some u -> length I = length lead ->
  rsum nlat (fun k => rsum (2 * nlat) (fun j => val u (I ++ [k; j]%nat) * rw q k)) = 0.
Proof.
  intros lead xi q u I HL Sx Eq G Eu HI. destruct (forward_value lead xi HL Sx) as (s & q' & u' & Es & Eq' & Eu' & Su & Vu). rewrite Eu in Eu'. injection Eu' as <-. rewrite Eq in Eq'. injection Eq' as <-.
  destruct (init_inv _ _ _ _ _ _ _ _ E) as (s1 & q1 & L & _ & _ & _ & Hn & _ & Ef).
  assert (HLL : s_lmax (g_isht f) = L) by (rewrite Ef; reflexivity). rewrite HLL in *.
  rewrite (bsum_ext nlat _ (fun k => rsum (2 * nlat) (fun j => synthesise (inverse_sht_pct nlat L L q FourPi true) L L (2 * nlat) (fun l m => Cmult (val xi (I ++ [l; m]%nat)) (RtoC (amp alpha tau s radius l m))) k j * rw q k))).
  2:{ intros k Hk. apply bsum_ext. intros j Hj. rewrite Vu by auto. reflexivity. }
  destruct L as [|L'].
  - apply (bsum_zero' RT). intros k Hk. apply (bsum_zero' RT). intros j Hj. unfold synthesise, synth. cbn [bsum_]. ring.
  - rewrite total_synthesise by (auto; lia). unfold amp. cbn [Nat.leb andb]. replace (Cmult (val xi (I ++ [0; 0]%nat)) (RtoC 0)) with (RtoC 0) by ring. unfold Re, RtoC. cbn [fst]. ring.
Qed.
End F.
