(** C27: the vector transform inverts the inverse vector transform. *)
From Coq Require Import List Arith Lia Bool Reals Lra.
From Coquelicot Require Import Coquelicot.
From Verif Require Import TensorModel TensorProofs BigSum FFTModel TruncModel TruncSpec TruncProofs LegendreModel QuadModel QuadSpec SHTModel SHTSpec LegSpec
  SHTRoundSpec PolyProofs SHTValueProofs SHTRoundProofs SHTBandProofs VLegProofs VRoundProofs VBandProofs.
Import ListNotations.
Local Open Scope R_scope.

(** On any grid whose latitude rule is exact to degree 2 (lmax - 1), spheroidal and
    toroidal coefficients are recovered up to what a real tangent field can carry,
    provided the order nlon/2 is empty (see [C27_nyquist_refuted]). *)
Theorem C27_any_grid : forall gl h w lm mm g nm cs s t q lead c,
  vector_sht_init gl h w lm mm g nm cs = Some s -> inverse_vector_sht_init gl h w lm mm g nm cs = Some t ->
  sht_rule gl h g = Some q -> good_rule h q (2 * (s_lmax s - 1)) -> (1 <= w)%nat ->
  shp c = lead ++ [2%nat; s_lmax s; s_mmax s] -> no_nyquist w c ->
  exists f z, inverse_vector_sht t c = Some f /\ vector_sht s f = Some z /\ teq z (vrepresentable w c).
Proof. intros gl h w lm mm g nm cs s t q lead c Es Et Eq G Hw. exact (vsht_visht gl h w lm mm g nm cs s t q Es Et Eq G Hw lead c). Qed.
Theorem C27_equiangular : forall gl h w lm mm nm cs lead, (2 <= h)%nat -> (1 <= w)%nat -> unset lm ->
  exists s t, vector_sht_init gl h w lm mm GEquiangular nm cs = Some s /\ inverse_vector_sht_init gl h w lm mm GEquiangular nm cs = Some t /\
  forall c, shp c = lead ++ [2%nat; s_lmax s; s_mmax s] -> no_nyquist w c ->
  exists f z, inverse_vector_sht t c = Some f /\ vector_sht s f = Some z /\ teq z (vrepresentable w c).
Proof. exact vequiangular_round. Qed.
Theorem C27_legendre_gauss : forall gl h w lm mm nm cs lead, (1 <= h)%nat -> (1 <= w)%nat -> unset lm -> good_rule h (gl h) (2 * h - 1) ->
  exists s t, vector_sht_init gl h w lm mm GLegendreGauss nm cs = Some s /\ inverse_vector_sht_init gl h w lm mm GLegendreGauss nm cs = Some t /\
  forall c, shp c = lead ++ [2%nat; s_lmax s; s_mmax s] -> no_nyquist w c ->
  exists f z, inverse_vector_sht t c = Some f /\ vector_sht s f = Some z /\ teq z (vrepresentable w c).
Proof. exact vgauss_round. Qed.
(** The order nlon/2 is empty as soon as the truncation stays below it. *)
Theorem C27_below_nyquist : forall w c lead L M, shp c = lead ++ [2%nat; L; M] -> (2 * (M - 1) < w)%nat -> no_nyquist w c.
Proof. exact no_nyquist_trunc. Qed.
(** Coefficients of degree >= 1 with orders below nlon/2 come back unchanged. *)
Theorem C27_identity : forall gl h w lm mm g nm cs s t q lead c,
  vector_sht_init gl h w lm mm g nm cs = Some s -> inverse_vector_sht_init gl h w lm mm g nm cs = Some t ->
  sht_rule gl h g = Some q -> good_rule h q (2 * (s_lmax s - 1)) -> (1 <= w)%nat ->
  shp c = lead ++ [2%nat; s_lmax s; s_mmax s] ->
  (forall I d l m, valid lead I -> (d < 2)%nat -> (l < s_lmax s)%nat -> (m < s_mmax s)%nat ->
     (l = 0%nat \/ (l < m)%nat \/ (w <= 2 * m)%nat -> val c (I ++ [d; l; m]) = RtoC 0) /\
     (m = 0%nat -> Im (val c (I ++ [d; l; m])) = 0)) ->
  exists f z, inverse_vector_sht t c = Some f /\ vector_sht s f = Some z /\ teq z c.
Proof. exact vround_identity. Qed.
(** The tables are the two components of the gradient of the scalar harmonics. *)
Theorem C27_tables : forall mmax lmax t nm inverse cs m l, (l < lmax)%nat -> 0 < t < PI ->
  precompute_dlegpoly mmax lmax t nm inverse cs 0 m l = norm_spec nm inverse l * phase_spec cs m * dalf_theta l m t /\
  precompute_dlegpoly mmax lmax t nm inverse cs 1 m l = norm_spec nm inverse l * phase_spec cs m * malf_sin l m t.
Proof.
  intros. rewrite !dlegpoly_value by auto. unfold comp. cbn [Nat.eqb]. rewrite dalf_is_derivative, ealf_is_quotient by auto. split; reflexivity.
Qed.
(** The inverse transform of the coefficients of two scalar potentials F (spheroidal)
    and G (toroidal) is grad F + (grad G rotated by a quarter turn): at every node
    off the poles (d_theta F + d_lambda G / sin theta, d_lambda F / sin theta - d_theta G). *)
Theorem C27_helmholtz : forall gl h w lm mm g nm cs t q lead M a b a' b' c,
  inverse_vector_sht_init gl h w lm mm g nm cs = Some t -> sht_rule gl h g = Some q ->
  (1 <= w)%nat -> (2 * M < w)%nat -> shp c = lead ++ [2%nat; s_lmax t; s_mmax t] ->
  (forall I l m, valid lead I -> (l < s_lmax t)%nat -> (m < s_mmax t)%nat ->
    val c (I ++ [0; l; m]%nat) = harmonic_coeff nm cs w M (a I) (b I) l m /\ val c (I ++ [1; l; m]%nat) = harmonic_coeff nm cs w M (a' I) (b' I) l m) ->
  exists u, inverse_vector_sht t c = Some u /\ shp u = lead ++ [2; h; w]%nat /\
  forall I k j, valid lead I -> let th := sht_colat h q k in let lam := precompute_longitudes w j in 0 < th < PI ->
    val u (I ++ [0; k; j]%nat) = Derive (fun x => harmonic_sum (s_lmax t) M (a I) (b I) x lam) th + Derive (fun x => harmonic_sum (s_lmax t) M (a' I) (b' I) th x) lam / sin th /\
    val u (I ++ [1; k; j]%nat) = Derive (fun x => harmonic_sum (s_lmax t) M (a I) (b I) th x) lam / sin th - Derive (fun x => harmonic_sum (s_lmax t) M (a' I) (b' I) x lam) th.
Proof. exact vector_synthesis. Qed.
(** At the order nlon/2, which an explicit (or default) truncation can include, even
    a real coefficient is not recovered: 1 comes back as 1/4. *)
Theorem C27_nyquist_refuted : forall gl nm cs, exists s t c f z,
  vector_sht_init gl 3 2 (Some 2%nat) None GEquiangular nm cs = Some s /\ inverse_vector_sht_init gl 3 2 (Some 2%nat) None GEquiangular nm cs = Some t /\
  shp c = [2; 2; 2]%nat /\ (forall i, val c i = if list_eq_dec Nat.eq_dec i [0; 1; 1]%nat then RtoC 1 else RtoC 0) /\
  inverse_vector_sht t c = Some f /\ vector_sht s f = Some z /\ val z [0; 1; 1]%nat = RtoC (1 / 4).
Proof. exact vround_nyquist. Qed.

(** The library's own 5 x 8 equiangular grid: lmax = mmax = 3 stays below the order
    4, so no coefficient array is excluded; the rule is good; node 2 is the equator. *)
Example C27_ex : exists s t q, vector_sht_init (fun _ => mkRule (fun _ => 0) (fun _ => 0)) 5 8 None None GEquiangular Schmidt true = Some s /\
  inverse_vector_sht_init (fun _ => mkRule (fun _ => 0) (fun _ => 0)) 5 8 None None GEquiangular Schmidt true = Some t /\ s_lmax s = 3%nat /\ s_mmax s = 3%nat /\
  sht_rule (fun _ => mkRule (fun _ => 0) (fun _ => 0)) 5 GEquiangular = Some q /\ good_rule 5 q (2 * (s_lmax s - 1)) /\
  (forall c, shp c = [] ++ [2%nat; s_lmax s; s_mmax s] -> no_nyquist 8 c).
Proof.
  unfold vector_sht_init, inverse_vector_sht_init. cbn [sht_rule]. destruct (clenshaw_curtiss_weights 5 (-1) 1) as [q|] eqn:E.
  - cbn [bindo]. eexists. eexists. exists q. split; [reflexivity|]. split; [reflexivity|]. split; [reflexivity|]. split; [reflexivity|]. split; auto. split.
    exact (cc_good 5 q ltac:(lia) E). intros c Sc. eapply no_nyquist_trunc. exact Sc. simpl. lia.
  - discriminate E.
Qed.

Print Assumptions C27_any_grid.
Print Assumptions C27_equiangular.
Print Assumptions C27_legendre_gauss.
Print Assumptions C27_below_nyquist.
Print Assumptions C27_identity.
Print Assumptions C27_tables.
Print Assumptions C27_helmholtz.
Print Assumptions C27_nyquist_refuted.
