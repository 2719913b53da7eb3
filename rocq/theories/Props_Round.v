(** C25 (SHT after inverse SHT), C26 (inverse SHT after SHT), C28 (conventions). *)
From Coq Require Import List Arith Lia Bool Reals Lra.
From Coquelicot Require Import Coquelicot.
From Verif Require Import TensorModel TensorProofs BigSum FFTModel TruncModel TruncSpec TruncProofs LegendreModel QuadModel QuadSpec SHTModel SHTSpec LegSpec
  SHTRoundSpec PolyProofs SHTValueProofs SHTRoundProofs SHTBandProofs.
Import ListNotations.
Local Open Scope R_scope.

(** C25: on any grid whose latitude rule is exact to degree 2 (lmax - 1), every
    coefficient array is recovered up to what no real field can carry: orders above
    the degree or above nlon/2, and the imaginary parts of the orders 0 and nlon/2.
    The rule hypothesis is discharged for the grids below. *)
Theorem C25_any_grid : forall gl h w lm mm g nm cs s t q lead c,
  real_sht_init gl h w lm mm g nm cs = Some s -> inverse_sht_init gl h w lm mm g nm cs = Some t ->
  sht_rule gl h g = Some q -> good_rule h q (2 * (s_lmax s - 1)) -> (1 <= w)%nat ->
  shp c = lead ++ [s_lmax s; s_mmax s] ->
  exists f z, inverse_sht t c = Some f /\ real_sht s f = Some z /\ teq z (representable w c).
Proof. intros gl h w lm mm g nm cs s t q lead c Es Et Eq G Hw. exact (sht_isht gl h w lm mm g nm cs s t q Es Et Eq G Hw lead c). Qed.
(** The equiangular grid with its default degree truncation (any mmax): no
    hypothesis on the rule, and the constructors always succeed. *)
Theorem C25_equiangular : forall gl h w lm mm nm cs lead,
  (2 <= h)%nat -> (1 <= w)%nat -> unset lm ->
  exists s t, real_sht_init gl h w lm mm GEquiangular nm cs = Some s /\ inverse_sht_init gl h w lm mm GEquiangular nm cs = Some t /\
  forall c, shp c = lead ++ [s_lmax s; s_mmax s] ->
  exists f z, inverse_sht t c = Some f /\ real_sht s f = Some z /\ teq z (representable w c).
Proof. exact equiangular_round. Qed.
(** Explicit degree truncation on the equiangular grid, as long as 2 lmax - 1 <= nlat. *)
Theorem C25_equiangular_explicit : forall gl h w lm mm nm cs s t lead c, (2 <= h)%nat -> (1 <= w)%nat ->
  real_sht_init gl h w lm mm GEquiangular nm cs = Some s -> inverse_sht_init gl h w lm mm GEquiangular nm cs = Some t ->
  (2 * s_lmax s - 1 <= h)%nat -> shp c = lead ++ [s_lmax s; s_mmax s] ->
  exists f z, inverse_sht t c = Some f /\ real_sht s f = Some z /\ teq z (representable w c).
Proof. exact equiangular_round_explicit. Qed.
(** The Gauss grid, for whatever numpy's leggauss returns, provided it is the Gauss
    rule (exact to degree 2 nlat - 1, symmetric weights, nodes in [-1,1]). *)
Theorem C25_legendre_gauss : forall gl h w lm mm nm cs lead, (1 <= h)%nat -> (1 <= w)%nat -> unset lm -> good_rule h (gl h) (2 * h - 1) ->
  exists s t, real_sht_init gl h w lm mm GLegendreGauss nm cs = Some s /\ inverse_sht_init gl h w lm mm GLegendreGauss nm cs = Some t /\
  forall c, shp c = lead ++ [s_lmax s; s_mmax s] ->
  exists f z, inverse_sht t c = Some f /\ real_sht s f = Some z /\ teq z (representable w c).
Proof. exact gauss_round. Qed.
(** Coefficients of a real field come back unchanged. *)
Theorem C25_identity : forall gl h w lm mm g nm cs s t q lead c,
  real_sht_init gl h w lm mm g nm cs = Some s -> inverse_sht_init gl h w lm mm g nm cs = Some t ->
  sht_rule gl h g = Some q -> good_rule h q (2 * (s_lmax s - 1)) -> (1 <= w)%nat ->
  shp c = lead ++ [s_lmax s; s_mmax s] ->
  (forall I l m, valid lead I -> (l < s_lmax s)%nat -> (m < s_mmax s)%nat ->
     ((l < m)%nat \/ (w < 2 * m)%nat -> val c (I ++ [l; m]) = RtoC 0) /\
     (m = 0%nat \/ (2 * m)%nat = w -> Im (val c (I ++ [l; m])) = 0)) ->
  exists f z, inverse_sht t c = Some f /\ real_sht s f = Some z /\ teq z c.
Proof. exact round_identity. Qed.

(** C26: P = InverseRealSHT o RealSHT satisfies P (P x) = P x for every field x. *)
Theorem C26_idempotent : forall gl h w lm mm g nm cs s t q lead x,
  real_sht_init gl h w lm mm g nm cs = Some s -> inverse_sht_init gl h w lm mm g nm cs = Some t ->
  sht_rule gl h g = Some q -> good_rule h q (2 * (s_lmax s - 1)) -> (1 <= w)%nat ->
  shp x = lead ++ [h; w] ->
  exists c f z f', real_sht s x = Some c /\ inverse_sht t c = Some f /\ real_sht s f = Some z /\ inverse_sht t z = Some f' /\ teq f' f /\ teq z c.
Proof. exact projection. Qed.
(** Every finite sum of spherical harmonics of degree < lmax and order <= nlon/2,
    sampled on the library's nodes, is reproduced. *)
Theorem C26_band_limited : forall gl h w lm mm g nm cs s t q lat lead M a b x,
  real_sht_init gl h w lm mm g nm cs = Some s -> inverse_sht_init gl h w lm mm g nm cs = Some t ->
  sht_rule gl h g = Some q -> good_rule h q (2 * (s_lmax s - 1)) -> (1 <= w)%nat ->
  precompute_latitudes gl h g = Some lat -> (M <= w / 2)%nat -> shp x = lead ++ [h; w] ->
  (forall I k j, valid lead I -> (k < h)%nat -> (j < w)%nat ->
     val x (I ++ [k; j]) = harmonic_sum (s_lmax s) M (a I) (b I) (rn lat k) (precompute_longitudes w j)) ->
  exists c f, real_sht s x = Some c /\ inverse_sht t c = Some f /\ teq f x.
Proof. intros *. intros H1 H2 H3 H4 H5 H6 H7 H8 H9. exact (band_reproduced _ _ _ _ _ _ _ _ _ _ _ _ H1 H2 H3 H4 H5 H6 _ _ _ _ _ H7 H8 H9). Qed.
(** ... and its transform is its coefficients, under every convention. *)
Theorem C26_coefficients : forall gl h w lm mm g nm cs s t q lat lead M a b x,
  real_sht_init gl h w lm mm g nm cs = Some s -> inverse_sht_init gl h w lm mm g nm cs = Some t ->
  sht_rule gl h g = Some q -> good_rule h q (2 * (s_lmax s - 1)) -> (1 <= w)%nat ->
  precompute_latitudes gl h g = Some lat -> (M <= w / 2)%nat -> shp x = lead ++ [h; w] ->
  (forall I k j, valid lead I -> (k < h)%nat -> (j < w)%nat ->
     val x (I ++ [k; j]) = harmonic_sum (s_lmax s) M (a I) (b I) (rn lat k) (precompute_longitudes w j)) ->
  exists c, real_sht s x = Some c /\ shp c = lead ++ [s_lmax s; s_mmax s] /\
    forall I l m, valid lead I -> (l < s_lmax s)%nat -> (m < s_mmax s)%nat -> val c (I ++ [l; m]) = harmonic_coeff nm cs w M (a I) (b I) l m.
Proof. exact band_coefficients. Qed.

(** C28: no hypothesis on the rule is needed. *)
Theorem C28_coefficients : forall gl h w lm mm g nm cs s s0 lead x, real_sht_init gl h w lm mm g nm cs = Some s ->
  real_sht_init gl h w lm mm g Ortho false = Some s0 -> shp x = lead ++ [h; w] ->
  exists c c0, real_sht s x = Some c /\ real_sht s0 x = Some c0 /\ teq c (convention nm cs c0).
Proof. exact sht_convention. Qed.
Theorem C28_round_trip : forall gl h w lm mm g nm cs nm' cs' s t s' t' lead x, (1 <= w)%nat ->
  real_sht_init gl h w lm mm g nm cs = Some s -> inverse_sht_init gl h w lm mm g nm cs = Some t ->
  real_sht_init gl h w lm mm g nm' cs' = Some s' -> inverse_sht_init gl h w lm mm g nm' cs' = Some t' -> shp x = lead ++ [h; w] ->
  exists c c' f f', real_sht s x = Some c /\ inverse_sht t c = Some f /\ real_sht s' x = Some c' /\ inverse_sht t' c' = Some f' /\ teq f f'.
Proof. exact round_convention. Qed.

Example C25_ex : exists s t, real_sht_init (fun _ => mkRule (fun _ => 0) (fun _ => 0)) 5 8 None None GEquiangular Ortho true = Some s /\
  inverse_sht_init (fun _ => mkRule (fun _ => 0) (fun _ => 0)) 5 8 None None GEquiangular Ortho true = Some t /\ s_lmax s = 3%nat /\ s_mmax s = 3%nat /\
  exists q, sht_rule (fun _ => mkRule (fun _ => 0) (fun _ => 0)) 5 GEquiangular = Some q /\ good_rule 5 q (2 * (s_lmax s - 1)).
Proof.
  unfold real_sht_init, inverse_sht_init. cbn [sht_rule]. destruct (clenshaw_curtiss_weights 5 (-1) 1) as [q|] eqn:E.
  - cbn [bindo]. eexists. eexists. split; [reflexivity|]. split; [reflexivity|]. split; [reflexivity|]. split; [reflexivity|].
    exists q. split; auto. exact (cc_good 5 q ltac:(lia) E).
  - discriminate E.
Qed.
(** The two-point Gauss rule meets the hypothesis of C25_legendre_gauss. *)
Example C25_gauss_ex : exists gl, good_rule 2 (gl 2%nat) (2 * 2 - 1).
Proof. exact gauss2. Qed.

Print Assumptions C25_any_grid.
Print Assumptions C25_equiangular.
Print Assumptions C25_equiangular_explicit.
Print Assumptions C25_legendre_gauss.
Print Assumptions C25_identity.
Print Assumptions C26_idempotent.
Print Assumptions C26_band_limited.
Print Assumptions C26_coefficients.
Print Assumptions C28_coefficients.
Print Assumptions C28_round_trip.
