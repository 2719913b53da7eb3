(** C29 (linearity, rotation) and C33 (spectral convolution). *)
From Coq Require Import List Arith Lia Bool Reals Lra.
From Coquelicot Require Import Coquelicot.
From Verif Require Import TensorModel TensorProofs BigSum FFTModel TruncModel LegendreModel QuadModel SHTModel SHTSpec
  SpectralConvModel SHTValueProofs VSHTValueProofs SConvProofs.
Import ListNotations.
Local Open Scope nat_scope.

(** C29 *)
Theorem C29_linear : forall gl nlat nlon lmax mmax g nm cs s lead a b x y X Y,
  real_sht_init gl nlat nlon lmax mmax g nm cs = Some s -> 1 <= nlon -> shp x = lead ++ [nlat; nlon] -> shp y = shp x ->
  real_sht s x = Some X -> real_sht s y = Some Y ->
  exists Z, real_sht s (lin_r a b x y) = Some Z /\ teq Z (lin_c a b X Y).
Proof.
  intros gl nlat nlon lmax mmax g nm cs s lead a b x y X Y E Hn Sx Sy EX EY.
  destruct (DistSpectralProofs.real_sht_init_inv _ _ _ _ _ _ _ _ _ E) as (N & W & _). subst.
  eapply real_sht_linear; eauto using init_weights.
Qed.
Theorem C29_rotation : forall gl nlat nlon lmax mmax g nm cs s lead k x X,
  real_sht_init gl nlat nlon lmax mmax g nm cs = Some s -> 1 <= nlon -> shp x = lead ++ [nlat; nlon] -> real_sht s x = Some X ->
  exists Z, real_sht s (roll_last k x) = Some Z /\ teq Z (phase_last nlon k X).
Proof.
  intros gl nlat nlon lmax mmax g nm cs s lead k x X E Hn Sx EX.
  destruct (DistSpectralProofs.real_sht_init_inv _ _ _ _ _ _ _ _ _ E) as (N & W & _). subst.
  eapply real_sht_roll; eauto using init_weights.
Qed.
Theorem C29_inverse_linear : forall gl nlat nlon lmax mmax g nm cs s lead a b x y X Y,
  inverse_sht_init gl nlat nlon lmax mmax g nm cs = Some s -> 1 <= nlon -> shp x = lead ++ [s_lmax s; s_mmax s] -> shp y = shp x ->
  inverse_sht s x = Some X -> inverse_sht s y = Some Y ->
  exists Z, inverse_sht s (lin_c a b x y) = Some Z /\ teq Z (lin_r a b X Y).
Proof.
  intros gl nlat nlon lmax mmax g nm cs s lead a b x y X Y E Hn Sx Sy EX EY.
  destruct (DistSpectralProofs.inverse_sht_init_inv _ _ _ _ _ _ _ _ _ E) as (N & W & _). subst.
  eapply inverse_sht_linear; eauto using inv_init_weights.
Qed.
Theorem C29_inverse_rotation : forall gl nlat nlon lmax mmax g nm cs s lead k x X,
  inverse_sht_init gl nlat nlon lmax mmax g nm cs = Some s -> 1 <= nlon -> shp x = lead ++ [s_lmax s; s_mmax s] -> inverse_sht s x = Some X ->
  exists Z, inverse_sht s (phase_last nlon k x) = Some Z /\ teq Z (roll_last k X).
Proof.
  intros gl nlat nlon lmax mmax g nm cs s lead k x X E Hn Sx EX.
  destruct (DistSpectralProofs.inverse_sht_init_inv _ _ _ _ _ _ _ _ _ E) as (N & W & _). subst.
  eapply inverse_sht_phase; eauto using inv_init_weights.
Qed.
Lemma vinit_sizes : forall gl h w lm mm g nm cs s, vector_sht_init gl h w lm mm g nm cs = Some s -> s_nlat s = h /\ s_nlon s = w.
Proof.
  intros. unfold vector_sht_init in H. destruct (sht_rule gl h g); [|discriminate]. cbn [bindo] in H.
  destruct (truncate_sht h w lm mm g) as [[a b]|]; [|discriminate]. cbn [bindo] in H. inversion H. auto.
Qed.
Lemma inv_vinit_sizes : forall gl h w lm mm g nm cs s, inverse_vector_sht_init gl h w lm mm g nm cs = Some s -> s_nlat s = h /\ s_nlon s = w.
Proof.
  intros. unfold inverse_vector_sht_init in H. destruct (sht_rule gl h g); [|discriminate]. cbn [bindo] in H.
  destruct (truncate_sht h w lm mm g) as [[a b]|]; [|discriminate]. cbn [bindo] in H. inversion H. auto.
Qed.
Theorem C29_vector_linear : forall gl nlat nlon lmax mmax g nm cs s lead a b x y X Y,
  vector_sht_init gl nlat nlon lmax mmax g nm cs = Some s -> 1 <= nlon -> shp x = lead ++ [2; nlat; nlon] -> shp y = shp x ->
  vector_sht s x = Some X -> vector_sht s y = Some Y ->
  exists Z, vector_sht s (lin_r a b x y) = Some Z /\ teq Z (lin_c a b X Y).
Proof.
  intros gl nlat nlon lmax mmax g nm cs s lead a b x y X Y E Hn Sx Sy EX EY. destruct (vinit_sizes _ _ _ _ _ _ _ _ _ E). subst.
  eapply vector_sht_linear; eauto using vinit_weights.
Qed.
Theorem C29_vector_rotation : forall gl nlat nlon lmax mmax g nm cs s lead k x X,
  vector_sht_init gl nlat nlon lmax mmax g nm cs = Some s -> 1 <= nlon -> shp x = lead ++ [2; nlat; nlon] -> vector_sht s x = Some X ->
  exists Z, vector_sht s (roll_last k x) = Some Z /\ teq Z (phase_last nlon k X).
Proof.
  intros gl nlat nlon lmax mmax g nm cs s lead k x X E Hn Sx EX. destruct (vinit_sizes _ _ _ _ _ _ _ _ _ E). subst.
  eapply vector_sht_roll; eauto using vinit_weights.
Qed.
Theorem C29_inverse_vector_linear : forall gl nlat nlon lmax mmax g nm cs s lead a b x y X Y,
  inverse_vector_sht_init gl nlat nlon lmax mmax g nm cs = Some s -> 1 <= nlon -> shp x = lead ++ [2; s_lmax s; s_mmax s] -> shp y = shp x ->
  inverse_vector_sht s x = Some X -> inverse_vector_sht s y = Some Y ->
  exists Z, inverse_vector_sht s (lin_c a b x y) = Some Z /\ teq Z (lin_r a b X Y).
Proof.
  intros gl nlat nlon lmax mmax g nm cs s lead a b x y X Y E Hn Sx Sy EX EY. destruct (inv_vinit_sizes _ _ _ _ _ _ _ _ _ E). subst.
  eapply inverse_vector_sht_linear; eauto using inv_vinit_weights.
Qed.
Theorem C29_inverse_vector_rotation : forall gl nlat nlon lmax mmax g nm cs s lead k x X,
  inverse_vector_sht_init gl nlat nlon lmax mmax g nm cs = Some s -> 1 <= nlon -> shp x = lead ++ [2; s_lmax s; s_mmax s] -> inverse_vector_sht s x = Some X ->
  exists Z, inverse_vector_sht s (phase_last nlon k x) = Some Z /\ teq Z (roll_last k X).
Proof.
  intros gl nlat nlon lmax mmax g nm cs s lead k x X E Hn Sx EX. destruct (inv_vinit_sizes _ _ _ _ _ _ _ _ _ E). subst.
  eapply inverse_vector_sht_phase; eauto using inv_vinit_weights.
Qed.
Definition ex29 : tensor R := mkT [2; 5; 8] (fun i => INR (ravel [2; 5; 8] i)).
(** The transforms run on concrete input; the rotated input differs from the original. *)
Example C29_ex : forall gl, exists s X, real_sht_init gl 5 8 None None GEquiangular Ortho true = Some s /\ real_sht s ex29 = Some X /\
  shp ex29 = [2] ++ [5; 8] /\ val (roll_last 3 ex29) [0; 0; 0] = INR 5 /\ val ex29 [0; 0; 0] = INR 0.
Proof.
  intros gl. destruct (real_sht_init gl 5 8 None None GEquiangular Ortho true) as [s|] eqn:E; [|discriminate].
  destruct (DistSpectralProofs.real_sht_init_inv _ _ _ _ _ _ _ _ _ E) as (N & W & _).
  destruct (real_sht_value s [2] ex29 (init_weights _ _ _ _ _ _ _ _ _ E)) as (X & EX & _). now rewrite N, W.
  exists s, X. auto.
Qed.
Example C29_ex_vector : forall gl, exists s, vector_sht_init gl 5 8 None None GEquiangular Ortho true = Some s /\ exists X, vector_sht s ex29 = Some X.
Proof.
  intros gl. destruct (vector_sht_init gl 5 8 None None GEquiangular Ortho true) as [s|] eqn:E; [|discriminate].
  destruct (vinit_sizes _ _ _ _ _ _ _ _ _ E) as (N & W).
  destruct (vector_sht_value s [] ex29 (vinit_weights _ _ _ _ _ _ _ _ _ E)) as (X & EX & _). now rewrite N, W. eauto.
Qed.

(** C33 *)
Theorem C33_formula : forall gl hi wi ho wo cin cout groups gi go weight bias s b x,
  sconv_init gl hi wi ho wo cin cout groups gi go weight bias = Some s -> 1 <= wo -> shp x = [b; cin; hi; wi] ->
  exists lm q X Z Y, quadrature_s2_rule gl hi gi = Some q /\ real_sht (sc_sht s) x = Some X /\ shp X = [b; cin; lm; lm] /\
    spectral_conv s x = Some Y /\ inverse_sht (sc_isht s) Z = Some Y /\ shp Z = [b; cout; lm; lm] /\ shp Y = [b; cout; ho; wo] /\
    forall n o l m, n < b -> o < cout -> l < lm -> m < lm ->
      let g := o / (cout / groups) in
      val Z [n; o; l; m] = csum (cin / groups) (fun c =>
        let ch := g * (cin / groups) + c in
        Cmult (match bias with
               | None => val X [n; ch; l; m]
               | Some bt => Cplus (val X [n; ch; l; m]) (Cmult (RtoC (field_int hi wi (rw q) (fun a t => val x [n; ch; a; t]))) (val bt [0; ch; l; m]))
               end) (val weight [g; c; o mod (cout / groups); l])).
Proof. exact sconv_formula. Qed.
Theorem C33_groups_independent : forall gl hi wi ho wo cin cout groups gi go weight bias s b x x' y y',
  sconv_init gl hi wi ho wo cin cout groups gi go weight bias = Some s -> 1 <= wo ->
  shp x = [b; cin; hi; wi] -> shp x' = [b; cin; hi; wi] -> spectral_conv s x = Some y -> spectral_conv s x' = Some y' ->
  forall n o, n < b -> o < cout ->
  (forall c k j, c < cin -> c / (cin / groups) = o / (cout / groups) -> k < hi -> j < wi -> val x [n; c; k; j] = val x' [n; c; k; j]) ->
  forall k j, val y [n; o; k; j] = val y' [n; o; k; j].
Proof. exact sconv_groups. Qed.
Theorem C33_rotation : forall gl hi wi ho wo cin cout groups gi go weight s b x y ki ko,
  sconv_init gl hi wi ho wo cin cout groups gi go weight None = Some s -> 1 <= wi -> 1 <= wo -> ki * wo = ko * wi ->
  shp x = [b; cin; hi; wi] -> spectral_conv s x = Some y ->
  exists y', spectral_conv s (roll_last ki x) = Some y' /\ teq y' (roll_last ko y).
Proof. exact sconv_rotate. Qed.
(** With the spectral bias the operator does not commute with rotations: a constant
    field, invariant under rotation, is mapped to a field that is not. *)
Theorem C33_rotation_with_bias_refuted : exists s y,
  sconv_init bx_gl 2 4 2 4 1 1 1 GLegendreGauss GLegendreGauss bx_w (Some bx_b) = Some s /\ spectral_conv s bx_x = Some y /\
  teq (roll_last 2 bx_x) bx_x /\ ~ teq y (roll_last 2 y).
Proof. exact bias_breaks_rotation. Qed.
Theorem C33_rejects : forall gl hi wi ho wo cin cout groups gi go weight bias,
  groups = 0 \/ cin mod groups <> 0 \/ cout mod groups <> 0 -> sconv_init gl hi wi ho wo cin cout groups gi go weight bias = None.
Proof. exact sconv_rejects. Qed.
Definition exW33 : tensor C := mkT [2; 1; 3; 3] (fun i => (INR (ravel [2; 1; 3; 3] i), 2%R)).
Definition exX33 : tensor R := mkT [1; 2; 5; 8] (fun i => INR (ravel [1; 2; 5; 8] i)).
Example C33_ex : forall gl, exists s Y, sconv_init gl 5 8 9 6 2 6 2 GEquiangular GEquiangular exW33 None = Some s /\ spectral_conv s exX33 = Some Y /\
  4 * 6 = 3 * 8 /\ sconv_init gl 5 8 9 6 2 6 4 GEquiangular GEquiangular exW33 None = None.
Proof.
  intros gl. destruct (sconv_init gl 5 8 9 6 2 6 2 GEquiangular GEquiangular exW33 None) as [s|] eqn:E; [|discriminate].
  destruct (sconv_formula gl 5 8 9 6 2 6 2 GEquiangular GEquiangular exW33 None s 1 exX33 E ltac:(lia) eq_refl) as (lm & q & X & Z & Y & _ & _ & _ & EY & _).
  exists s, Y. split; auto.
Qed.

Print Assumptions C29_linear.
Print Assumptions C29_rotation.
Print Assumptions C29_inverse_linear.
Print Assumptions C29_inverse_rotation.
Print Assumptions C29_vector_linear.
Print Assumptions C29_vector_rotation.
Print Assumptions C29_inverse_vector_linear.
Print Assumptions C29_inverse_vector_rotation.
Print Assumptions C33_formula.
Print Assumptions C33_groups_independent.
Print Assumptions C33_rotation.
Print Assumptions C33_rotation_with_bias_refuted.
Print Assumptions C33_rejects.
