(** Spectral convolution: closed form, groups, rotation. *)
From Coq Require Import List Arith Lia Bool Reals Lra.
From Coquelicot Require Import Coquelicot.
From Verif Require Import TensorModel TensorProofs BigSum FFTModel FFTProofs TruncModel LegendreModel QuadModel SHTModel SHTSpec
  SpectralConvModel DistSHTProofs DistSpectralProofs SHTValueProofs.
Import ListNotations.
Local Open Scope nat_scope.

(** Every rule has a positive default truncation, hence so has the convolution. *)
Lemma sht_rule_lmax : forall gl h g q k, sht_rule gl h g = Some q -> default_lmax g h = Some k -> 1 <= k.
Proof.
  intros gl h g q k Hq Hk. destruct g; simpl in *; try discriminate; inversion Hk; subst; clear Hk.
  - unfold legendre_gauss_weights in Hq. destruct (Nat.eqb_spec k 0); [discriminate|lia].
  - unfold lobatto_default, lobatto_weights in Hq. destruct (Nat.leb_spec h 1); [discriminate|].
    destruct (Nat.eqb_spec h 0); [lia|]. inversion H0. lia.
  - unfold clenshaw_curtiss_weights in Hq. destruct (Nat.leb_spec h 1); [discriminate|]. change (1 <= (h + 1) / 2). apply Nat.div_le_lower_bound; lia.
Qed.
Lemma real_init_rule : forall gl h w lm mm g nm cs s, real_sht_init gl h w lm mm g nm cs = Some s -> exists q, sht_rule gl h g = Some q.
Proof. intros. unfold real_sht_init in H. destruct (sht_rule gl h g); [eauto|discriminate]. Qed.
Lemma inv_init_rule : forall gl h w lm mm g nm cs s, inverse_sht_init gl h w lm mm g nm cs = Some s -> exists q, sht_rule gl h g = Some q.
Proof. intros. unfold inverse_sht_init in H. destruct (sht_rule gl h g); [eauto|discriminate]. Qed.
Lemma trunc_pos : forall gl hi wi ho wo gi go lm q q', sht_rule gl hi gi = Some q -> sht_rule gl ho go = Some q' ->
  sconv_trunc hi wi ho wo gi go = Some lm -> 1 <= lm.
Proof.
  intros gl hi wi ho wo gi go lm q q' Q Q' E. unfold sconv_trunc, truncate_sht in E. cbn [or_default] in E.
  destruct (default_lmax gi hi) as [a|] eqn:A; [|discriminate]. destruct (default_lmax go ho) as [b|] eqn:B; [|discriminate].
  cbn [bindo fst snd] in E. assert (1 <= a) by eauto using sht_rule_lmax. assert (1 <= b) by eauto using sht_rule_lmax.
  assert (F : Nat.min (Nat.min (Nat.min a (default_mmax wi)) (Nat.min b (default_mmax wo))) (Nat.min (Nat.min a (default_mmax wi)) (Nat.min b (default_mmax wo))) = lm) by congruence.
  rewrite <- F. unfold default_mmax. generalize (wi / 2) (wo / 2). intros. lia.
Qed.

Record sc_spec (gl : nat -> rule) (hi wi ho wo cin cout groups lm : nat) (gi : grid) (weight : tensor C) (bias : option (tensor C)) (s : sconv) : Prop := {
  sp_g : groups <> 0; sp_ci : cin = groups * (cin / groups); sp_co : cout = groups * (cout / groups);
  sp_lm : 1 <= lm;
  sp_fl : s_nlat (sc_sht s) = hi /\ s_nlon (sc_sht s) = wi /\ s_lmax (sc_sht s) = lm /\ s_mmax (sc_sht s) = lm;
  sp_il : s_nlat (sc_isht s) = ho /\ s_nlon (sc_isht s) = wo /\ s_lmax (sc_isht s) = lm /\ s_mmax (sc_isht s) = lm;
  sp_fw : wshape (sc_sht s) lm lm hi; sp_iw : wshape (sc_isht s) lm ho lm;
  sp_ws : shp weight = [groups; cin / groups; cout / groups; lm];
  sp_bs : match bias with Some b => shp b = [1; cin; lm; lm] | None => True end;
  sp_par : sc_groups s = groups /\ sc_out s = cout /\ sc_weight s = weight /\ sc_bias s = bias;
  sp_quad : exists q, quadrature_s2_rule gl hi gi = Some q /\ sc_quad s = quad_weight_tensor hi wi (rw q) false }.

Lemma sconv_init_spec : forall gl hi wi ho wo cin cout groups gi go weight bias s,
  sconv_init gl hi wi ho wo cin cout groups gi go weight bias = Some s ->
  exists lm, sconv_trunc hi wi ho wo gi go = Some lm /\ sc_spec gl hi wi ho wo cin cout groups lm gi weight bias s.
Proof.
  intros gl hi wi ho wo cin cout groups gi go weight bias s Es. unfold sconv_init in Es.
  destruct (negb (groups =? 0) && (cin mod groups =? 0) && (cout mod groups =? 0)) eqn:G; [|discriminate]. cbn [guard bindo] in Es.
  destruct (sconv_trunc hi wi ho wo gi go) as [lm|] eqn:Et; [|discriminate]. cbn [bindo] in Es.
  destruct (real_sht_init gl hi wi (Some lm) (Some lm) gi Ortho true) as [s1|] eqn:E1; [|discriminate]. cbn [bindo] in Es.
  destruct (inverse_sht_init gl ho wo (Some lm) (Some lm) go Ortho true) as [s2|] eqn:E2; [|discriminate]. cbn [bindo] in Es.
  destruct (shape_eqb (shp weight) [groups; cin / groups; cout / groups; s_lmax s1]) eqn:Ew; [|discriminate]. cbn [guard bindo] in Es.
  destruct (match bias with None => true | Some b => shape_eqb (shp b) [1; cin; s_lmax s1; s_mmax s1] end) eqn:Eb; [|discriminate]. cbn [guard bindo] in Es.
  destruct (quadrature_s2_rule gl hi gi) as [q|] eqn:Eq; [|discriminate]. cbn [bindo] in Es. inversion Es; subst s; clear Es.
  apply shape_eqb_true in Ew. apply andb_prop in G. destruct G as [G G3]. apply andb_prop in G. destruct G as [G1 G2].
  apply negb_true_iff, Nat.eqb_neq in G1. apply Nat.eqb_eq in G2, G3.
  destruct (real_init_rule _ _ _ _ _ _ _ _ _ E1) as (q1 & Q1). destruct (inv_init_rule _ _ _ _ _ _ _ _ _ E2) as (q2 & Q2).
  assert (Hlm := trunc_pos _ _ _ _ _ _ _ _ _ _ Q1 Q2 Et).
  destruct (real_sht_init_inv _ _ _ _ _ _ _ _ _ E1) as (N1 & W1 & _). destruct (inverse_sht_init_inv _ _ _ _ _ _ _ _ _ E2) as (N2 & W2 & _).
  assert (M1 : s_lmax s1 = lm /\ s_mmax s1 = lm).
  { unfold real_sht_init in E1. rewrite Q1 in E1. cbn [bindo] in E1. unfold truncate_sht in E1. destruct lm; [lia|].
    cbn [or_default bindo] in E1. rewrite Nat.min_id in E1. inversion E1; auto. }
  assert (M2 : s_lmax s2 = lm /\ s_mmax s2 = lm).
  { unfold inverse_sht_init in E2. rewrite Q2 in E2. cbn [bindo] in E2. unfold truncate_sht in E2. destruct lm; [lia|].
    cbn [or_default bindo] in E2. rewrite Nat.min_id in E2. inversion E2; auto. }
  destruct M1 as [L1 M1]. destruct M2 as [L2 M2].
  assert (A1 := init_weights _ _ _ _ _ _ _ _ _ E1). assert (A2 := inv_init_weights _ _ _ _ _ _ _ _ _ E2).
  rewrite N1, L1, M1 in A1. rewrite N2, L2, M2 in A2. rewrite L1 in Ew. rewrite L1, M1 in Eb.
  exists lm. split; auto. constructor; cbn [sc_sht sc_isht sc_groups sc_out sc_weight sc_bias sc_quad]; auto.
  - rewrite (Nat.div_mod cin groups) at 1; auto; lia.
  - rewrite (Nat.div_mod cout groups) at 1; auto; lia.
  - destruct bias; auto. now apply shape_eqb_true in Eb.
  - eauto.
Qed.

(** The specification: coefficient (l, m) of output channel o. *)
Definition sc_coeff (ci co : nat) (weight : tensor C) (a : nat -> nat -> nat -> C) (o l m : nat) : C :=
  csum ci (fun c => Cmult (a ((o / co) * ci + c) l m) (val weight [o / co; c; o mod co; l])).
Definition field_int (h w : nat) (q : nat -> R) (f : nat -> nat -> R) : R :=
  rsum h (fun a => rsum w (fun b => f a b * (2 * PI / INR w * q a)%R)%R).
(** Biased input coefficient. *)
Definition sc_in_coeff (s : sconv) (hi wi : nat) (q : nat -> R) (f : nat -> nat -> nat -> R) (c l m : nat) : C :=
  let a := analyse (s_weights (sc_sht s)) hi wi (f c) l m in
  match sc_bias s with
  | None => a
  | Some b => Cplus a (Cmult (RtoC (field_int hi wi q (f c))) (val b [0; c; l; m]))
  end.

Lemma list4 : forall a b c d : nat, [a; b; c; d] = [a; b] ++ [c; d].
Proof. reflexivity. Qed.

Lemma spectral_conv_value : forall gl hi wi ho wo cin cout groups lm gi weight bias s q b x,
  sc_spec gl hi wi ho wo cin cout groups lm gi weight bias s -> quadrature_s2_rule gl hi gi = Some q -> 1 <= wo ->
  shp x = [b; cin; hi; wi] ->
  exists y, spectral_conv s x = Some y /\ shp y = [b; cout; ho; wo] /\
  forall n o k j, n < b -> o < cout -> 
    val y [n; o; k; j] = synthesise (s_weights (sc_isht s)) lm lm wo
      (sc_coeff (cin / groups) (cout / groups) weight (sc_in_coeff s hi wi (rw q) (fun c a t => val x [n; c; a; t])) o) k j.
Proof.
  intros gl hi wi ho wo cin cout groups lm gi weight bias s q b x SP Q Hwo SX.
  destruct SP as [Hg Ci Co Hlm (F1 & F2 & F3 & F4) (I1 & I2 & I3 & I4) FW IW WS BS (P1 & P2 & P3 & P4) (q0 & Q0 & EQ)].
  rewrite Q in Q0. inversion Q0; subst q0; clear Q0.
  destruct (real_sht_value (sc_sht s) [b; cin] x) as (X & EX & SX' & VX).
  { now rewrite F1, F3, F4. } { now rewrite F1, F2. }
  rewrite F3, F4 in SX'. cbn [app] in SX'. rewrite F1, F2, F4 in VX.
  assert (VX' : forall n c l m, m < lm -> val X [n; c; l; m] = analyse (s_weights (sc_sht s)) hi wi (fun a t => val x [n; c; a; t]) l m).
  { intros. rewrite list4, VX by auto. reflexivity. }
  unfold spectral_conv. rewrite EX. cbn [bindo].
  assert (BB : exists Y, match sc_bias s with None => Some X | Some bt => do qq <- integrate_last2 (sc_quad s) x; add_bias qq bt X end = Some Y /\
     shp Y = [b; cin; lm; lm] /\ forall n c l m, m < lm -> val Y [n; c; l; m] = sc_in_coeff s hi wi (rw q) (fun c a t => val x [n; c; a; t]) c l m).
  { unfold sc_in_coeff. rewrite P4. destruct bias as [bt|].
    - unfold integrate_last2. assert (N4 : ndim x = 4) by (unfold ndim; now rewrite SX). rewrite N4. cbn [Nat.sub Nat.add Nat.leb andb].
      unfold dimsz. rewrite SX. cbn [nth]. rewrite EQ. rewrite (proj2 (shape_eqb_true _ _)) by reflexivity. cbn [bindo repeat firstn app].
      unfold add_bias, ndim, dimsz. cbn [shp]. rewrite SX', BS. cbn [length nth]. rewrite !(proj2 (shape_eqb_true _ _)) by reflexivity. cbn [Nat.eqb andb].
      eexists. split; [reflexivity|]. split; [reflexivity|]. intros n c l m Hm. cbn [val nth]. rewrite VX' by auto. f_equal.
    - exists X. auto. }
  destruct BB as (Y & -> & SY & VY). cbn [bindo]. rewrite P1, P2, P3.
  assert (Eci : cin / groups * groups = cin) by lia.
  assert (CS := contract_serial groups (cin / groups) (cout / groups) b lm lm weight Y Hg ltac:(rewrite SY; repeat f_equal; lia) WS).
  rewrite <- Co in CS. rewrite CS.
  cbn [bindo].
  match goal with |- context [inverse_sht _ ?Z] => destruct (inverse_sht_value (sc_isht s) [b; cout] Z) as (y & Ey & Sy & Vy) end.
  { now rewrite I2. } { now rewrite I1, I3, I4. } { cbn [shp app]. now rewrite I3, I4. }
  rewrite I1, I2 in Sy. rewrite I2, I3, I4 in Vy. exists y. split; auto. split; auto.
  intros n o k j Hn Ho. rewrite list4, Vy by auto. apply synth_ext. intros m Hm. apply bsum_ext. intros l Hl. f_equal.
  cbn [val app nth]. unfold sc_coeff. apply bsum_ext. intros c Hc. now rewrite VY.
Qed.

Lemma sc_coeff_ext : forall ci co w a a' o l m, (forall c, c < ci -> a (o / co * ci + c) l m = a' (o / co * ci + c) l m) ->
  sc_coeff ci co w a o l m = sc_coeff ci co w a' o l m.
Proof. intros. apply bsum_ext. intros c Hc. now rewrite H. Qed.

(** Two inputs that agree on the channels of the group of [o]. *)
Lemma sconv_groups : forall gl hi wi ho wo cin cout groups gi go weight bias s b x x' y y',
  sconv_init gl hi wi ho wo cin cout groups gi go weight bias = Some s -> 1 <= wo ->
  shp x = [b; cin; hi; wi] -> shp x' = [b; cin; hi; wi] -> spectral_conv s x = Some y -> spectral_conv s x' = Some y' ->
  forall n o, n < b -> o < cout ->
  (forall c k j, c < cin -> c / (cin / groups) = o / (cout / groups) -> k < hi -> j < wi -> val x [n; c; k; j] = val x' [n; c; k; j]) ->
  forall k j, val y [n; o; k; j] = val y' [n; o; k; j].
Proof.
  intros gl hi wi ho wo cin cout groups gi go weight bias s b x x' y y' Es Hwo SX SX' E E' n o Hn Ho Hag k j.
  destruct (sconv_init_spec _ _ _ _ _ _ _ _ _ _ _ _ _ Es) as (lm & _ & SP).
  destruct (sp_quad _ _ _ _ _ _ _ _ _ _ _ _ _ SP) as (q & Q & _).
  destruct (spectral_conv_value _ _ _ _ _ _ _ _ _ _ _ _ _ q b x SP Q Hwo SX) as (y1 & E1 & _ & V1).
  destruct (spectral_conv_value _ _ _ _ _ _ _ _ _ _ _ _ _ q b x' SP Q Hwo SX') as (y2 & E2 & _ & V2).
  rewrite E in E1. inversion E1; subst y1. rewrite E' in E2. inversion E2; subst y2. rewrite V1, V2 by auto.
  apply synth_ext. intros m Hm. apply bsum_ext. intros l Hl. f_equal. apply sc_coeff_ext. intros c Hc.
  set (ch := o / (cout / groups) * (cin / groups) + c).
  assert (Hco : cout = groups * (cout / groups)) by apply SP. assert (Hci : cin = groups * (cin / groups)) by apply SP.
  assert (cout / groups <> 0) by (intros Z; rewrite Z in Hco; lia).
  assert (o / (cout / groups) < groups) by (apply Nat.div_lt_upper_bound; auto; lia).
  assert (H1 : ch < cin) by (unfold ch; nia).
  assert (H2 : ch / (cin / groups) = o / (cout / groups)).
  { unfold ch. rewrite Nat.div_add_l by lia. rewrite (Nat.div_small c) by auto. lia. }
  assert (A : analyse (s_weights (sc_sht s)) hi wi (fun a t => val x [n; ch; a; t]) l m = analyse (s_weights (sc_sht s)) hi wi (fun a t => val x' [n; ch; a; t]) l m)
    by (apply analyse_ext; auto).
  unfold sc_in_coeff. rewrite A. destruct (sc_bias s); auto. do 3 f_equal. apply bsum_ext. intros a Ha. apply bsum_ext. intros t0 Ht. now rewrite Hag.
Qed.

Lemma phase_eq : forall wi wo ki ko m, 1 <= wi -> 1 <= wo -> ki * wo = ko * wi -> phase wi ki m = phase wo ko m.
Proof.
  intros wi wo ki ko m Hi Ho E. unfold phase. f_equal. f_equal. assert (A := INR_nz wi Hi). assert (B := INR_nz wo Ho).
  assert (F : (INR ki * INR wo = INR ko * INR wi)%R) by (rewrite <- !mult_INR; now rewrite E).
  apply (Rmult_eq_reg_r (INR wi * INR wo)); [|now apply Rmult_integral_contrapositive].
  transitivity (2 * PI * INR m * (INR ki * INR wo))%R; [field; auto|]. rewrite F. field. auto.
Qed.

Lemma sconv_rotate : forall gl hi wi ho wo cin cout groups gi go weight s b x y ki ko,
  sconv_init gl hi wi ho wo cin cout groups gi go weight None = Some s -> 1 <= wi -> 1 <= wo -> ki * wo = ko * wi ->
  shp x = [b; cin; hi; wi] -> spectral_conv s x = Some y ->
  exists y', spectral_conv s (roll_last ki x) = Some y' /\ teq y' (roll_last ko y).
Proof.
  intros gl hi wi ho wo cin cout groups gi go weight s b x y ki ko Es Hwi Hwo K SX E.
  destruct (sconv_init_spec _ _ _ _ _ _ _ _ _ _ _ _ _ Es) as (lm & _ & SP).
  destruct (sp_quad _ _ _ _ _ _ _ _ _ _ _ _ _ SP) as (q & Q & _).
  destruct (spectral_conv_value _ _ _ _ _ _ _ _ _ _ _ _ _ q b x SP Q Hwo SX) as (y1 & E1 & S1 & V1).
  destruct (spectral_conv_value _ _ _ _ _ _ _ _ _ _ _ _ _ q b (roll_last ki x) SP Q Hwo SX) as (y2 & E2 & S2 & V2).
  rewrite E in E1. inversion E1; subst y1. exists y2. split; auto. split; [cbn [shp roll_last]; congruence|].
  intros i V. rewrite S2 in V. destruct (valid4 _ _ _ _ _ V) as (n & o & k & j & -> & Hn & Ho & Hk & Hj).
  rewrite V2 by auto. rewrite (list4 n o k j). erewrite (roll_last_value _ y [b; cout]); [|rewrite S1; reflexivity|reflexivity].
  transitivity (rollv wo ko (synthesise (s_weights (sc_isht s)) lm lm wo
      (sc_coeff (cin / groups) (cout / groups) weight (sc_in_coeff s hi wi (rw q) (fun c a t => val x [n; c; a; t])) o) k) j).
  2:{ apply rollv_ext; auto. intros t Ht. symmetry. cbn [app]. now apply V1. }
  rewrite <- synthesise_phase by auto. apply synth_ext. intros m Hm. apply bsum_ext. intros l Hl. f_equal.
  unfold sc_coeff. rewrite <- (bsum_scal_l CT). apply bsum_ext. intros c Hc. rewrite Cmult_assoc. f_equal.
  set (ch := o / (cout / groups) * (cin / groups) + c). unfold sc_in_coeff.
  destruct (sp_par _ _ _ _ _ _ _ _ _ _ _ _ _ SP) as (_ & _ & _ & ->).
  rewrite <- (phase_eq wi wo ki ko) by auto. rewrite <- analyse_roll by auto. apply analyse_ext. intros a t Ha Ht.
  rewrite (list4 n ch a t). erewrite (roll_last_value _ x [b; cin]); [|rewrite SX; reflexivity|reflexivity]. reflexivity.
Qed.

(** The operator between the two transforms. *)
Lemma sconv_formula : forall gl hi wi ho wo cin cout groups gi go weight bias s b x,
  sconv_init gl hi wi ho wo cin cout groups gi go weight bias = Some s -> 1 <= wo -> shp x = [b; cin; hi; wi] ->
  exists lm q X Z Y, quadrature_s2_rule gl hi gi = Some q /\ real_sht (sc_sht s) x = Some X /\ shp X = [b; cin; lm; lm] /\
    spectral_conv s x = Some Y /\ inverse_sht (sc_isht s) Z = Some Y /\ shp Z = [b; cout; lm; lm] /\ shp Y = [b; cout; ho; wo] /\
    forall n o l m, n < b -> o < cout -> l < lm -> m < lm ->
      let g := o / (cout / groups) in
      val Z [n; o; l; m] = csum (cin / groups) (fun c =>
        let ch := g * (cin / groups) + c in
        Cmult (match bias with
               | None => val X [n; ch; l; m]
               | Some bt => Cplus (val X [n; ch; l; m]) (Cmult (RtoC (field_int hi wi (rw q) (fun a t => val x [n; ch; a; t]))) (val bt [0; ch; l; m]))
               end) (val weight [g; c; o mod (cout / groups); l])).
Proof.
  intros gl hi wi ho wo cin cout groups gi go weight bias s b x Es Hwo SX.
  destruct (sconv_init_spec _ _ _ _ _ _ _ _ _ _ _ _ _ Es) as (lm & _ & SP).
  destruct SP as [Hg Hci Hco Hlm (F1 & F2 & F3 & F4) (I1 & I2 & I3 & I4) FW IW WS BS (P1 & P2 & P3 & P4) (q & Q & EQ)].
  destruct (real_sht_value (sc_sht s) [b; cin] x) as (X & EX & SX' & _).
  { now rewrite F1, F3, F4. } { now rewrite F1, F2. }
  rewrite F3, F4 in SX'. cbn [app] in SX'.
  unfold spectral_conv. rewrite EX. cbn [bindo].
  assert (BB : exists Y, match sc_bias s with None => Some X | Some bt => do qq <- integrate_last2 (sc_quad s) x; add_bias qq bt X end = Some Y /\
     shp Y = [b; cin; lm; lm] /\ forall n c l m, val Y [n; c; l; m] = match bias with
               | None => val X [n; c; l; m]
               | Some bt => Cplus (val X [n; c; l; m]) (Cmult (RtoC (field_int hi wi (rw q) (fun a t => val x [n; c; a; t]))) (val bt [0; c; l; m]))
               end).
  { rewrite P4. destruct bias as [bt|].
    - unfold integrate_last2. assert (N4 : ndim x = 4) by (unfold ndim; now rewrite SX). rewrite N4. cbn [Nat.sub Nat.add Nat.leb andb].
      unfold dimsz. rewrite SX. cbn [nth]. rewrite EQ. rewrite (proj2 (shape_eqb_true _ _)) by reflexivity. cbn [bindo repeat firstn app].
      unfold add_bias, ndim, dimsz. cbn [shp]. rewrite SX', BS. cbn [length nth]. rewrite !(proj2 (shape_eqb_true _ _)) by reflexivity. cbn [Nat.eqb andb].
      eexists. split; [reflexivity|]. split; [reflexivity|]. intros n c l m. reflexivity.
    - exists X. auto. }
  destruct BB as (Y & -> & SY & VY). cbn [bindo]. rewrite P1, P2, P3.
  assert (CS := contract_serial groups (cin / groups) (cout / groups) b lm lm weight Y Hg ltac:(rewrite SY; repeat f_equal; lia) WS).
  rewrite <- Hco in CS. rewrite CS. cbn [bindo].
  match goal with |- context [inverse_sht _ ?Z] => destruct (inverse_sht_value (sc_isht s) [b; cout] Z) as (y & Ey & Sy & _) end.
  { now rewrite I2. } { now rewrite I1, I3, I4. } { cbn [shp app]. now rewrite I3, I4. }
  exists lm, q, X. eexists. exists y. split; auto. split; auto. split; auto. split; [exact Ey|]. split; [exact Ey|]. split; [reflexivity|].
  split. { rewrite I1, I2 in Sy. exact Sy. }
  intros n o l m Hn Ho Hl Hm. cbn [val nth]. apply bsum_ext. intros c Hc. cbv zeta. now rewrite VY.
Qed.
Lemma sconv_rejects : forall gl hi wi ho wo cin cout groups gi go weight bias,
  groups = 0 \/ cin mod groups <> 0 \/ cout mod groups <> 0 -> sconv_init gl hi wi ho wo cin cout groups gi go weight bias = None.
Proof.
  intros gl hi wi ho wo cin cout groups gi go weight bias H. unfold sconv_init.
  assert (G : negb (groups =? 0) && (cin mod groups =? 0) && (cout mod groups =? 0) = false).
  { destruct (Nat.eqb_spec groups 0); auto. destruct (Nat.eqb_spec (cin mod groups) 0), (Nat.eqb_spec (cout mod groups) 0); auto. tauto. }
  now rewrite G.
Qed.

(** With a bias on an order m > 0 the operator does not commute with rotations. *)
Definition bx_gl (n : nat) : rule := mkRule (fun i => (2 * INR i + 1 - INR n) / INR n)%R (fun _ => 2 / INR n)%R.
Definition bx_w : tensor C := mkT [1; 1; 1; 2] (fun _ => RtoC 1).
Definition bx_b : tensor C := mkT [1; 1; 2; 2] (fun i => if (nth 2 i 0 =? 1) && (nth 3 i 0 =? 1) then RtoC 1 else RtoC 0).
Definition bx_x : tensor R := mkT [1; 1; 2; 4] (fun _ => 1%R).

Local Open Scope R_scope.
Lemma legpoly_2_11 : forall x, -1 < x < 1 -> legpoly 2 2 x Ortho true true 1%nat 1%nat <> 0 /\ legpoly 2 2 x Ortho true true 1%nat 0%nat = 0.
Proof.
  intros x Hx.
  assert (E : legpoly 2 2 x Ortho true true 1%nat 1%nat = -1 * (sqrt ((2 * 1 + 1) * (1 + x) * (1 - x) / 2 / 1) * (1 / 1 / sqrt (4 * PI)))) by reflexivity.
  split; [|unfold legpoly, legpoly_vdm; simpl; unfold vdm_diag_step, vdm_init, set2; simpl; ring].
  rewrite E. pose proof PI_RGT_0.
  assert (0 < sqrt ((2 * 1 + 1) * (1 + x) * (1 - x) / 2 / 1)) by (apply sqrt_lt_R0; unfold Rdiv; nra).
  assert (0 < 1 / 1 / sqrt (4 * PI)) by (apply Rdiv_lt_0_compat; [lra|]; apply sqrt_lt_R0; lra). nra.
Qed.

Lemma bias_breaks_rotation : exists s y,
  sconv_init bx_gl 2 4 2 4 1 1 1 GLegendreGauss GLegendreGauss bx_w (Some bx_b) = Some s /\ spectral_conv s bx_x = Some y /\
  teq (roll_last 2 bx_x) bx_x /\ ~ teq y (roll_last 2 y).
Proof.
  destruct (sconv_init bx_gl 2 4 2 4 1 1 1 GLegendreGauss GLegendreGauss bx_w (Some bx_b)) as [s|] eqn:E; [|discriminate].
  destruct (sconv_init_spec _ _ _ _ _ _ _ _ _ _ _ _ _ E) as (lm & Elm & SP). vm_compute in Elm. inversion Elm; subst lm; clear Elm.
  destruct (spectral_conv_value _ _ _ _ _ _ _ _ _ _ _ _ _ (rescale (-1) 1 (bx_gl 2)) 1 bx_x SP eq_refl ltac:(lia) eq_refl) as (y & Ey & Sy & Vy).
  exists s, y. split; auto. split; auto. split; [split; auto|]. intros [_ T].
  assert (V0 : valid (shp y) [0; 0; 0; 0]%nat) by (rewrite Sy; apply valid4_intro; lia).
  specialize (T _ V0). rewrite (list4 0 0 0 0) in T at 2. erewrite (roll_last_value _ y [1%nat; 1%nat]) in T; [|rewrite Sy; reflexivity|reflexivity].
  unfold rollv in T. change ((0 + (4 - 2 mod 4)) mod 4)%nat with 2%nat in T. cbn [app] in T. rewrite !Vy in T by lia.
  set (A := sc_coeff (1 / 1) (1 / 1) bx_w (sc_in_coeff s 2 4 (rw (rescale (-1) 1 (bx_gl 2))) (fun c a t => val bx_x [0%nat; c; a; t])) 0) in T.
  set (W := s_weights (sc_isht s)) in T.
  assert (EW : forall l, val W [1; 0; l]%nat = legpoly 2 2 (cos (sht_colat 2 (rescale (-1) 1 (bx_gl 2)) 0)) Ortho true true 1%nat l).
  { intros l. unfold W. revert E. clear. unfold sconv_init. intros E.
    match type of E with (do _ <- guard ?b; _) = _ => change b with true in E end. cbn [guard bindo] in E.
    change (sconv_trunc 2 4 2 4 GLegendreGauss GLegendreGauss) with (Some 2%nat) in E. cbn [bindo] in E.
    destruct (real_sht_init _ _ _ _ _ _ _ _) as [s1|]; [|discriminate]. cbn [bindo] in E.
    destruct (inverse_sht_init bx_gl 2 4 (Some 2%nat) (Some 2%nat) GLegendreGauss Ortho true) as [s2|] eqn:E2; [|discriminate]. cbn [bindo] in E.
    destruct (shape_eqb _ _); [|discriminate]. cbn [guard bindo] in E. destruct (shape_eqb _ _); [|discriminate]. cbn [guard bindo] in E.
    inversion E. cbn [sc_isht]. clear - E2. unfold inverse_sht_init in E2. cbn [sht_rule] in E2.
    change (legendre_gauss_weights bx_gl 2 (-1) 1) with (Some (rescale (-1) 1 (bx_gl 2))) in E2. cbn [bindo] in E2.
    change (truncate_sht 2 4 (Some 2%nat) (Some 2%nat) GLegendreGauss) with (Some (2, 2)%nat) in E2. cbn [bindo] in E2. inversion E2. reflexivity. }
  unfold synthesise, synth in T. cbn [bsum_ Nat.leb] in T. change (4 / 2)%nat with 2%nat in T. cbn [Nat.leb] in T.
  set (c0 := Cplus (Cplus (RtoC 0) (Cmult (RtoC (val W [0; 0; 0]%nat)) (A 0%nat 0%nat))) (Cmult (RtoC (val W [0; 0; 1]%nat)) (A 1%nat 0%nat))) in T.
  rewrite !EW in T.
  assert (X : -1 < cos (sht_colat 2 (rescale (-1) 1 (bx_gl 2)) 0) < 1).
  { unfold sht_colat, flip. cbn [Nat.sub]. rewrite cos_acos; unfold rescale, bx_gl; cbn [rn]; simpl INR; lra. }
  destruct (legpoly_2_11 _ X) as [P1 P0]. rewrite P0 in T.
  set (P := legpoly 2 2 (cos (sht_colat 2 (rescale (-1) 1 (bx_gl 2)) 0)) Ortho true true 1%nat 1%nat) in *.
  assert (A1 : A 1%nat 1%nat = RtoC (4 * PI)).
  { unfold A, sc_coeff. change (1 / 1)%nat with 1%nat. cbn [bsum_]. change (0 / 1)%nat with 0%nat. cbn [Nat.mul Nat.add].
    unfold sc_in_coeff. destruct (sp_par _ _ _ _ _ _ _ _ _ _ _ _ _ SP) as (_ & _ & _ & ->).
    assert (AZ : analyse (s_weights (sc_sht s)) 2 4 (fun a t => val bx_x [0; 0; a; t]%nat) 1 1 = RtoC 0).
    { unfold analyse. apply (bsum_zero' CT). intros k Hk. assert (Z : fourier 4 (fun t => val bx_x [0; 0; k; t]%nat) 1 = RtoC 0).
      2:{ rewrite Z. ring. }
      unfold fourier. change (1 <=? 4 / 2)%nat with true. cbn [val bx_x].
      rewrite (bsum_ext 4 _ (fun j => Cconj (cis (2 * PI * INR j * INR 1 / INR 4)))) by (intros; rewrite cis_conj; ring).
      rewrite <- csum_conj, (dft_zero 4 1) by lia. apply C_ext; unfold Cconj, Cmult, RtoC, Re, Im; cbn [fst snd]; ring. }
    rewrite AZ. unfold field_int, bx_b, bx_w, bx_x, rescale, bx_gl. cbn [val nth Nat.eqb andb rw bsum_].
    apply C_ext; unfold Cmult, Cplus, RtoC, Re, Im; cbn [fst snd]; simpl INR; lra. }
  rewrite A1 in T. unfold mirror in T. cbn [Nat.eqb orb Nat.mul Nat.add] in T.
  assert (S2 : cis (2 * PI * INR 2 * INR 1 / INR 4) = RtoC (-1)).
  { unfold cis. replace (2 * PI * INR 2 * INR 1 / INR 4) with PI by (simpl; field). rewrite cos_PI, sin_PI. reflexivity. }
  assert (S0 : cis (2 * PI * INR 0 * INR 1 / INR 4) = RtoC 1).
  { replace (2 * PI * INR 0 * INR 1 / INR 4) with 0 by (simpl; field). apply cis_0. }
  assert (S3 : forall i, cis (2 * PI * INR i * INR 0 / INR 4) = RtoC 1).
  { intros. replace (2 * PI * INR i * INR 0 / INR 4) with 0 by (simpl; field). apply cis_0. }
  rewrite !S3, S2, S0 in T. unfold Re, Cmult, Cplus, RtoC in T. cbn [fst snd] in T. pose proof PI_RGT_0. apply P1. nra.
Qed.
