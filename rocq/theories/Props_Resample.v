(** C30, C31, C32 and the example for C15. *)
From Coq Require Import List Arith Lia Bool Reals ZArith Lra.
From Coquelicot Require Import Coquelicot.
From Verif Require Import TensorModel TensorProofs BigSum TruncModel QuadModel ResampleModel ResampleSpec ResampleProofs SlerpProofs.
Import ListNotations.
Local Open Scope R_scope.

(** C30.  The constructor succeeds; every output latitude is located in the input
    latitudes (extended by the poles when needed) with a weight in [0,1] and both
    indices in range; every output longitude is located on the circle. *)
Theorem C30_indices_and_weights : forall gl hi wi ho wo gi go mode,
  supported gl hi gi -> supported gl ho go -> (2 <= hi)%nat -> (2 <= wi)%nat -> (1 <= wo)%nat -> mode <> MUnknown ->
  exists r, resample_init gl hi wi ho wo gi go mode = Some r /\
    (forall i, (i < ho)%nat -> exists k, rs_lat_idx r i = Z.of_nat k /\
       (if rs_expand r then located (hi + 2) (lats_with_poles hi (lats gl hi gi)) (lats gl ho go i) k (rs_lat_w r i)
        else located hi (lats gl hi gi) (lats gl ho go i) k (rs_lat_w r i))) /\
    (forall j, (j < wo)%nat -> exists b c, rs_lon_l r j = Z.of_nat b /\ rs_lon_r r j = Z.of_nat c /\
       located_lon wi (lon wo j) b c (rs_lon_w r j)).
Proof.
  intros gl hi wi ho wo gi go mode Si So Hhi Hwi Hwo Hm. destruct (init_ok gl hi wi ho wo gi go mode Si So Hhi Hwi Hwo Hm) as (r & E & S & _).
  exists r. split; auto. destruct S as [_ _ _ _ _ S6 SL SN]. split; auto. rewrite S6. unfold eff_n, eff_lats in SL.
  destruct (need_expand hi ho (lats gl hi gi) (lats gl ho go)); auto.
Qed.
(** The poles are added exactly when some output latitude is outside the input range. *)
Theorem C30_expand_iff : forall gl hi wi ho wo gi go mode r,
  supported gl hi gi -> supported gl ho go -> (2 <= hi)%nat -> (2 <= wi)%nat -> (1 <= wo)%nat -> mode <> MUnknown ->
  resample_init gl hi wi ho wo gi go mode = Some r ->
  (rs_expand r = true <-> exists i, (i < ho)%nat /\ ~ (lats gl hi gi 0 <= lats gl ho go i <= lats gl hi gi (hi - 1))).
Proof.
  intros gl hi wi ho wo gi go mode r Si So Hhi Hwi Hwo Hm Er. destruct (init_spec gl hi wi ho wo gi go mode Si So Hhi Hwi Hwo Hm r Er) as [S _].
  rewrite (sp_ex _ _ _ _ _ _ _ _ S). split.
  - intros E. unfold need_expand in E. apply orb_prop in E.
    destruct E as [E|E]; apply existsb_exists in E; destruct E as (i & Hi & L); apply in_seq in Hi; apply Rltb_true in L; exists i; split; try lia; lra.
  - intros (i & Hi & N). destruct (need_expand hi ho (lats gl hi gi) (lats gl ho go)) eqn:E; auto. exfalso. apply N. eapply need_expand_false; eauto.
Qed.
Theorem C30_maximum_principle : forall gl hi wi ho wo gi go r lead X,
  supported gl hi gi -> supported gl ho go -> (2 <= hi)%nat -> (2 <= wi)%nat -> (1 <= wo)%nat ->
  resample_init gl hi wi ho wo gi go MBilinear = Some r -> shp X = lead ++ [hi; wi]%nat ->
  exists Y, resample r X = Some Y /\ shp Y = lead ++ [ho; wo]%nat /\
  forall L lo up, length L = length lead ->
    (forall a b, (a < hi)%nat -> (b < wi)%nat -> lo <= val X (L ++ [a; b]%nat) <= up) ->
    forall i j, (i < ho)%nat -> (j < wo)%nat -> lo <= val Y (L ++ [i; j]%nat) <= up.
Proof.
  intros gl hi wi ho wo gi go r lead X Si So Hhi Hwi Hwo Er SX.
  destruct (resample_total gl hi wi ho wo gi go MBilinear Si So Hhi Hwi Hwo ltac:(discriminate) r Er lead X SX) as (Y & E & SY).
  exists Y. split; auto. split; auto. intros. eapply (max_principle gl hi wi ho wo gi go MBilinear); eauto. discriminate.
Qed.
Theorem C30_constants : forall gl hi wi ho wo gi go r lead X c,
  supported gl hi gi -> supported gl ho go -> (2 <= hi)%nat -> (2 <= wi)%nat -> (1 <= wo)%nat ->
  resample_init gl hi wi ho wo gi go MBilinear = Some r -> shp X = lead ++ [hi; wi]%nat ->
  forall L, length L = length lead -> (forall a b, (a < hi)%nat -> (b < wi)%nat -> val X (L ++ [a; b]%nat) = c) ->
  exists Y, resample r X = Some Y /\ forall i j, (i < ho)%nat -> (j < wo)%nat -> val Y (L ++ [i; j]%nat) = c.
Proof.
  intros gl hi wi ho wo gi go r lead X c Si So Hhi Hwi Hwo Er SX L HL HX.
  destruct (C30_maximum_principle gl hi wi ho wo gi go r lead X Si So Hhi Hwi Hwo Er SX) as (Y & E & _ & M). exists Y. split; auto.
  intros i j Hi Hj. apply Rle_antisym; eapply (M L c c HL); eauto; intros; rewrite HX by auto; lra.
Qed.
(** A single input longitude is rejected (the code divides by zero). *)
Theorem C30_one_longitude_refuted : forall gl hi ho wo gi go mode, (1 <= wo)%nat -> resample_init gl hi 1 ho wo gi go mode = None.
Proof.
  intros gl hi ho wo gi go mode Hw. unfold resample_init. destruct mode; auto;
  destruct (precompute_latitudes gl hi gi); auto; destruct (precompute_latitudes gl ho go); auto; cbn [bindo];
  (destruct ((1 =? 0)%nat || (wo =? 0)%nat); auto);
  (match goal with |- (if ?a && ?b then _ else _) = _ => assert (Hb : b = false) end;
   [ destruct wo; [lia|]; cbn [seq forallb];
     assert (lon_weight_ok 1 (precompute_longitudes 1) (precompute_longitudes (S wo) 0) = false) as ->;
     [ unfold lon_weight_ok; assert (lon_diff 1 (precompute_longitudes 1) (precompute_longitudes (S wo) 0) = 0) as ->;
       [ unfold lon_diff; assert (Z0 : precompute_longitudes (S wo) 0 = 0) by (unfold precompute_longitudes, linspace; simpl INR at 1; unfold Rdiv; ring);
         rewrite Z0; assert (A : precompute_longitudes 1 0 = 0) by (unfold precompute_longitudes, linspace; simpl; field);
         assert (Sr : searchsorted_right 1 (precompute_longitudes 1) 0 = 1%nat)
           by (unfold searchsorted_right; cbn [seq filter]; rewrite A; unfold Rleb; destruct (Rle_dec 0 0); [reflexivity|lra]);
         unfold lon_right, lon_left; rewrite Sr; cbn [Nat.sub]; rewrite A; unfold Rleb; destruct (Rle_dec 0 0); [|lra];
         cbn; rewrite A; unfold Rltb; destruct (Rlt_dec (0 - 0) 0); lra
       | unfold Reqb; destruct (Req_EM_T 0 0); [|lra]; now rewrite andb_false_r ]
     | reflexivity ]
   | rewrite Hb, andb_false_r; reflexivity ]).
Qed.

(** C31 *)
Theorem C31_coincident_nodes : forall gl hi wi ho wo gi go mode r lead X Y,
  supported gl hi gi -> supported gl ho go -> (2 <= hi)%nat -> (2 <= wi)%nat -> (1 <= wo)%nat -> mode <> MUnknown ->
  resample_init gl hi wi ho wo gi go mode = Some r -> shp X = lead ++ [hi; wi]%nat -> resample r X = Some Y ->
  forall L i j a b, length L = length lead -> (i < ho)%nat -> (j < wo)%nat -> (a < hi)%nat -> (b < wi)%nat ->
  lats gl ho go i = lats gl hi gi a -> lon wo j = lon wi b -> val Y (L ++ [i; j]%nat) = val X (L ++ [a; b]%nat).
Proof. intros. eapply coincident with (gl := gl) (hi := hi) (ho := ho); eauto. Qed.
Theorem C31_identity : forall gl h w g mode r X, g <> GOther ->
  resample_init gl h w h w g g mode = Some r -> resample r X = Some X.
Proof.
  intros gl h w g mode r X Hg E. unfold resample_init in E.
  assert (K : rs_skip r = true).
  { destruct mode; try discriminate; destruct (precompute_latitudes gl h g); try discriminate; cbn [bindo] in E;
    destruct ((w =? 0)%nat || (w =? 0)%nat); try discriminate;
    match type of E with (if ?b then _ else _) = _ => destruct b; [|discriminate] end; inversion E; cbn [rs_skip];
    rewrite !Nat.eqb_refl; destruct g; auto; congruence. }
  unfold resample. now rewrite K.
Qed.
(** ... and it would be the identity also without the shortcut. *)
Theorem C31_shortcut_sound : forall gl h w g mode r lead X,
  supported gl h g -> (2 <= h)%nat -> (2 <= w)%nat -> mode <> MUnknown ->
  resample_init gl h w h w g g mode = Some r -> shp X = lead ++ [h; w]%nat ->
  exists Y, resample (set_skip false r) X = Some Y /\ teq Y X.
Proof. exact shortcut_sound. Qed.

(** C32 *)
Theorem C32_end_points : forall a b, combine MSpherical a b 0 = a /\ combine MSpherical a b 1 = b.
Proof. intros. split; [apply combine_0|apply combine_1]. Qed.
Theorem C32_guard : forall a b t,
  (/ 10 ^ 4 < sin (b - a) -> combine MSpherical a b t = slerp a b t) /\
  (sin (b - a) <= / 10 ^ 4 -> combine MSpherical a b t = lerp a b t).
Proof. intros. split; [apply combine_slerp|apply combine_lerp]. Qed.
(** The documented fallback (only for an angle near 0) is not what the guard does:
    every pair with -PI <= b - a <= 0 is interpolated linearly. *)
Theorem C32_decreasing_pairs_linear : forall a b t, - PI <= b - a <= 0 -> combine MSpherical a b t = lerp a b t.
Proof.
  intros a b t H. apply combine_lerp. pose proof tiny. assert (0 <= sin (a - b)) by (apply sin_ge_0; lra).
  replace (b - a) with (- (a - b)) by ring. rewrite sin_neg. lra.
Qed.
Theorem C32_documented_fallback_refuted : exists a b t, combine MSpherical a b t <> slerp a b t /\ sin (b - a) = -1.
Proof. exists (PI / 2), 0, (1 / 2). exact guard_one_sided. Qed.
Theorem C32_symmetry_refuted : exists a b t, combine MSpherical a b t <> combine MSpherical b a (1 - t).
Proof. exists 0, (PI / 2), (1 / 2). exact not_symmetric. Qed.
Theorem C32_maximum_principle_refuted : exists a b t, 0 <= t <= 1 /\ a <= b /\ b < combine MSpherical a b t.
Proof. exists 100, (100 + PI / 2), (1 / 2). pose proof PI_RGT_0. split; [lra|]. split; [lra|]. exact slerp_overshoots. Qed.

(** Concrete grids meet the hypotheses. *)
Definition ex_gl (n : nat) : rule := mkRule (fun i => (2 * INR i + 1 - INR n) / INR n) (fun _ => 2 / INR n).
Example C30_ex : supported ex_gl 5 GEquiangular /\ supported ex_gl 3 GTrapezoidal /\ supported ex_gl 2 GLegendreGauss.
Proof.
  simpl. repeat split; try lia; simpl.
  - destruct i as [|[|]]; simpl; try lia; lra.
  - destruct i as [|[|]]; simpl; try lia; lra.
  - intros i j Hij Hj. assert (i = 0%nat) by lia. assert (j = 1%nat) by lia. subst. simpl. lra.
Qed.
(** Going from 5 to 9 equiangular latitudes, output node 2 is input node 1. *)
Example C31_ex : lats ex_gl 9 GEquiangular 2 = lats ex_gl 5 GEquiangular 1 /\ lon 8 4 = lon 4 2.
Proof.
  unfold lats. destruct (lats_equiangular ex_gl 9 ltac:(lia)) as (q & -> & _ & E). destruct (lats_equiangular ex_gl 5 ltac:(lia)) as (q' & -> & _ & E').
  rewrite E, E' by lia. unfold lon. simpl. split; lra.
Qed.
Example C32_ex : / 10 ^ 4 < sin (1 / 2 * (PI / 2) - 0) /\ sin (0 - 0) <= / 10 ^ 4.
Proof. rewrite !Rminus_0_r, sin_half_quarter, sin_0. pose proof sqrt2_bounds. pose proof tiny. simpl in *. lra. Qed.
(** The hypothesis of C15 (the constructor succeeds), on grids of different type and size. *)
Example C15_ex : exists r, resample_init ex_gl 2 4 5 8 GLegendreGauss GEquiangular MBilinear = Some r /\ rs_skip r = false /\ rs_expand r = true.
Proof.
  destruct C30_ex as (A & _ & B).
  destruct (init_ok ex_gl 2 4 5 8 GLegendreGauss GEquiangular MBilinear B A ltac:(lia) ltac:(lia) ltac:(lia) ltac:(discriminate)) as (r & E & S & K).
  exists r. split; auto. split; auto.
  apply (proj2 (C30_expand_iff ex_gl 2 4 5 8 GLegendreGauss GEquiangular MBilinear r B A ltac:(lia) ltac:(lia) ltac:(lia) ltac:(discriminate) E)).
  exists 0%nat. split; [lia|]. unfold lats at 2. destruct (lats_equiangular ex_gl 5 ltac:(lia)) as (q & -> & _ & Q). rewrite Q by lia.
  destruct (lats_gauss ex_gl 2) as (q' & E' & G); try (apply B). unfold lats. rewrite E'.
  intros [H _].
  assert (H2 : rn q' 0%nat = acos (/ 2)).
  { unfold precompute_latitudes, precompute_quadrature_weights, legendre_gauss_weights in E'. cbn [andb Nat.eqb] in E'.
    apply (f_equal (fun o => match o with Some r => rn r 0%nat | None => 0 end)) in E'. rewrite <- E'.
    change (acos (rn (rescale (-1) 1 (ex_gl 2)) 1%nat) = acos (/ 2)). rewrite rescale_id. f_equal. simpl. lra. }
  rewrite H2 in H. pose proof (acos_bound (/ 2)). assert (Z : acos (/ 2) = 0) by (simpl INR in H; lra).
  pose proof (cos_acos (/ 2) ltac:(lra)) as C. rewrite Z, cos_0 in C. lra.
Qed.

Print Assumptions C30_indices_and_weights.
Print Assumptions C30_expand_iff.
Print Assumptions C30_maximum_principle.
Print Assumptions C30_constants.
Print Assumptions C30_one_longitude_refuted.
Print Assumptions C31_coincident_nodes.
Print Assumptions C31_identity.
Print Assumptions C31_shortcut_sound.
Print Assumptions C32_end_points.
Print Assumptions C32_guard.
Print Assumptions C32_decreasing_pairs_linear.
Print Assumptions C32_documented_fallback_refuted.
Print Assumptions C32_symmetry_refuted.
Print Assumptions C32_maximum_principle_refuted.
