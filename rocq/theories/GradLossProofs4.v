(** Rotation in longitude, latitudes, and what the W11 loss does not see. *)
From Coq Require Import List Arith Lia Bool Reals Lra.
From Coquelicot Require Import Coquelicot.
From Verif Require Import TensorModel TensorProofs BigSum TruncModel QuadModel CCProofs QuadProofs QuadPropProofs FFTModel FFTProofs SHTSpec SHTValueProofs LossModel LossSpec LossProofs LossProofs2 LossProofs3 LossProofs4 GradLossModel GradLossSpec GradLossProofs GradLossProofs2 GradLossProofs3.
Import ListNotations.
Local Open Scope R_scope.

Lemma gphi_roll : forall nlat nlon lead x s i k j, shp x = lead ++ [nlat; nlon] -> (1 <= nlon)%nat -> length i = length lead -> gphi nlon (roll_last s x) i k j = rollv nlon s (gphi nlon x i k) j.
Proof.
  intros nlat nlon lead x s i k j Sx Hn HL. unfold gphi. rewrite (rd_ext nlon _ (rollv nlon s (fun j => val x (i ++ [k; j])))) by (intros; now apply (roll_last_value R x lead nlat)). now rewrite rd_roll.
Qed.
Lemma gtheta_roll : forall nlat nlon lead x s i k j, shp x = lead ++ [nlat; nlon] -> (1 <= nlon)%nat -> length i = length lead -> gtheta nlat (roll_last s x) i k j = rollv nlon s (gtheta nlat x i k) j.
Proof.
  intros nlat nlon lead x s i k j Sx Hn HL. unfold gtheta. rewrite (rd_ext nlat _ (fun k => rollv nlon s (fun j => val x (i ++ [k; j])) j)) by (intros; now apply (roll_last_value R x lead nlat)). reflexivity.
Qed.
Lemma rsum_roll : forall n s f, (1 <= n)%nat -> rsum n (rollv n s f) = rsum n f.
Proof. intros n s f Hn. unfold rollv. apply (bsum_rot RT n (n - s mod n) f). Qed.
Lemma roll_mean_over : forall nlat nlon lead w lm m s i F, (1 <= nlon)%nat -> match m with None => True | Some mm => shp mm = lm ++ [nlat; nlon] end -> (forall j, m = Some j -> bshape lm lead = Some lead /\ valid lead i) ->
  mean_over w nlat nlon lm (option_map (roll_last s) m) i (fun k => rollv nlon s (F k)) = mean_over w nlat nlon lm m i F.
Proof.
  intros nlat nlon lead w lm m s i F Hn Sm HL. unfold mean_over. destruct m as [mm|]; cbn [option_map].
  - destruct (HL mm eq_refl) as [Hb Hi]. assert (LL : length (bidx lm i) = length lm) by (apply valid_len; eapply bidx_valid_b; eauto). unfold mean_on_mask. f_equal; apply bsum_ext; intros k Hk.
    + rewrite <- (rsum_roll nlon s (fun j => w k * val mm (bidx lm i ++ [k; j]) * F k j)) by auto. apply bsum_ext. intros j Hj. rewrite (roll_last_value R mm lm nlat nlon) by auto. reflexivity.
    + rewrite <- (rsum_roll nlon s (fun j => w k * val mm (bidx lm i ++ [k; j]))) by auto. apply bsum_ext. intros j Hj. rewrite (roll_last_value R mm lm nlat nlon) by auto. reflexivity.
  - unfold mean_on_sphere. apply bsum_ext. intros k Hk. rewrite <- (rsum_roll nlon s (fun j => area w nlat nlon k * F k j)) by auto. reflexivity.
Qed.
Lemma roll_option_mask : forall nlat nlon lat lead lm m s, (1 <= nlon)%nat -> option_mask nlat nlon lat lead lm m -> option_mask nlat nlon lat lead lm (option_map (roll_last s) m).
Proof.
  intros nlat nlon lat lead lm [m|] s Hn H; cbn [option_map option_mask] in *; auto. destruct H as (M1 & M2 & M3). split; auto. split; auto. intros i Hi. specialize (M3 i Hi). intros Z. apply M3. etransitivity; [|exact Z]. apply bsum_ext. intros k Hk.
  rewrite <- (rsum_roll nlon s (fun j => rw lat k * val m (i ++ [k; j]))) by auto. apply bsum_ext. intros j Hj. rewrite (roll_last_value R m lm nlat nlon) by (auto; now apply valid_len). reflexivity.
Qed.
Lemma w11_roll : forall gl nlat nlon g q kp kt lat lead, gradient_loss_init gl nlat nlon g = Some (q, kp, kt) -> precompute_latitudes gl nlat g = Some lat -> (1 <= count lead)%nat ->
  forall lm m s x y, option_mask nlat nlon lat lead lm m -> shp x = lead ++ [nlat; nlon] -> shp y = lead ++ [nlat; nlon] ->
  w11_loss (q, kp, kt) (roll_last s x) (roll_last s y) (option_map (roll_last s) m) = w11_loss (q, kp, kt) x y m.
Proof.
  intros gl nlat nlon g q kp kt lat lead I El C lm m s x y GM Sx Sy. destruct (init_facts gl nlat nlon g q kp kt I) as (_ & H1 & H2 & _).
  rewrite (w11_value gl nlat nlon g q kp kt lat lead I El C x y lm m) by auto. rewrite (w11_value gl nlat nlon g q kp kt lat lead I El C (roll_last s x) (roll_last s y) lm (option_map (roll_last s) m)) by (auto using roll_option_mask).
  f_equal. apply average_ext. intros i Hi. rewrite <- (roll_mean_over nlat nlon lead (rw lat) lm m s i (w11_at nlat nlon x y i)); auto.
  - apply mo_ext; auto. intros k j Hk Hj. unfold w11_at. rewrite !(gphi_roll nlat nlon lead), !(gtheta_roll nlat nlon lead) by (auto; now apply valid_len). reflexivity.
  - destruct m; auto. apply GM.
  - intros mm ->. split; auto. apply GM.
Qed.

(** the latitudes of the default grid *)
Lemma equiangular_lats : forall gl n lat, (2 <= n)%nat -> precompute_latitudes gl n GEquiangular = Some lat -> forall k, (k < n)%nat -> rn lat k = PI * INR k / INR (n - 1).
Proof.
  intros gl n lat Hn E k Hk. destruct (cc_model n (-1) 1 Hn) as (q & Eq & V). destruct (lat_value gl n GEquiangular q lat Eq E k) as [-> _]. destruct (V (n - 1 - k)%nat) as [-> _]. unfold rescale, cc_rule. cbn [rn].
  replace ((1 - -1) * 0.5 * cos (linspace PI 0 n (n - 1 - k)) + (1 + -1) * 0.5) with (cos (linspace PI 0 n (n - 1 - k))) by lra.
  assert (N : 0 < INR (n - 1)) by (apply lt_0_INR; lia). assert (N' : 0 <= INR k) by apply pos_INR. assert (K : INR k <= INR (n - 1)) by (apply le_INR; lia). pose proof PI_RGT_0.
  replace (linspace PI 0 n (n - 1 - k)) with (PI * INR k / INR (n - 1)). 2:{ unfold linspace. rewrite (minus_INR (n - 1) k) by lia. field. lra. }
  apply acos_cos. split. apply Rmult_le_pos. nra. left. now apply Rinv_0_lt_compat. apply Rmult_le_reg_r with (INR (n - 1)); auto. unfold Rdiv. rewrite Rmult_assoc, Rinv_l by lra. nra.
Qed.
Lemma latitude_exact : forall nlat M a b (f : nat -> R) k, (2 * M < nlat)%nat -> (k < nlat)%nat -> (forall l, (l < nlat)%nat -> f l = trig M a b (2 * (PI * INR l / INR nlat))) ->
  is_derive (fun t => trig M a b (2 * t)) (PI * INR k / INR nlat) (2 * rd nlat f k).
Proof.
  intros nlat M a b f k HM Hk H. assert (N : INR nlat <> 0) by (apply not_0_INR; lia).
  rewrite (interpolates_rd nlat M a b 0 f k). 2:{ split; auto. split; auto. intros l Hl. rewrite H by auto. replace (2 * PI * INR l / INR nlat) with (2 * (PI * INR l / INR nlat)) by (field; auto). ring. }
  replace (2 * PI * INR k / INR nlat) with (2 * (PI * INR k / INR nlat)) by (field; auto). set (t := PI * INR k / INR nlat).
  apply (is_derive_comp (V := R_NormedModule) (trig M a b) (fun t => 2 * t) t (dtrig M a b (2 * t)) 2). apply trig_derive. auto_derive; auto; ring.
Qed.
Lemma latitude_wrong : forall gl lat, precompute_latitudes gl 3 GEquiangular = Some lat -> forall j : nat,
  ~ (forall k, (k < 3)%nat -> is_derive (fun t => cos (2 * t)) (rn lat k) (2 * rd 3 (fun l => cos (2 * rn lat l)) k)).
Proof.
  intros gl lat E _ H. pose proof (equiangular_lats gl 3 lat ltac:(lia) E) as V. cbn [Nat.sub] in V.
  assert (S : forall k, (k < 3)%nat -> sin (2 * rn lat k) = 0).
  { intros k Hk. rewrite V by auto. replace (2 * (PI * INR k / INR 2)) with (INR k * PI) by (cbn; field). rewrite INR_IZR_INZ. apply sin_eq_0_1. eauto. }
  assert (D : forall k, (k < 3)%nat -> rd 3 (fun l => cos (2 * rn lat l)) k = 0).
  { intros k Hk. pose proof (H k Hk) as A. assert (B : is_derive (fun t => cos (2 * t)) (rn lat k) (- (2 * sin (2 * rn lat k)))) by (auto_derive; auto; ring).
    apply is_derive_unique in A. apply is_derive_unique in B. rewrite B in A. rewrite S in A by auto. lra. }
  destruct (proj1 (rd_kernel 3 _ ltac:(lia)) D) as (a & d & O & E3). specialize (O eq_refl). pose proof (E3 0%nat ltac:(lia)) as F0. pose proof (E3 1%nat ltac:(lia)) as F1. rewrite O in F0, F1. rewrite V in F0, F1 by lia.
  replace (2 * (PI * INR 0 / INR 2)) with 0 in F0 by (cbn; field). replace (2 * (PI * INR 1 / INR 2)) with PI in F1 by (cbn; field). rewrite cos_0 in F0. rewrite cos_PI in F1. lra.
Qed.
(** the alternating field *)
Lemma w11_blind : forall gl nlat nlon g q kp kt lat lead, gradient_loss_init gl nlat nlon g = Some (q, kp, kt) -> precompute_latitudes gl nlat g = Some lat -> (1 <= count lead)%nat ->
  (forall k, (k < nlat)%nat -> 0 < rw lat k) -> forall x y, shp x = lead ++ [nlat; nlon] -> shp y = lead ++ [nlat; nlon] ->
  (w11_loss (q, kp, kt) x y None = Some 0 <-> forall i, valid lead i -> checker nlat nlon (fun k j => val x (i ++ [k; j]) - val y (i ++ [k; j]))).
Proof.
  intros gl nlat nlon g q kp kt lat lead I El C P x y Sx Sy. destruct (w11_nonneg gl nlat nlon g q kp kt lat lead I El C P [] None Logic.I Logic.I x y Sx Sy) as (v & -> & _ & Z). split.
  - intros E i Hi. injection E as E. apply (grads_equal gl nlat nlon g q kp kt lat lead I El C). intros k j Hk Hj. apply (proj1 Z E i k j); auto. exact Logic.I.
  - intros H. f_equal. apply Z. intros i k j Hi Hk Hj _. apply (grads_equal gl nlat nlon g q kp kt lat lead I El C x y i); auto.
Qed.
(** a masked-out pixel still acts on its neighbours through the transform *)
Lemma grid_exists : forall gl, exists lat o, precompute_latitudes gl 3 GEquiangular = Some lat /\ (forall k, (k < 3)%nat -> 0 < rw lat k) /\ gradient_loss_init gl 3 4 GEquiangular = Some o.
Proof.
  intros gl. assert (exists lat, precompute_latitudes gl 3 GEquiangular = Some lat) as (lat & El). { unfold precompute_latitudes. rewrite quad_rule_lat. cbn [quadrature_s2_rule]. destruct (cc_model 3 (-1) 1 ltac:(lia)) as (q & -> & _). eauto. }
  assert (P := lat_weights_positive gl 3 GEquiangular lat El ltac:(lia) ltac:(discriminate) ltac:(discriminate)).
  assert (T : rsum 3 (rw lat) <> 0). { apply Rgt_not_eq, rsum_pos'; auto; lia. }
  destruct (weights_value gl 3 4 GEquiangular lat El ltac:(lia) false true (fun _ => T)) as (q & E & _). unfold gradient_loss_init, loss_weights. rewrite E. cbn [bindo]. eexists _, _. split; [exact El|]. split; [exact P|]. reflexivity.
Qed.
Lemma quarter : forall l, (l < 4)%nat -> cos (2 * PI * INR l / INR 4) = nth l [1; 0; -1; 0] 0 /\ sin (2 * PI * INR l / INR 4) = nth l [0; 1; 0; -1] 0.
Proof.
  intros l Hl. destruct l as [|[|[|[|]]]]; [| | | |lia]; cbn [nth].
  - replace (2 * PI * INR 0 / INR 4) with 0 by (cbn; field). now rewrite cos_0, sin_0.
  - replace (2 * PI * INR 1 / INR 4) with (PI / 2) by (cbn; field). now rewrite cos_PI2, sin_PI2.
  - replace (2 * PI * INR 2 / INR 4) with PI by (cbn; field). now rewrite cos_PI, sin_PI.
  - replace (2 * PI * INR 3 / INR 4) with (3 * (PI / 2)) by (cbn; field). now rewrite cos_3PI2, sin_3PI2.
Qed.
Lemma w11_mask_leak : forall gl, exists lat o, precompute_latitudes gl 3 GEquiangular = Some lat /\ gradient_loss_init gl 3 4 GEquiangular = Some o /\
  let m := mkT [3; 4]%nat (fun i => if (nth 1 i 0 =? 0)%nat then 0 else 1) in
  let x := mkT [3; 4]%nat (fun i => if (nth 1 i 0 =? 0)%nat then 1 else 0) in
  let y := mkT [3; 4]%nat (fun _ => 0) in
  option_mask 3 4 lat [] [] (Some m) /\ (forall k j, (k < 3)%nat -> (j < 4)%nat -> val m [k; j] <> 0 -> val x [k; j] = val y [k; j]) /\
  exists v, w11_loss o x y (Some m) = Some v /\ 0 < v.
Proof.
  intros gl. destruct (grid_exists gl) as (lat & [[q kp] kt] & El & P & Io). exists lat, (q, kp, kt). split; auto. split; auto. intros m x y.
  assert (GM : option_mask 3 4 lat [] [] (Some m)).
  { split; [reflexivity|]. split; [reflexivity|]. intros i Hi. destruct i as [|a i]; [|destruct Hi as [L _]; discriminate L]. cbn [app val m nth bsum_ Nat.eqb]. pose proof (P 0%nat ltac:(lia)). pose proof (P 1%nat ltac:(lia)). pose proof (P 2%nat ltac:(lia)). lra. }
  assert (MN : mask_nonneg 3 4 (Some m)). { intros i k j Hk Hj. cbn [val m]. destruct (nth 1 (i ++ [k; j]) 0 =? 0)%nat; lra. }
  split; auto. split. { intros k j Hk Hj. cbn [val m x y nth]. destruct (j =? 0)%nat; intros; [lra|reflexivity]. }
  destruct (w11_nonneg gl 3 4 GEquiangular q kp kt lat [] Io El ltac:(cbn; lia) P [] (Some m) GM MN x y eq_refl eq_refl) as (v & Ev & V0 & VZ). exists v. split; auto.
  destruct V0 as [V0|V0]; auto. exfalso. symmetry in V0. assert (V1 : valid [] []) by (split; auto; intros d Hd; cbn in Hd; lia).
  destruct (proj1 VZ V0 [] 0%nat 1%nat V1 ltac:(lia) ltac:(lia)) as [G _]. { unfold pixel_counts. cbn [bidx bidx_r rev app val m nth Nat.eqb]. lra. }
  unfold gphi in G. cbn [app] in G. rewrite (rd_ext 4 (fun j => val y [0%nat; j]) (fun _ => 0)), rd_const in G by (auto; lia).
  rewrite (interpolates_rd 4 1 (fun m => if (m =? 0)%nat then / 4 else / 2) (fun _ => 0) (/ 4)) in G.
  - unfold dtrig in G. cbn [bsum_] in G. change (INR 1) with 1 in G at 3 4. rewrite !Rmult_1_l in G. destruct (quarter 1 ltac:(lia)) as [Q1 Q2]. cbn [nth] in Q1, Q2. change (INR 1) with 1 in *. rewrite ?Rmult_1_l in G. rewrite Q1, Q2 in G. cbn in G. lra.
  - split; [lia|]. split; [discriminate|]. intros l Hl. destruct (quarter l Hl) as [Q1 Q2]. unfold trig. cbn [bsum_ Nat.eqb]. change (INR 1) with 1. rewrite !Rmult_1_l, Q1. change (INR 0) with 0. rewrite !Rmult_0_l, cos_0. cbn [val x nth].
    destruct l as [|[|[|[|]]]]; [| | | |lia]; cbn [nth Nat.eqb pow]; lra.
Qed.
