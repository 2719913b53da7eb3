(** Masks of the surface normal loss. *)
From Coq Require Import List Arith Lia Bool Reals Lra.
From Coquelicot Require Import Coquelicot.
From Verif Require Import TensorModel TensorProofs BigSum TruncModel QuadModel CCProofs QuadProofs QuadPropProofs FFTModel FFTProofs SHTSpec SHTValueProofs LossModel LossSpec LossProofs LossProofs2 LossProofs3 LossProofs4 GradLossModel GradLossSpec GradLossProofs GradLossProofs2 GradLossProofs3 GradLossProofs4 GradLossProofs5.
Import ListNotations.
Local Open Scope R_scope.

Lemma integrate_cross : forall q h a u m lead lm r w, rows q h a -> shp u = lead ++ [h; w] -> shp m = lm ++ [h; w] -> bshape lm lead = Some r -> bshape lm r = Some r ->
  (forall i, valid lm i -> denominator h w a m i <> 0) ->
  exists y, integrate_sphere q u (Some m) = Some y /\ shp y = r /\ forall i, valid r i ->
    val y i = rsum h (fun k => rsum w (fun j => a k * val m (bidx lm i ++ [k; j]%nat) * val u (bidx lead i ++ [k; j]%nat))) / denominator h w a m (bidx lm i).
Proof.
  intros q h a u m lead lm r w [Sq Vq] Su Sm Hb Hr HD. unfold integrate_sphere.
  unfold bmap2 at 1. rewrite Su, Sm, (bshape_app2 _ _ _ h w Hb). cbn [bindo]. unfold bmap2 at 1. rewrite Sq. cbn [shp]. rewrite bshape_rows. cbn [bindo].
  match goal with |- context [sum_last2 ?x] => destruct (sum_last2_value x r h w eq_refl) as (num & E & S & V) end. rewrite E. cbn [bindo].
  unfold bmap2. rewrite Sq, Sm, bshape_rows. cbn [bindo].
  match goal with |- context [sum_last2 ?x] => destruct (sum_last2_value x lm h w eq_refl) as (den & E' & S' & V') end. rewrite E'. cbn [bindo].
  assert (VD : forall i, valid lm i -> val den i = denominator h w a m i).
  { intros i Hi. rewrite V'. unfold denominator. apply bsum_ext. intros k Hk. apply bsum_ext. intros j Hj. cbn [val]. rewrite bidx_valid by (now apply valid_2'). rewrite bidx_rows, Vq by auto. ring. }
  unfold tdiv. rewrite (proj2 (forallb_forall _ _)).
  2:{ intros i Hi. rewrite S' in Hi. apply in_indices in Hi. rewrite VD by auto. destruct (Req_EM_T (denominator h w a m i) 0) as [Z|Z]; auto. exfalso. now apply (HD i). }
  unfold bmap2. rewrite S, S', bshape_comm, Hr. cbn [bindo]. eexists. split; [reflexivity|]. split; auto. intros i Hi. cbn [val].
  rewrite (bidx_valid r) by auto. rewrite VD by (eapply bidx_valid_b; eauto). f_equal. rewrite V. apply bsum_ext. intros k Hk. apply bsum_ext. intros j Hj. cbn [val shp].
  rewrite (bidx_valid (r ++ [h; w])) by (now apply valid_2'). rewrite bidx_rows, Vq by auto. rewrite !bidx_app2 by auto. ring.
Qed.
Lemma cross_shape : forall b, bshape [b] [b; 1%nat] = Some [b; b] /\ bshape [b] [b; b] = Some [b; b].
Proof.
  intros b. unfold bshape. cbn [rev app bshape_r]. rewrite bdim_1, bdim_refl. split; reflexivity.
Qed.
Lemma cross_index : forall b i j, (i < b)%nat -> (j < b)%nat -> bidx [b] [i; j] = [j] /\ bidx [b; 1%nat] [i; j] = [i; 0%nat].
Proof. intros b i j Hi Hj. unfold bidx. cbn [rev app bidx_r Nat.eqb]. destruct (Nat.eqb_spec b 1); cbn; split; f_equal; try lia. Qed.
Lemma normal_cross : forall gl nlat nlon g q kp kt lat b, gradient_loss_init gl nlat nlon g = Some (q, kp, kt) -> precompute_latitudes gl nlat g = Some lat -> (1 <= b)%nat ->
  forall x y m, shp x = [b; nlat; nlon] -> shp y = [b; nlat; nlon] -> shp m = [b; nlat; nlon] ->
  (forall s, (s < b)%nat -> rsum nlat (fun k => rsum nlon (fun j => rw lat k * val m [s; k; j])) <> 0) ->
  normal_loss (q, kp, kt) x y (Some m) = Some (average [b; b] (fun p => mean_on_mask (rw lat) nlat nlon (fun k j => val m [nth 1 p 0%nat; k; j]) (normal_at nlat nlon x y [nth 0 p 0%nat]))).
Proof.
  intros gl nlat nlon g q kp kt lat b I El Hb x y m Sx Sy Sm HD. pose proof (init_facts gl nlat nlon g q kp kt I) as (Hw & Hlat & Hlon & _).
  destruct (normal_term_value gl nlat nlon g q kp kt I x y [b] Sx Sy) as (t & Et & St & Vt). cbn [view fst snd spread firstn skipn app] in St, Vt. unfold normal_loss, spherical_loss. rewrite Et. cbn [bindo].
  pose proof (con_rows gl nlat nlon g lat true q El Hlon Hw) as Q. destruct (row_weight_factor gl nlat nlon g lat true q El Hlon Hw) as (c & Hc & F). destruct (cross_shape b) as [B1 B2].
  assert (V1 : forall i, valid [b] i -> exists s, i = [s] /\ (s < b)%nat). { intros i Hi. destruct i as [|s [|]]; try (apply valid_len in Hi; discriminate). apply valid_cons in Hi. exists s. tauto. }
  destruct (integrate_cross q nlat (row_weight nlat nlon lat true) t m [b; 1%nat] [b] [b; b] nlon Q St Sm B1 B2) as (z & -> & Sz & Vz).
  { intros i Hi. destruct (V1 i Hi) as (s & -> & Hs). rewrite (denominator_factor nlat nlon lat true c) by auto. apply Rmult_integral_contrapositive. split; auto. apply (HD s Hs). }
  cbn [bindo]. rewrite mean_value by (rewrite Sz; cbn [count]; nia). rewrite Sz. f_equal. apply average_ext. intros i Hi. rewrite Vz by auto.
  destruct i as [|s [|s' [|]]]; try (apply valid_len in Hi; discriminate). apply valid_cons in Hi. destruct Hi as [H1 Hi]. apply valid_cons in Hi. destruct Hi as [H2 _]. destruct (cross_index b s s' H1 H2) as [-> ->].
  pose proof (integral_on_mask gl nlat nlon g lat true q El Hlon Hw nlon m [b] (fun i' => normal_at nlat nlon x y [s] (nth 1 i' 0%nat) (nth 2 i' 0%nat)) [s']) as IM.
  replace (bidx [b] [s']) with [s'] in IM. 2:{ unfold bidx. cbn [rev app bidx_r]. destruct (Nat.eqb_spec b 1); cbn; f_equal; lia. } specialize (IM (HD s' H2)). cbn [integral app nth] in IM. replace (bidx [b] [s']) with [s'] in IM. 2:{ unfold bidx. cbn [rev app bidx_r]. destruct (Nat.eqb_spec b 1); cbn; f_equal; lia. }
  cbn [nth]. etransitivity; [|exact IM]. f_equal. apply bsum_ext. intros k Hk. apply bsum_ext. intros j Hj. cbn [app]. f_equal. apply (Vt [s; 0%nat]); auto. apply valid_cons. split; auto. apply valid_cons. split; [lia|]. apply valid_nil; auto.
Qed.
Lemma normal_mask_leak : forall gl, exists lat o, precompute_latitudes gl 3 GEquiangular = Some lat /\ gradient_loss_init gl 3 4 GEquiangular = Some o /\
  let m := mkT [2; 3; 4]%nat (fun i => if (nth 0 i 0 =? 0)%nat && Nat.even (nth 2 i 0%nat) then 0 else 1) in
  let x := mkT [2; 3; 4]%nat (fun i => if (nth 0 i 0 =? 0)%nat then sin (2 * PI * INR (nth 2 i 0%nat) / INR 4) else 0) in
  let y := mkT [2; 3; 4]%nat (fun _ => 0) in
  (forall s k j, (s < 2)%nat -> (k < 3)%nat -> (j < 4)%nat -> val m [s; k; j] <> 0 -> normal_at 3 4 x y [s] k j = 0) /\
  (forall s, (s < 2)%nat -> 0 < rsum 3 (fun k => rsum 4 (fun j => rw lat k * val m [s; k; j]))) /\
  exists v, normal_loss o x y (Some m) = Some v /\ 0 < v.
Proof.
  intros gl. destruct (grid_exists gl) as (lat & [[q kp] kt] & El & P & Io). exists lat, (q, kp, kt). split; auto. split; auto. intros m x y.
  assert (GX : forall s k j, gtheta 3 x [s] k j = 0 /\ gphi 4 x [s] k j = if (s =? 0)%nat then cos (2 * PI * INR j / INR 4) else 0).
  { intros s k j. unfold gphi, gtheta. cbn [val x app nth]. split.
    - destruct (s =? 0)%nat; rewrite rd_const by lia; ring.
    - destruct (s =? 0)%nat; [|apply rd_const; lia]. rewrite (rd_ext 4 _ (fun l => sin (INR 1 * (2 * PI * INR l / INR 4)))) by (intros; now rewrite Rmult_1_l). rewrite rd_sin by lia. change (INR 1) with 1. now rewrite !Rmult_1_l. }
  assert (GY : forall s k j, gtheta 3 y [s] k j = 0 /\ gphi 4 y [s] k j = 0). { intros s k j. unfold gphi, gtheta. cbn [val y]. rewrite !rd_const by lia. split; ring. }
  assert (NA : forall s k j, normal_at 3 4 x y [s] k j = 0 <-> gphi 4 x [s] k j = 0). { intros s k j. unfold normal_at. destruct (cos_range (gphi 4 x [s] k j) (gtheta 3 x [s] k j) (gphi 4 y [s] k j) (gtheta 3 y [s] k j)) as [_ ->]. destruct (GX s k j) as [-> _]. destruct (GY s k j) as [-> ->]. tauto. }
  assert (NP : forall s k j, 0 <= normal_at 3 4 x y [s] k j) by (intros; apply cos_range).
  assert (ZM : forall s k j, (s < 2)%nat -> (k < 3)%nat -> (j < 4)%nat -> val m [s; k; j] <> 0 -> normal_at 3 4 x y [s] k j = 0).
  { intros s k j Hs Hk Hj Hm. apply NA. destruct (GX s k j) as [_ ->]. cbn [val m nth] in Hm. destruct (Nat.eqb_spec s 0); auto. cbn [andb] in Hm. destruct (quarter j Hj) as [-> _]. destruct j as [|[|[|[|]]]]; [| | | |lia]; cbn [Nat.even nth] in *; try lra; auto. }
  assert (W : forall s, (s < 2)%nat -> 0 < rsum 3 (fun k => rsum 4 (fun j => rw lat k * val m [s; k; j]))).
  { intros s Hs. pose proof (P 0%nat ltac:(lia)). pose proof (P 1%nat ltac:(lia)). pose proof (P 2%nat ltac:(lia)). destruct s as [|[|]]; [| |lia]; cbn [val m nth bsum_ Nat.eqb Nat.even andb]; lra. }
  split; auto. split; auto.
  rewrite (normal_cross gl 3 4 GEquiangular q kp kt lat 2 Io El ltac:(lia) x y m eq_refl eq_refl eq_refl). 2:{ intros s Hs. apply Rgt_not_eq, W, Hs. } eexists. split; [reflexivity|].
  assert (N : forall s s', (s < 2)%nat -> (s' < 2)%nat -> 0 <= mean_on_mask (rw lat) 3 4 (fun k j => val m [s'; k; j]) (normal_at 3 4 x y [s])).
  { intros s s' Hs Hs'. unfold mean_on_mask, Rdiv. apply Rmult_le_pos. 2:{ left. apply Rinv_0_lt_compat. apply (W s' Hs'). } apply rsum_nonneg. intros k Hk. apply rsum_nonneg. intros j Hj. apply Rmult_le_pos; auto. apply Rmult_le_pos. left. auto. cbn [val m]. destruct (_ && _); lra. }
  assert (K : 0 < mean_on_mask (rw lat) 3 4 (fun k j => val m [1%nat; k; j]) (normal_at 3 4 x y [0%nat])).
  { unfold mean_on_mask. apply Rdiv_lt_0_compat. 2:{ apply (W 1%nat). lia. } apply rsum_pos'; [lia|]. intros k Hk. cbn [val m nth Nat.eqb andb bsum_]. pose proof (P k Hk) as Pk.
    assert (0 < normal_at 3 4 x y [0%nat] k 0). { destruct (NP 0%nat k 0%nat) as [H|H]; auto. exfalso. symmetry in H. apply NA in H. destruct (GX 0%nat k 0%nat) as [_ G]. rewrite H in G. cbn [Nat.eqb] in G. destruct (quarter 0 ltac:(lia)) as [Q0 _]. rewrite Q0 in G. cbn in G. lra. }
    pose proof (NP 0%nat k 1%nat). pose proof (NP 0%nat k 2%nat). pose proof (NP 0%nat k 3%nat). nra. }
  unfold average. cbn [total count bsum_ nth]. apply Rdiv_lt_0_compat; [|cbn; lra]. pose proof (N 0 0 ltac:(lia) ltac:(lia))%nat. pose proof (N 1 0 ltac:(lia) ltac:(lia))%nat. pose proof (N 1 1 ltac:(lia) ltac:(lia))%nat. lra.
Qed.
(** ** forms used by the property file *)
Lemma spectral_value : forall n c f gr, c <> 0 -> spectral_derivative n c f gr -> forall l, (l < n)%nat -> gr l = c * rd n f l.
Proof.
  intros n c f gr Hc (M & a & b & d & Hi & Hd) l Hl. rewrite (interpolates_rd n M a b d f l Hi). pose proof (is_derive_unique _ _ _ (Hd l Hl)) as U. pose proof (is_derive_unique _ _ _ (trig_derive M a b (2 * PI * INR l / INR n))) as U'. rewrite U in U'. rewrite <- U'. field. auto.
Qed.
Lemma spectral_rd2 : forall n f, (1 <= n)%nat -> spectral_derivative n 2 f (fun l => 2 * rd n f l).
Proof.
  intros n f Hn. destruct (rd_spectral n f Hn) as (M & a & b & d & Hi & Hd). exists M, a, b, d. split; auto. intros l Hl. replace (2 * rd n f l / 2) with (rd n f l / 1) by field. auto.
Qed.
Lemma gradients_value : forall nlat nlon lead x gp gt, gradients nlat nlon lead x gp gt -> forall i k j, valid lead i -> (k < nlat)%nat -> (j < nlon)%nat -> gp i k j = gphi nlon x i k j /\ gt i k j = gtheta nlat x i k j.
Proof.
  intros nlat nlon lead x gp gt H i k j Hi Hk Hj. destruct (H i Hi) as [H1 H2]. split.
  - rewrite (spectral_value _ _ _ _ R1_neq_R0 (H1 k Hk) j Hj). apply Rmult_1_l.
  - assert (T : 2 <> 0) by lra. apply (spectral_value nlat 2 _ (fun k => gt i k j) T (H2 j Hj) k Hk).
Qed.
Lemma gradients_exist : forall nlat nlon lead x, (1 <= nlat)%nat -> (1 <= nlon)%nat -> gradients nlat nlon lead x (gphi nlon x) (gtheta nlat x).
Proof. intros nlat nlon lead x H1 H2 i Hi. split. intros k Hk. now apply rd_spectral. intros j Hj. now apply spectral_rd2. Qed.
Lemma width_checked : forall gl nlat nlon g q kp kt lead h w x y m, gradient_loss_init gl nlat nlon g = Some (q, kp, kt) -> shp x = lead ++ [h; w] ->
  (h <> nlat /\ h <> 1 /\ nlat <> 1 \/ w <> nlon /\ w <> 1 /\ nlon <> 1)%nat -> w11_loss (q, kp, kt) x y m = None.
Proof.
  intros gl nlat nlon g q kp kt lead h w x y m I Sx H. pose proof (init_facts gl nlat nlon g q kp kt I) as (_ & _ & _ & Sp & _). unfold w11_loss, spherical_loss, w11_term.
  assert (E : fourier_gradient kp x = None); [|rewrite E; reflexivity]. unfold fourier_gradient. destruct (fft2 x) as [X|] eqn:EX; [|reflexivity]. cbn [bindo].
  assert (SX : shp X = lead ++ [h; w]). { unfold fft2, dft2 in EX. destruct (guard _); [|discriminate]. cbn [bindo] in EX. destruct (guard _); [|discriminate]. cbn [bindo] in EX. injection EX as <-. exact Sx. }
  assert (B : bshape [nlat; nlon] (lead ++ [h; w]) = None).
  { unfold bshape. rewrite rev_app_distr. cbn [rev app bshape_r]. destruct (bdim nlon w) eqn:D1; cbn [bindo]; auto. destruct (bdim nlat h) eqn:D2; cbn [bindo]; auto. exfalso. unfold bdim in D1, D2. destruct H as [(A1 & A2 & A3)|(A1 & A2 & A3)].
    - destruct (Nat.eqb_spec nlat h); [lia|]. destruct (Nat.eqb_spec nlat 1); [lia|]. destruct (Nat.eqb_spec h 1); [lia|discriminate].
    - destruct (Nat.eqb_spec nlon w); [lia|]. destruct (Nat.eqb_spec nlon 1); [lia|]. destruct (Nat.eqb_spec w 1); [lia|discriminate]. }
  unfold bmap2. cbn [map_t shp]. rewrite Sp, SX, B. reflexivity.
Qed.
