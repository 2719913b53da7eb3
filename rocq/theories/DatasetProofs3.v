From Coq Require Import List Arith NArith ZArith Lia Lra Bool Reals Ascii String Sorted.
From Verif Require Import TensorModel BigSum TruncModel QuadModel QuadSpec CCProofs QuadProofs QuadPropProofs LossModel LossSpec LossProofs LossProofs2 LossProofs3
  DatasetModel DatasetSpec DatasetProofs DatasetProofs2.
Import ListNotations.
Local Open Scope R_scope.

Lemma equi_lat : forall gl H, (2 <= H)%nat -> exists lat, precompute_latitudes gl H GEquiangular = Some lat /\
  (forall k, (k < H)%nat -> 0 < rw lat k) /\ 0 < rsum H (rw lat).
Proof.
  intros gl H H2. assert (exists lat, precompute_latitudes gl H GEquiangular = Some lat) as (lat & El).
  { unfold precompute_latitudes. rewrite quad_rule_lat. cbn [quadrature_s2_rule]. destruct (cc_model H (-1) 1 ltac:(lia)) as (q & -> & _). eauto. }
  assert (P := lat_weights_positive gl H GEquiangular lat El ltac:(lia) ltac:(discriminate) ltac:(discriminate)).
  exists lat. repeat split; auto. apply rsum_pos'; auto; lia.
Qed.

Lemma stats_input_ok : forall gl H W xs c, (2 <= H)%nat -> (1 <= W)%nat -> xs <> [] ->
  exists lat, precompute_latitudes gl H GEquiangular = Some lat /\
  stats_input gl H W xs c = Some (data_mean (rw lat) H W (map (fun x => x c) xs), sqrt (data_var (rw lat) H W (map (fun x => x c) xs))).
Proof.
  intros gl H W xs c H2 HW Hx. destruct (equi_lat gl H H2) as (lat & El & P & T). exists lat. split; auto.
  assert (T' : rsum H (rw lat) <> 0) by lra.
  destruct (weights_value gl H W GEquiangular lat El HW true true (fun _ => T')) as (q & Eq & _ & Vq).
  unfold stats_input. rewrite Eq. cbn [bindo]. rewrite <- (map_map (fun x : nat -> image => x c) (sample_stats H W q)).
  apply (input_stats H W lat q HW T' Vq). destruct xs; [congruence|discriminate].
Qed.

Lemma valid_area_pos : forall w H W x, (forall k, (k < H)%nat -> 0 < w k) -> (exists k j, (k < H)%nat /\ (j < W)%nat /\ x k j <> 0) -> valid_area w H W x <> 0.
Proof.
  intros w H W x P (k & j & Hk & Hj & Hx) E. unfold valid_area in E.
  assert (N : forall k j, (k < H)%nat -> 0 <= w k * nonzero x k j). { intros. apply Rmult_le_pos. left; auto. unfold nonzero. destruct (Req_EM_T _ 0); lra. }
  pose proof (rsum_zero_iff H _ (fun k Hk => rsum_nonneg W _ (fun j _ => N k j Hk)) E k Hk) as E1. cbv beta in E1.
  pose proof (rsum_zero_iff W _ (fun j _ => N k j Hk) E1 j Hj) as E2. cbv beta in E2.
  apply Rmult_integral in E2 as [E2|E2]. specialize (P k Hk). lra. unfold nonzero in E2. destruct (Req_EM_T (x k j) 0); [congruence|lra].
Qed.
Lemma stats_target_ok : forall gl H W xs, (2 <= H)%nat -> (1 <= W)%nat -> xs <> [] ->
  (forall x, In x xs -> exists k j, (k < H)%nat /\ (j < W)%nat /\ x k j <> 0) ->
  exists lat, precompute_latitudes gl H GEquiangular = Some lat /\
  stats_target gl H W xs = Some (valid_mean (rw lat) H W xs, sqrt (valid_var (rw lat) H W xs)).
Proof.
  intros gl H W xs H2 HW Hx Hv. destruct (equi_lat gl H H2) as (lat & El & P & T). exists lat. split; auto.
  assert (T' : rsum H (rw lat) <> 0) by lra.
  destruct (weights_value gl H W GEquiangular lat El HW true true (fun _ => T')) as (q & Eq & _ & Vq).
  unfold stats_target. rewrite Eq. cbn [bindo]. apply (target_stats H W lat q HW T' Vq); auto. intros x Hin. apply valid_area_pos; auto.
Qed.
Lemma stats_target_none : forall gl H W xs x, (2 <= H)%nat -> (1 <= W)%nat -> In x xs -> (forall k j, (k < H)%nat -> (j < W)%nat -> x k j = 0) ->
  stats_target gl H W xs = None.
Proof.
  intros gl H W xs x H2 HW Hin Hx. destruct (equi_lat gl H H2) as (lat & El & P & T).
  assert (T' : rsum H (rw lat) <> 0) by lra.
  destruct (weights_value gl H W GEquiangular lat El HW true true (fun _ => T')) as (q & Eq & _ & Vq).
  unfold stats_target. rewrite Eq. cbn [bindo]. rewrite all_some_none; auto. rewrite <- (masked_stats_none H W lat q HW T' Vq x).
  - now apply in_map.
  - unfold valid_area. apply (bsum_zero' RT). intros k Hk. apply (bsum_zero' RT). intros j Hj. unfold nonzero. destruct (Req_EM_T (x k j) 0) as [_|N]; [ring|]. elim N; auto.
Qed.

(** constant images *)
Lemma mean_const : forall w H W c, rsum H (fun k => rsum W (fun _ => area w H W k)) = 1 -> mean_on_sphere w H W (fun _ _ => c) = c.
Proof.
  intros w H W c Ha. unfold mean_on_sphere. transitivity (c * 1); [|ring]. rewrite <- Ha, <- (bsum_scal_l RT). apply bsum_ext. intros k _. rewrite <- (bsum_scal_l RT). apply bsum_ext. intros. ring.
Qed.
Lemma lmax_const : forall H W c, (1 <= H)%nat -> (1 <= W)%nat -> lmax H W (fun _ _ => c) = c.
Proof. intros H W c H1 H2. destruct (lmax_ok H W (fun _ _ => c) H1 H2) as [_ [(x & k & j & [<-|[]] & _ & _ & E) _]]. auto. Qed.

(** items *)
Lemma seg_item_ok : forall n H hcut sem k j, (k < H)%nat -> (0 <= sem k j)%Z ->
  (seg_item n H hcut true sem k j = (-100)%Z <-> polar H hcut k \/ (Z.of_nat n <= sem k j)%Z) /\
  (seg_item n H hcut true sem k j <> (-100)%Z -> seg_item n H hcut true sem k j = sem k j).
Proof.
  intros n H hcut sem k j Hk Hs. unfold seg_item, polar. cbn [andb].
  destruct (Nat.ltb_spec 0 hcut); cbn [andb].
  - destruct (Nat.ltb_spec k hcut); cbn [orb]. { split; [|tauto]. split; auto. }
    destruct (Nat.leb_spec (H - hcut) k). { split; [|tauto]. split; auto. intros _. left. right. lia. }
    destruct (Z.leb_spec (Z.of_nat n) (sem k j)); split; try tauto; split; intros; try tauto; try lia.
  - destruct (Z.leb_spec (Z.of_nat n) (sem k j)); split; try tauto; split; intros; try tauto; try lia.
Qed.
Lemma depth_item_ok : forall H W hcut dep top, (forall k j, (k < H)%nat -> (j < W)%nat -> dep k j <= top) ->
  (exists k j, (k < H)%nat /\ (j < W)%nat /\ dep k j = top) ->
  exists f, depth_item H W hcut true false dep = Some f /\
  forall k j, (k < H)%nat -> (j < W)%nat -> (dep k j = top \/ polar H hcut k -> f k j = Some 0) /\ (dep k j <> top -> ~ polar H hcut k -> f k j = Some (dep k j)).
Proof.
  intros H W hcut dep top Hle (k0 & j0 & Hk0 & Hj0 & E0). unfold depth_item.
  destruct (list_max_ok H W dep ltac:(lia) ltac:(lia)) as (v & Ev & [(x & k1 & j1 & [<-|[]] & Hk1 & Hj1 & E1) G]).
  assert (H0 : v = top). { apply Rle_antisym. rewrite <- E1. auto. rewrite <- E0. apply (G dep); auto. left; auto. }
  rewrite Ev, H0. cbn [bindo]. eexists. split; [reflexivity|]. intros k j Hk Hj. cbv beta zeta iota. unfold polar.
  destruct (Nat.ltb_spec 0 hcut); cbn [andb].
  - destruct (Nat.ltb_spec k hcut); cbn [orb]. { split; auto. intros; tauto. }
    destruct (Nat.leb_spec (H - hcut) k). { split; auto. intros _ N. elim N. lia. }
    cbv iota. destruct (Req_EM_T (dep k j) top). { split; [intros; f_equal; ring|tauto]. } split; [intros [?|?]; [tauto|lia]|intros; f_equal; ring].
  - cbv iota. destruct (Req_EM_T (dep k j) top). { split; [intros; f_equal; ring|tauto]. } split; [intros [?|?]; [tauto|lia]|intros; f_equal; ring].
Qed.
