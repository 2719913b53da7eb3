(** Serial resampling: indices, weights, values. *)
From Coq Require Import List Arith Lia Bool Reals ZArith Lra.
From Coquelicot Require Import Coquelicot.
From Verif Require Import TensorModel TensorProofs BigSum FFTModel TruncModel QuadModel SHTModel ResampleModel ResampleSpec
  DistSHTProofs2 DistResampleProofs.
Import ListNotations.
Local Open Scope R_scope.

Lemma Rleb_true : forall x y, Rleb x y = true <-> x <= y.
Proof. intros. unfold Rleb. destruct (Rle_dec x y); split; auto; try discriminate; intros; lra. Qed.
Lemma Rltb_true : forall x y, Rltb x y = true <-> x < y.
Proof. intros. unfold Rltb. destruct (Rlt_dec x y); split; auto; try discriminate; intros; lra. Qed.
Lemma Rltb_false : forall x y, Rltb x y = false <-> y <= x.
Proof. intros. unfold Rltb. destruct (Rlt_dec x y); split; auto; try discriminate; intros; lra. Qed.

(** ** searchsorted *)
Lemma count_prefix : forall n p c, (c <= n)%nat -> (forall i, (i < n)%nat -> p i = (i <? c)%nat) -> length (filter p (seq 0 n)) = c.
Proof.
  induction n; intros p c Hc Hp. simpl; lia.
  rewrite seq_S, filter_app, app_length. simpl. rewrite Hp by lia.
  destruct (Nat.ltb_spec n c).
  - rewrite (IHn p n). simpl; lia. lia. intros i Hi. rewrite Hp by lia.
    destruct (Nat.ltb_spec i c), (Nat.ltb_spec i n); auto; lia.
  - rewrite (IHn p c). simpl; lia. lia. intros; apply Hp; lia.
Qed.
Lemma searchsorted_spec : forall n xs v, (forall i j, (i < j)%nat -> (j < n)%nat -> xs i < xs j) ->
  (searchsorted_right n xs v <= n)%nat /\
  forall i, (i < n)%nat -> (i < searchsorted_right n xs v)%nat <-> xs i <= v.
Proof.
  intros n xs v Hm.
  assert (E : exists c, (c <= n)%nat /\ forall i, (i < n)%nat -> Rleb (xs i) v = (i <? c)%nat).
  { induction n. exists 0%nat. split; auto; intros; lia.
    destruct IHn as (c & Hc & Hi). intros; apply Hm; lia.
    destruct (Rleb (xs n) v) eqn:E.
    - exists (S n). split; auto. intros i H. apply Rleb_true in E. assert (xs i <= v).
      { destruct (Nat.eq_dec i n) as [->|]; auto. assert (xs i < xs n) by (apply Hm; lia). lra. }
      rewrite (proj2 (Rleb_true _ _)) by auto. destruct (Nat.ltb_spec i (S n)); auto; lia.
    - exists c. split; auto. intros i H. destruct (Nat.eq_dec i n) as [->|].
      + rewrite E. destruct (Nat.ltb_spec n c); auto; lia.
      + apply Hi. lia. }
  destruct E as (c & Hc & Hi). unfold searchsorted_right. rewrite (count_prefix n _ c) by auto. split; auto.
  intros i H. rewrite <- Rleb_true, Hi by auto. destruct (Nat.ltb_spec i c); split; auto; try discriminate; lia.
Qed.

(** ** Latitude *)
Lemma lat_located : forall n xs v, (2 <= n)%nat -> (forall i j, (i < j)%nat -> (j < n)%nat -> xs i < xs j) ->
  xs 0%nat <= v <= xs (n - 1)%nat ->
  exists k, lat_index n xs v = Z.of_nat k /\ located n xs v k (lat_weight n xs v) /\ lat_weight_ok n xs v = true.
Proof.
  intros n xs v Hn Hm [Hv0 Hv1]. destruct (searchsorted_spec n xs v Hm) as [Sn Ss].
  set (c := searchsorted_right n xs v) in *.
  assert (C1 : (1 <= c)%nat) by (destruct (Ss 0%nat ltac:(lia)) as [_ K]; specialize (K Hv0); lia).
  assert (H : exists k, lat_index n xs v = Z.of_nat k /\ (k + 1 < n)%nat /\ xs k <= v <= xs (k + 1)%nat).
  { unfold lat_index. fold c. unfold Reqb. destruct (Req_EM_T v (xs (n - 1)%nat)) as [E|E].
    - assert (c = n). { destruct (Ss (n - 1)%nat ltac:(lia)) as [_ K]. specialize (K ltac:(lra)). lia. }
      exists (n - 2)%nat. split; [lia|]. split; [lia|]. replace (n - 2 + 1)%nat with (n - 1)%nat by lia.
      assert (xs (n - 2)%nat < xs (n - 1)%nat) by (apply Hm; lia). lra.
    - assert (c <> n). { intros Ec. assert (xs (n - 1)%nat <= v) by (apply Ss; lia). lra. }
      exists (c - 1)%nat. split; [lia|]. split; [lia|]. replace (c - 1 + 1)%nat with c by lia. split.
      + apply Ss; lia.
      + destruct (Rle_lt_dec (xs c) v) as [K|K]; [|lra]. apply Ss in K; lia. }
  destruct H as (k & E & Hk & B). exists k. split; auto.
  assert (P1 : pyidx n (Z.of_nat k) = k) by (unfold pyidx; destruct (Z.ltb_spec (Z.of_nat k) 0); lia).
  assert (P2 : pyidx (n - 1) (Z.of_nat k) = k) by (unfold pyidx; destruct (Z.ltb_spec (Z.of_nat k) 0); lia).
  assert (Hd : xs k < xs (k + 1)%nat) by (apply Hm; lia).
  split.
  - unfold lat_weight. rewrite E, P1, P2. unfold located. split; auto. split; [|split; [auto|field; lra]]. split.
    + apply Rdiv_le_0_compat; lra.
    + apply Rmult_le_reg_r with (xs (k + 1)%nat - xs k). lra. unfold Rdiv. rewrite Rmult_assoc, Rinv_l by lra. lra.
  - unfold lat_weight_ok. rewrite E. unfold pyidx_ok.
    apply andb_true_intro; split; apply andb_true_intro; split; [apply Z.leb_le|apply Z.ltb_lt|apply Z.leb_le|apply Z.ltb_lt]; lia.
Qed.

(** ** Longitude *)
Lemma lon_eq : forall n b, (1 <= n)%nat -> precompute_longitudes n b = lon n b.
Proof.
  intros n b Hn. unfold precompute_longitudes, linspace, lon. replace (n + 1 - 1)%nat with n by lia.
  assert (INR n <> 0) by (apply not_0_INR; lia). field; auto.
Qed.
Lemma lon_lt : forall n a b, (1 <= n)%nat -> (a < b)%nat -> lon n a < lon n b.
Proof.
  intros n a b Hn H. unfold lon. apply lt_INR in H. assert (0 < INR n) by (apply lt_0_INR; lia). pose proof PI_RGT_0.
  apply Rmult_lt_compat_r. apply Rinv_0_lt_compat; auto. nra.
Qed.
Lemma lon_range : forall n b, (b < n)%nat -> 0 <= lon n b < 2 * PI.
Proof.
  intros n b H. unfold lon. pose proof (pos_INR b). apply lt_INR in H. pose proof PI_RGT_0. split.
  - apply Rdiv_le_0_compat; nra.
  - apply Rmult_lt_reg_r with (INR n). lra. unfold Rdiv. rewrite Rmult_assoc, Rinv_l by lra. nra.
Qed.
Lemma lon_located : forall n v, (2 <= n)%nat -> 0 <= v < 2 * PI ->
  let xs := precompute_longitudes n in
  exists b c, lon_left n xs v = Z.of_nat b /\ lon_right n xs v = Z.of_nat c /\
    located_lon n v b c (lon_weight n xs v) /\ lon_weight_ok n xs v = true.
Proof.
  intros n v Hn Hv xs. assert (Hx : forall b, xs b = lon n b) by (intros; apply lon_eq; lia).
  assert (Hm : forall i j, (i < j)%nat -> (j < n)%nat -> xs i < xs j) by (intros; rewrite !Hx; apply lon_lt; lia).
  destruct (searchsorted_spec n xs v Hm) as [Sn Ss]. set (c := searchsorted_right n xs v) in *.
  assert (Nn : 0 < INR n) by (apply lt_0_INR; lia). pose proof PI_RGT_0 as HPI.
  assert (X0 : xs 0%nat = 0) by (rewrite Hx; unfold lon; simpl; field; lra).
  assert (C1 : (1 <= c)%nat) by (destruct (Ss 0%nat ltac:(lia)) as [_ K]; specialize (K ltac:(lra)); lia).
  assert (LL : lon_left n xs v = Z.of_nat (c - 1)) by (unfold lon_left; fold c; lia).
  assert (step : forall b, lon n (S b) = lon n b + 2 * PI / INR n) by (intros; unfold lon; rewrite S_INR; field; lra).
  assert (LR : lon_right n xs v = Z.of_nat (c mod n)).
  { unfold lon_right. destruct (Rleb (xs (n - 1)%nat) v) eqn:E.
    - apply Rleb_true in E. apply Ss in E; [|lia]. assert (c = n) by lia. rewrite H. now rewrite Nat.mod_same by lia.
    - assert (c < n)%nat. { destruct (Nat.eq_dec c n); [|lia]. assert (xs (n - 1)%nat <= v) by (apply Ss; lia). apply Rleb_true in H. congruence. }
      rewrite LL, Nat.mod_small by auto. lia. }
  assert (M : (c mod n < n)%nat) by (apply Nat.mod_upper_bound; lia).
  assert (pyi : forall b, (b < n)%nat -> pyidx n (Z.of_nat b) = b) by (intros; unfold pyidx; destruct (Z.ltb_spec (Z.of_nat b) 0); lia).
  assert (D : lon_diff n xs v = 2 * PI / INR n).
  { unfold lon_diff. rewrite LL, LR, !pyi by lia. rewrite !Hx. destruct (Nat.eq_dec c n) as [Ec|Ec].
    - rewrite Ec, Nat.mod_same by lia. replace n with (S (n - 1)) at 7 by lia.
      pose proof (step (n - 1)%nat) as St. replace (S (n - 1)) with n in St by lia.
      assert (L2 : lon n n = 2 * PI) by (unfold lon; field; lra).
      assert (Z0 : lon n 0 = 0) by (rewrite <- Hx; auto). rewrite Z0.
      assert (P0 : 0 < lon n (n - 1)). { rewrite <- Z0. apply lon_lt; lia. }
      rewrite (proj2 (Rltb_true _ _)) by lra. replace (S (n - 1)) with n by lia. lra.
    - rewrite Nat.mod_small by lia. pose proof (step (c - 1)%nat) as St. replace (S (c - 1)) with c in St by lia.
      assert (0 < 2 * PI / INR n) by (apply Rdiv_lt_0_compat; lra).
      rewrite (proj2 (Rltb_false _ _)) by lra. lra. }
  assert (Dp : 0 < 2 * PI / INR n) by (apply Rdiv_lt_0_compat; lra).
  exists (c - 1)%nat, (c mod n)%nat. split; auto. split; auto.
  assert (A1 : xs (c - 1)%nat <= v) by (apply Ss; lia).
  assert (A2 : v < xs (c - 1)%nat + 2 * PI / INR n).
  { rewrite Hx, <- step. replace (S (c - 1)) with c by lia. destruct (Nat.eq_dec c n) as [->|].
    - unfold lon. replace (2 * PI * INR n / INR n) with (2 * PI) by (field; lra). lra.
    - rewrite <- Hx. destruct (Rlt_le_dec v (xs c)) as [|K]; auto. apply Ss in K; lia. }
  split.
  - unfold located_lon, lon_weight. rewrite D, LL, pyi by lia. split; [lia|]. split.
    + f_equal. lia.
    + rewrite Hx in *. split; [|field; split; lra]. split.
      * apply Rdiv_le_0_compat; lra.
      * apply Rmult_lt_reg_r with (2 * PI / INR n); auto. unfold Rdiv at 1. rewrite Rmult_assoc, Rinv_l by lra. lra.
  - unfold lon_weight_ok. rewrite LL, LR, D. unfold pyidx_ok, Reqb. destruct (Req_EM_T (2 * PI / INR n) 0); [lra|].
    repeat (apply andb_true_intro; split); try reflexivity; [apply Z.leb_le|apply Z.ltb_lt|apply Z.leb_le|apply Z.ltb_lt]; lia.
Qed.

(** ** The constructor *)
Definition eff_n (h ho : nat) (xs ys : nat -> R) : nat := if need_expand h ho xs ys then (h + 2)%nat else h.
Definition eff_lats (h ho : nat) (xs ys : nat -> R) : nat -> R := if need_expand h ho xs ys then lats_with_poles h xs else xs.

Lemma lats_ext_eq : forall h xs a, lats_ext h xs a = lats_with_poles h xs a.
Proof. reflexivity. Qed.

Lemma need_expand_false : forall h ho xs ys, need_expand h ho xs ys = false ->
  forall i, (i < ho)%nat -> xs 0%nat <= ys i <= xs (h - 1)%nat.
Proof.
  intros h ho xs ys E i Hi. unfold need_expand in E. apply orb_false_elim in E. destruct E as [E1 E2].
  assert (F : forall p, existsb p (seq 0 ho) = false -> p i = false).
  { intros p Hp. destruct (p i) eqn:K; auto. assert (existsb p (seq 0 ho) = true). { apply existsb_exists. exists i. split; auto. apply in_seq; lia. } congruence. }
  apply F in E1, E2. apply Rltb_false in E1, E2. lra.
Qed.
Lemma need_expand_true : forall h ho xs ys, good_lats h xs -> (forall i, (i < ho)%nat -> 0 <= ys i <= PI) -> need_expand h ho xs ys = true ->
  0 < xs 0%nat /\ xs (h - 1)%nat < PI.
Proof.
  intros h ho xs ys (H1 & Hm & H0 & HP & Hiff) Hy E. unfold need_expand in E. apply orb_prop in E.
  destruct E as [E|E]; apply existsb_exists in E; destruct E as (i & Hi & L); apply in_seq in Hi; apply Rltb_true in L;
    specialize (Hy i ltac:(lia)).
  - assert (xs (h - 1)%nat < PI) by lra. split; auto. destruct (Rle_lt_or_eq_dec _ _ H0) as [|K]; auto. symmetry in K. apply Hiff in K. lra.
  - assert (0 < xs 0%nat) by lra. split; auto. destruct (Rle_lt_or_eq_dec _ _ HP) as [|K]; auto. apply Hiff in K. lra.
Qed.

Lemma eff_lats_inc : forall h ho xs ys, good_lats h xs -> (forall i, (i < ho)%nat -> 0 <= ys i <= PI) ->
  forall i j, (i < j)%nat -> (j < eff_n h ho xs ys)%nat -> eff_lats h ho xs ys i < eff_lats h ho xs ys j.
Proof.
  intros h ho xs ys G Hy i j Hij Hj. unfold eff_n, eff_lats in *. destruct (need_expand h ho xs ys) eqn:E; [|apply G; auto].
  destruct (need_expand_true h ho xs ys G Hy E) as [P0 P1]. destruct G as (H1 & Hm & H0 & HP & _).
  assert (lo : forall a, (a < h)%nat -> xs 0%nat <= xs a). { intros a Ha. destruct a; [lra|]. left. apply Hm; lia. }
  assert (hi : forall a, (a < h)%nat -> xs a <= xs (h - 1)%nat). { intros a Ha. destruct (Nat.eq_dec a (h - 1)) as [->|]; [lra|]. left. apply Hm; lia. }
  pose proof PI_RGT_0. unfold lats_with_poles.
  destruct (Nat.eqb_spec i 0), (Nat.eqb_spec j 0); try lia; destruct (Nat.eqb_spec i (h + 1)), (Nat.eqb_spec j (h + 1)); try lia; try lra.
  - pose proof (lo (j - 1)%nat ltac:(lia)). lra.
  - pose proof (hi (i - 1)%nat ltac:(lia)). lra.
  - apply Hm; lia.
Qed.
Lemma eff_range : forall h ho xs ys i, good_lats h xs -> (forall i, (i < ho)%nat -> 0 <= ys i <= PI) -> (i < ho)%nat ->
  eff_lats h ho xs ys 0 <= ys i <= eff_lats h ho xs ys (eff_n h ho xs ys - 1).
Proof.
  intros h ho xs ys i G Hy Hi. unfold eff_n, eff_lats. destruct (need_expand h ho xs ys) eqn:E.
  - unfold lats_with_poles. simpl. destruct (Nat.eqb_spec (h + 2 - 1) 0); [lia|]. destruct (Nat.eqb_spec (h + 2 - 1) (h + 1)); [|lia]. apply Hy; auto.
  - eapply need_expand_false; eauto.
Qed.

Record res_spec (r : resampler) (mode : rmode) (hi wi ho wo : nat) (xs ys : nat -> R) : Prop := {
  sp_mode : rs_mode r = mode; sp_hi : rs_nlat_in r = hi; sp_wi : rs_nlon_in r = wi; sp_ho : rs_nlat_out r = ho; sp_wo : rs_nlon_out r = wo;
  sp_ex : rs_expand r = need_expand hi ho xs ys;
  sp_lat : forall i, (i < ho)%nat -> exists k, rs_lat_idx r i = Z.of_nat k /\
      located (eff_n hi ho xs ys) (eff_lats hi ho xs ys) (ys i) k (rs_lat_w r i);
  sp_lon : forall j, (j < wo)%nat -> exists b c, rs_lon_l r j = Z.of_nat b /\ rs_lon_r r j = Z.of_nat c /\
      located_lon wi (lon wo j) b c (rs_lon_w r j) }.

Lemma resample_init_spec : forall gl hi wi ho wo gi go mode qi qo,
  mode <> MUnknown -> precompute_latitudes gl hi gi = Some qi -> precompute_latitudes gl ho go = Some qo ->
  good_lats hi (rn qi) -> (forall i, (i < ho)%nat -> 0 <= rn qo i <= PI) ->
  (2 <= eff_n hi ho (rn qi) (rn qo))%nat -> (2 <= wi)%nat -> (1 <= wo)%nat ->
  exists r, resample_init gl hi wi ho wo gi go mode = Some r /\
    res_spec r mode hi wi ho wo (rn qi) (rn qo) /\
    rs_skip r = ((wi =? wo)%nat && (hi =? ho)%nat && grid_eqb gi go).
Proof.
  intros gl hi wi ho wo gi go mode qi qo Hm Ei Eo G Hy H2 Hwi Hwo.
  set (xs := rn qi) in *. set (ys := rn qo) in *.
  pose proof (eff_lats_inc hi ho xs ys G Hy) as Inc. pose proof (fun i Hi => eff_range hi ho xs ys i G Hy Hi) as Rng.
  assert (F1 : forallb (fun i => lat_weight_ok (eff_n hi ho xs ys) (eff_lats hi ho xs ys) (ys i)) (seq 0 ho) = true).
  { apply forallb_forall. intros i Hi. apply in_seq in Hi. destruct (lat_located _ _ (ys i) H2 Inc (Rng i ltac:(lia))) as (k & _ & _ & K). exact K. }
  assert (F2 : forallb (fun j => lon_weight_ok wi (precompute_longitudes wi) (precompute_longitudes wo j)) (seq 0 wo) = true).
  { apply forallb_forall. intros j Hj. apply in_seq in Hj. rewrite lon_eq by lia.
    destruct (lon_located wi (lon wo j) Hwi (lon_range wo j ltac:(lia))) as (b & c & _ & _ & _ & K). exact K. }
  eexists. split.
  - unfold resample_init. rewrite Ei, Eo. cbn [bindo].
    change (lats_ext hi (rn qi)) with (lats_with_poles hi (rn qi)).
    fold xs ys. fold (eff_n hi ho xs ys). fold (eff_lats hi ho xs ys).
    rewrite F1, F2. destruct (Nat.eqb_spec wi 0); [lia|]. destruct (Nat.eqb_spec wo 0); [lia|]. cbn [orb andb].
    destruct mode; [reflexivity|reflexivity|congruence].
  - split; [|reflexivity]. constructor; cbn; auto.
    + intros i Hi. destruct (lat_located _ _ (ys i) H2 Inc (Rng i ltac:(lia))) as (k & E & L & _). exists k; auto.
    + intros j Hj. rewrite lon_eq by lia.
      destruct (lon_located wi (lon wo j) Hwi (lon_range wo j ltac:(lia))) as (b & c & E1 & E2 & L & _). exists b, c; auto.
Qed.

(** ** Values *)
Definition field (x : tensor R) (L : list nat) (a b : nat) : R := val x (L ++ [a; b]).
Definition eff_field (e : bool) (h w : nat) (f : nat -> nat -> R) : nat -> nat -> R := if e then with_poles h w f else f.

Lemma pyidx_nat : forall n k, pyidx n (Z.of_nat k) = k.
Proof. intros. unfold pyidx. destruct (Z.ltb_spec (Z.of_nat k) 0); lia. Qed.

Lemma resample_value : forall r mode hi wi ho wo xs ys lead X,
  res_spec r mode hi wi ho wo xs ys -> (1 <= hi)%nat -> (2 <= wi)%nat -> rs_skip r = false -> shp X = lead ++ [hi; wi] ->
  exists Y, resample r X = Some Y /\ shp Y = lead ++ [ho; wo] /\
  forall L i j, length L = length lead -> (i < ho)%nat -> (j < wo)%nat ->
    exists k b c, rs_lat_idx r i = Z.of_nat k /\ rs_lon_l r j = Z.of_nat b /\ rs_lon_r r j = Z.of_nat c /\
      let f := eff_field (need_expand hi ho xs ys) hi wi (field X L) in
      let row := fun col => combine mode (f k col) (f (k + 1)%nat col) (rs_lat_w r i) in
      field Y L i j = combine mode (row b) (row c) (rs_lon_w r j).
Proof.
  intros r mode hi wi ho wo xs ys lead X S Hhi Hwi Hsk SX. destruct S as [S1 S2 S3 S4 S5 S6 SL SN].
  unfold resample. rewrite Hsk. assert (ND : ndim X = (length lead + 2)%nat) by (unfold ndim; rewrite SX, app_length; auto).
  rewrite ND. destruct (Nat.leb_spec 2 (length lead + 2)); [|lia]. cbn [guard bindo].
  replace (length lead + 2 - 2)%nat with (length lead) by lia. replace (length lead + 2 - 1)%nat with (Datatypes.S (length lead)) by lia.
  set (X1 := if rs_expand r then expand_poles (length lead) (Datatypes.S (length lead)) X else X).
  assert (DX0 : dimsz X (length lead) = hi) by (unfold dimsz; rewrite SX; apply nth_pre0).
  assert (DX1 : dimsz X (Datatypes.S (length lead)) = wi) by (unfold dimsz; rewrite SX; apply nth_pre1).
  assert (SX1 : shp X1 = lead ++ [eff_n hi ho xs ys; wi]).
  { unfold X1, eff_n. rewrite S6. destruct (need_expand hi ho xs ys); auto. rewrite expand_shp, DX0, SX. apply upd_pre0. }
  assert (D0 : dimsz X1 (length lead) = eff_n hi ho xs ys) by (unfold dimsz; rewrite SX1; apply nth_pre0).
  assert (VX1 : forall L a b, length L = length lead -> val X1 (L ++ [a; b]) = eff_field (need_expand hi ho xs ys) hi wi (field X L) a b).
  { intros L a b HL. unfold X1, eff_field. rewrite S6. destruct (need_expand hi ho xs ys); [|reflexivity].
    unfold expand_poles, expand_with, row_sum. cbn [val]. rewrite DX0, DX1, <- HL, nth_pre0.
    unfold with_poles, mean_row, field. destruct (Nat.eqb_spec a 0); [|destruct (Nat.eqb_spec a (hi + 1))].
    - f_equal. apply bsum_ext. intros; now rewrite upd_pre0, upd_pre1.
    - f_equal. apply bsum_ext. intros; now rewrite upd_pre0, upd_pre1.
    - now rewrite upd_pre0. }
  assert (okb : forall n k, (k < n)%nat -> pyidx_ok n (Z.of_nat k) = true).
  { intros n k H'. unfold pyidx_ok. apply andb_true_intro; split; [apply Z.leb_le|apply Z.ltb_lt]; lia. }
  rewrite upscale_eq; rewrite ?S4.
  2:{ intros i Hi. destruct (SL i Hi) as (k & -> & LK & _). rewrite D0. apply okb. lia. }
  2:{ intros i Hi. destruct (SL i Hi) as (k & E & LK & _). rewrite E, D0. replace (Z.of_nat k + 1)%Z with (Z.of_nat (k + 1)) by lia. apply okb. lia. }
  cbn [bindo]. set (X2 := upsK _ _ _ _ _ _ _ _).
  assert (SX2 : shp X2 = lead ++ [ho; wi]) by (unfold X2, upsK, along; cbn [shp]; rewrite SX1; apply upd_pre0).
  assert (D1 : dimsz X2 (Datatypes.S (length lead)) = wi) by (unfold dimsz; rewrite SX2; apply nth_pre1).
  rewrite upscale_eq; rewrite ?S5.
  2:{ intros j Hj. destruct (SN j Hj) as (b & c & -> & _ & LK & _). rewrite D1. apply okb. lia. }
  2:{ intros j Hj. destruct (SN j Hj) as (b & c & _ & -> & _ & LK & _). rewrite D1. apply okb. rewrite LK. apply Nat.mod_upper_bound. lia. }
  eexists. split; [reflexivity|]. split.
  - unfold upsK at 1, along; cbn [shp]. rewrite SX2. apply upd_pre1.
  - intros L i j HL Hi Hj. destruct (SL i Hi) as (k & Ek & LK & _). destruct (SN j Hj) as (b & c & Eb & Ec & _).
    exists k, b, c. split; auto. split; auto. split; auto. cbv zeta.
    unfold field at 1, upsK at 1, along; cbn [val]. rewrite <- HL, nth_pre1, !upd_pre1, HL, D1, Eb, Ec, !pyidx_nat.
    unfold X2, upsK, along; cbn [val]. rewrite <- HL, !nth_pre0, !upd_pre0, HL, D0, Ek.
    replace (Z.of_nat k + 1)%Z with (Z.of_nat (k + 1)) by lia. rewrite !pyidx_nat, !VX1 by auto. rewrite S1. reflexivity.
Qed.

(** ** Maximum principle *)
Lemma lerp_bounds : forall a b w lo hi, 0 <= w <= 1 -> lo <= a <= hi -> lo <= b <= hi -> lo <= combine MBilinear a b w <= hi.
Proof. intros. unfold combine. split; nra. Qed.

Lemma rsum_bounds : forall n f lo hi, (forall i, (i < n)%nat -> lo <= f i <= hi) -> INR n * lo <= rsum n f <= INR n * hi.
Proof.
  induction n; intros f lo hi H. simpl; lra.
  rewrite S_INR. cbn [bsum_]. pose proof (IHn f lo hi ltac:(intros; apply H; lia)). pose proof (H n ltac:(lia)). lra.
Qed.
Lemma mean_bounds : forall w f a lo hi, (1 <= w)%nat -> (forall b, (b < w)%nat -> lo <= f a b <= hi) -> lo <= mean_row w f a <= hi.
Proof.
  intros w f a lo hi Hw H. unfold mean_row. pose proof (rsum_bounds w (f a) lo hi H). assert (0 < INR w) by (apply lt_0_INR; lia).
  split; apply Rmult_le_reg_r with (INR w); auto; unfold Rdiv; rewrite Rmult_assoc, Rinv_l by lra; lra.
Qed.
Lemma eff_bounds : forall (e : bool) h w f lo hi, (1 <= h)%nat -> (1 <= w)%nat -> (forall a b, (a < h)%nat -> (b < w)%nat -> lo <= f a b <= hi) ->
  forall a b, (a < (if e then h + 2 else h))%nat -> (b < w)%nat -> lo <= eff_field e h w f a b <= hi.
Proof.
  intros e h w f lo hi Hh Hw H a b Ha Hb. unfold eff_field. destruct e; auto. unfold with_poles.
  destruct (Nat.eqb_spec a 0); [|destruct (Nat.eqb_spec a (h + 1))].
  - apply mean_bounds; [auto|intros; apply H; lia].
  - apply mean_bounds; [auto|intros; apply H; lia].
  - apply H; lia.
Qed.

Lemma resample_max_principle : forall r hi wi ho wo xs ys lead X Y,
  res_spec r MBilinear hi wi ho wo xs ys -> (1 <= hi)%nat -> (2 <= wi)%nat -> rs_skip r = false -> shp X = lead ++ [hi; wi] ->
  resample r X = Some Y ->
  forall L lo up, length L = length lead ->
  (forall a b, (a < hi)%nat -> (b < wi)%nat -> lo <= val X (L ++ [a; b]) <= up) ->
  forall i j, (i < ho)%nat -> (j < wo)%nat -> lo <= val Y (L ++ [i; j]) <= up.
Proof.
  intros r hi wi ho wo xs ys lead X Y S Hhi Hwi Hsk SX E L lo up HL HX i j Hi Hj.
  destruct (resample_value r _ _ _ _ _ _ _ lead X S Hhi Hwi Hsk SX) as (Y' & E' & SY & V). assert (Y' = Y) by congruence. subst Y'.
  destruct (V L i j HL Hi Hj) as (k & b & c & Ek & Eb & Ec & F). cbv zeta in F. unfold field at 1 in F. rewrite F.
  destruct (sp_lat _ _ _ _ _ _ _ _ S i Hi) as (k' & Ek' & L1 & L2 & _). assert (k' = k) by lia. subst k'.
  destruct (sp_lon _ _ _ _ _ _ _ _ S j Hj) as (b' & c' & Eb' & Ec' & M1 & M2 & M3 & _). assert (b' = b) by lia. assert (c' = c) by lia.
  assert (Hc : (c < wi)%nat) by (rewrite <- H0, M2; apply Nat.mod_upper_bound; lia). subst b'.
  unfold eff_n in L1.
  apply lerp_bounds; [lra| |]; (apply lerp_bounds; [auto| |]; apply eff_bounds; try lia; auto).
Qed.

(** ** Coincident nodes *)
Lemma combine_0 : forall mode a b, combine mode a b 0 = a.
Proof.
  intros mode a b. assert (S : slerp_start 0 (b - a) * a + slerp_end 0 (b - a) * b = a).
  { unfold slerp_start, slerp_end. destruct (Rltb (/ 10 ^ 4) (sin (b - a))) eqn:E.
    - apply Rltb_true in E. assert (0 < / 10 ^ 4) by (apply Rinv_0_lt_compat; apply pow_lt; lra).
      rewrite Rmult_0_l, sin_0, Rminus_0_r, Rmult_1_l. field. lra.
    - ring. }
  destruct mode; unfold combine; auto. ring.
Qed.
Lemma combine_1 : forall mode a b, combine mode a b 1 = b.
Proof.
  intros mode a b. assert (S : slerp_start 1 (b - a) * a + slerp_end 1 (b - a) * b = b).
  { unfold slerp_start, slerp_end. destruct (Rltb (/ 10 ^ 4) (sin (b - a))) eqn:E.
    - apply Rltb_true in E. assert (0 < / 10 ^ 4) by (apply Rinv_0_lt_compat; apply pow_lt; lra).
      replace ((1 - 1) * (b - a)) with 0 by ring. rewrite sin_0, Rmult_1_l. field. lra.
    - ring. }
  destruct mode; unfold combine; auto. ring.
Qed.

Lemma located_node : forall n (xs : nat -> R) k t a, (forall i j, (i < j)%nat -> (j < n)%nat -> xs i < xs j) -> (a < n)%nat ->
  located n xs (xs a) k t -> (k = a /\ t = 0) \/ ((k + 1)%nat = a /\ t = 1).
Proof.
  intros n xs k t a Hm Ha (H1 & H2 & H3 & H4).
  destruct (lt_eq_lt_dec a k) as [[K|K]|K].
  - assert (xs a < xs k) by (apply Hm; lia). nra.
  - left. split; auto. subst a. nra.
  - destruct (Nat.eq_dec (k + 1) a) as [E|N].
    + right. split; auto. subst a. nra.
    + assert (xs (k + 1)%nat < xs a) by (apply Hm; lia). nra.
Qed.
Lemma located_lon_node : forall n b c t a, (1 <= n)%nat -> located_lon n (lon n a) b c t -> b = a /\ t = 0.
Proof.
  intros n b c t a Hn (H1 & H2 & H3 & H4). assert (0 < INR n) by (apply lt_0_INR; lia). pose proof PI_RGT_0.
  assert (E : INR a = INR b + t).
  { apply Rmult_eq_reg_r with (2 * PI / INR n). unfold lon in H4.
    replace (INR a * (2 * PI / INR n)) with (2 * PI * INR a / INR n) by (field; lra). rewrite H4. field; lra.
    assert (0 < 2 * PI / INR n) by (apply Rdiv_lt_0_compat; lra). lra. }
  destruct (lt_eq_lt_dec a b) as [[K|K]|K].
  - apply lt_INR in K. lra.
  - subst. split; auto. lra.
  - apply le_INR in K. rewrite S_INR in K. lra.
Qed.

Lemma resample_coincident : forall r mode hi wi ho wo xs ys lead X Y,
  res_spec r mode hi wi ho wo xs ys -> good_lats hi xs -> (forall i, (i < ho)%nat -> 0 <= ys i <= PI) ->
  (2 <= wi)%nat -> (1 <= wo)%nat -> rs_skip r = false -> shp X = lead ++ [hi; wi] -> resample r X = Some Y ->
  forall L i j a b, length L = length lead -> (i < ho)%nat -> (j < wo)%nat -> (a < hi)%nat -> (b < wi)%nat ->
  ys i = xs a -> lon wo j = lon wi b -> val Y (L ++ [i; j]) = val X (L ++ [a; b]).
Proof.
  intros r mode hi wi ho wo xs ys lead X Y S G Hy Hwi Hwo Hsk SX E L i j a b HL Hi Hj Ha Hb Ey El.
  assert (Hhi : (1 <= hi)%nat) by (apply G).
  destruct (resample_value r _ _ _ _ _ _ _ lead X S Hhi Hwi Hsk SX) as (Y' & E' & SY & V). assert (Y' = Y) by congruence. subst Y'.
  destruct (V L i j HL Hi Hj) as (k & b0 & c & Ek & Eb & Ec & F). cbv zeta in F. unfold field at 1 in F. rewrite F.
  destruct (sp_lat _ _ _ _ _ _ _ _ S i Hi) as (k' & Ek' & LL). assert (k' = k) by lia. subst k'.
  destruct (sp_lon _ _ _ _ _ _ _ _ S j Hj) as (b' & c' & Eb' & Ec' & MM). assert (b' = b0) by lia. assert (c' = c) by lia. subst b' c'.
  rewrite El in MM. apply located_lon_node in MM; [|lia]. destruct MM as [-> ->]. rewrite combine_0.
  pose proof (eff_lats_inc hi ho xs ys G Hy) as Inc.
  set (a' := if need_expand hi ho xs ys then (a + 1)%nat else a).
  assert (A1 : (a' < eff_n hi ho xs ys)%nat) by (unfold a', eff_n; destruct (need_expand hi ho xs ys); lia).
  assert (A2 : ys i = eff_lats hi ho xs ys a').
  { rewrite Ey. unfold a', eff_lats. destruct (need_expand hi ho xs ys); auto. unfold lats_with_poles.
    destruct (Nat.eqb_spec (a + 1) 0); [lia|]. destruct (Nat.eqb_spec (a + 1) (hi + 1)); [lia|]. f_equal; lia. }
  assert (A3 : eff_field (need_expand hi ho xs ys) hi wi (field X L) a' b = val X (L ++ [a; b])).
  { unfold a', eff_field. destruct (need_expand hi ho xs ys); auto. unfold with_poles.
    destruct (Nat.eqb_spec (a + 1) 0); [lia|]. destruct (Nat.eqb_spec (a + 1) (hi + 1)); [lia|]. unfold field. do 3 f_equal; lia. }
  rewrite A2 in LL. apply located_node in LL; auto. destruct LL as [[-> ->]|[<- ->]]; rewrite ?combine_0, ?combine_1; auto.
Qed.

(** ** Latitudes of the supported grids *)
Lemma acos_cos_ok : forall x, 0 <= x <= PI -> acos (cos x) = x.
Proof. intros. apply acos_cos; auto. Qed.
Lemma flip_good : forall n f, (1 <= n)%nat -> (forall i, (i < n)%nat -> -1 <= f i <= 1) ->
  (forall i j, (i < j)%nat -> (j < n)%nat -> f i < f j) -> (f 0%nat = -1 <-> f (n - 1)%nat = 1) ->
  good_lats n (flip n (fun i => acos (f i))).
Proof.
  intros n f Hn Hr Hm Hiff. unfold good_lats, flip.
  assert (am : forall u v, -1 <= u <= 1 -> -1 <= v <= 1 -> u < v -> acos v < acos u).
  { intros u v Hu Hv Huv. destruct (Rlt_le_dec (acos v) (acos u)) as [|K]; auto.
    pose proof (acos_bound u). pose proof (acos_bound v). assert (cos (acos v) <= cos (acos u)).
    { destruct (Rle_lt_or_eq_dec _ _ K) as [K'|K']. left. apply cos_decreasing_1; lra. rewrite K'; lra. }
    rewrite !cos_acos in H1 by auto. lra. }
  split; auto. split.
  - intros i j Hij Hj. apply am; try apply Hr; try apply Hm; lia.
  - split. apply acos_bound. split. apply acos_bound. rewrite Nat.sub_0_r. replace (n - 1 - (n - 1))%nat with 0%nat by lia.
    split; intros H.
    + assert (f (n - 1)%nat = 1). { rewrite <- (cos_acos (f (n - 1)%nat)) by (apply Hr; lia). rewrite H. apply cos_0. }
      apply Hiff in H0. rewrite H0. apply acos_eq_inv || idtac. rewrite <- (acos_cos PI). f_equal. rewrite cos_PI. auto. pose proof PI_RGT_0; lra.
    + assert (f 0%nat = -1). { rewrite <- (cos_acos (f 0%nat)) by (apply Hr; lia). rewrite H. apply cos_PI. }
      apply Hiff in H0. rewrite H0. rewrite <- (acos_cos 0). f_equal. rewrite cos_0. auto. pose proof PI_RGT_0; lra.
Qed.

Lemma rescale_id : forall q i, rn (rescale (-1) 1 q) i = rn q i.
Proof. intros. unfold rescale; cbn [rn]. lra. Qed.

Lemma lats_equiangular : forall gl n, (2 <= n)%nat ->
  exists q, precompute_latitudes gl n GEquiangular = Some q /\ good_lats n (rn q) /\
    forall i, (i < n)%nat -> rn q i = PI * INR i / INR (n - 1).
Proof.
  intros gl n Hn. unfold precompute_latitudes, precompute_quadrature_weights, clenshaw_curtiss_weights. cbn [andb].
  destruct (Nat.leb_spec n 1); [lia|]. eexists. split; [reflexivity|]. cbn [rn].
  assert (Pn : 0 < INR (n - 1)) by (apply lt_0_INR; lia). pose proof PI_RGT_0 as HPI.
  assert (Eq : forall i, (i < n)%nat -> flip n (fun i => acos ((1 - -1) * 0.5 * cos (linspace PI 0 n i) + (1 + -1) * 0.5)) i = PI * INR i / INR (n - 1)).
  { intros i Hi. unfold flip. replace ((1 - -1) * 0.5 * cos (linspace PI 0 n (n - 1 - i)) + (1 + -1) * 0.5) with (cos (linspace PI 0 n (n - 1 - i))) by lra.
    unfold linspace. replace (PI + (0 - PI) * INR (n - 1 - i) / INR (n - 1)) with (PI * INR i / INR (n - 1)).
    apply acos_cos. split. apply Rdiv_le_0_compat; auto. pose proof (pos_INR i); nra.
    apply Rmult_le_reg_r with (INR (n - 1)); auto. unfold Rdiv. rewrite Rmult_assoc, Rinv_l by lra.
    assert (INR i <= INR (n - 1)) by (apply le_INR; lia). nra.
    rewrite (minus_INR (n - 1) i) by lia. field. lra. }
  split; auto. unfold good_lats. split; [lia|]. cbv beta. split.
  - intros i j Hij Hj. rewrite !Eq by lia. apply lt_INR in Hij. apply Rmult_lt_compat_r. apply Rinv_0_lt_compat; auto. nra.
  - rewrite !Eq by lia. simpl (INR 0). replace (PI * INR (n - 1) / INR (n - 1)) with PI by (field; lra).
    replace (PI * 0 / INR (n - 1)) with 0 by (field; lra). repeat split; lra.
Qed.

Lemma lats_trapezoidal : forall gl n, (2 <= n)%nat ->
  exists q, precompute_latitudes gl n GTrapezoidal = Some q /\ good_lats n (rn q).
Proof.
  intros gl n Hn. unfold precompute_latitudes, precompute_quadrature_weights, trapezoidal_weights. cbn [andb].
  destruct (Nat.eqb_spec n 0); [lia|]. destruct (Nat.eqb_spec (n - 1 + 0) 0); [lia|]. cbn [orb].
  eexists. split; [reflexivity|]. cbn [rn]. rewrite Nat.add_0_r.
  assert (Pn : 0 < INR (n - 1)) by (apply lt_0_INR; lia).
  apply flip_good; [lia| | |].
  - intros i Hi. assert (INR i <= INR (n - 1)) by (apply le_INR; lia). pose proof (pos_INR i).
    assert (0 <= (1 - -1) * INR i / INR (n - 1)) by (apply Rdiv_le_0_compat; nra).
    assert ((1 - -1) * INR i / INR (n - 1) <= 2). { apply Rmult_le_reg_r with (INR (n - 1)); auto. unfold Rdiv. rewrite Rmult_assoc, Rinv_l by lra. nra. }
    lra.
  - intros i j Hij Hj. apply lt_INR in Hij. apply Rplus_lt_compat_l. apply Rmult_lt_compat_r. apply Rinv_0_lt_compat; auto. nra.
  - split; intros _. field; lra. change (INR 0) with 0. field; lra.
Qed.

(** What is assumed of numpy's leggauss: nodes strictly increasing inside (-1, 1). *)
Lemma lats_gauss : forall gl n, (1 <= n)%nat -> (forall i, (i < n)%nat -> -1 < rn (gl n) i < 1) ->
  (forall i j, (i < j)%nat -> (j < n)%nat -> rn (gl n) i < rn (gl n) j) ->
  exists q, precompute_latitudes gl n GLegendreGauss = Some q /\ good_lats n (rn q).
Proof.
  intros gl n Hn Hr Hm. unfold precompute_latitudes, precompute_quadrature_weights, legendre_gauss_weights. cbn [andb].
  destruct (Nat.eqb_spec n 0); [lia|]. eexists. split; [reflexivity|].
  change (good_lats n (flip n (fun i => acos (rn (rescale (-1) 1 (gl n)) i)))).
  apply flip_good; auto.
  - intros i Hi. rewrite rescale_id. specialize (Hr i Hi). lra.
  - intros. rewrite !rescale_id. auto.
  - rewrite !rescale_id. pose proof (Hr 0%nat ltac:(lia)). pose proof (Hr (n - 1)%nat ltac:(lia)). lra.
Qed.

(** ** Statements in terms of grids *)
Lemma supported_good : forall gl n g, supported gl n g ->
  exists q, precompute_latitudes gl n g = Some q /\ rn q = lats gl n g /\ good_lats n (lats gl n g).
Proof.
  intros gl n g H.
  assert (K : exists q, precompute_latitudes gl n g = Some q /\ good_lats n (rn q)).
  { destruct g; simpl in H.
    - destruct H as (H1 & H2 & H3). apply lats_gauss; auto.
    - destruct H as (H1 & H2). unfold precompute_latitudes, precompute_quadrature_weights. cbn [andb].
      assert (exists q, lobatto_default n (-1) 1 = Some q) as [q E].
      { unfold lobatto_default, lobatto_weights. destruct (Nat.leb_spec n 1); [lia|]. cbn [orb Nat.eqb].
        destruct (lobatto_iter n lobatto_tol 100 (lobatto_guess n)). eauto. }
      rewrite E. eexists. split; [reflexivity|]. cbn [rn]. destruct (H2 q E) as (A & B & C).
      apply flip_good; auto; [lia| |lra]. intros i Hi. split.
      + destruct i; [lra|]. rewrite <- A. left. apply C; lia.
      + destruct (Nat.eq_dec i (n - 1)) as [->|]; [lra|]. rewrite <- B. left. apply C; lia.
    - destruct (lats_equiangular gl n H) as (q & E & G & _). eauto.
    - apply lats_trapezoidal; auto.
    - contradiction. }
  destruct K as (q & E & G). exists q. unfold lats. rewrite E. auto.
Qed.
Lemma good_range : forall n xs i, good_lats n xs -> (i < n)%nat -> 0 <= xs i <= PI.
Proof.
  intros n xs i (H1 & Hm & H0 & HP & _) Hi. split.
  - destruct i; auto. apply Rle_trans with (xs 0%nat); auto. left. apply Hm; lia.
  - destruct (Nat.eq_dec i (n - 1)) as [->|]; auto. apply Rle_trans with (xs (n - 1)%nat); auto. left. apply Hm; lia.
Qed.
Lemma good_inj : forall n xs i a, good_lats n xs -> (i < n)%nat -> (a < n)%nat -> xs i = xs a -> i = a.
Proof.
  intros n xs i a (H1 & Hm & _) Hi Ha E. destruct (lt_eq_lt_dec i a) as [[K|K]|K]; auto.
  - specialize (Hm i a K Ha). lra.
  - specialize (Hm a i K Hi). lra.
Qed.

Section Grids.
Variables (gl : nat -> rule) (hi wi ho wo : nat) (gi go : grid) (mode : rmode).
Hypotheses (Si : supported gl hi gi) (So : supported gl ho go) (Hhi : (2 <= hi)%nat) (Hwi : (2 <= wi)%nat) (Hwo : (1 <= wo)%nat) (Hmode : mode <> MUnknown).

Lemma init_ok : exists r, resample_init gl hi wi ho wo gi go mode = Some r /\
  res_spec r mode hi wi ho wo (lats gl hi gi) (lats gl ho go) /\
  rs_skip r = ((wi =? wo)%nat && (hi =? ho)%nat && grid_eqb gi go).
Proof.
  destruct (supported_good _ _ _ Si) as (qi & Ei & <- & Gi). destruct (supported_good _ _ _ So) as (qo & Eo & <- & Go).
  apply resample_init_spec; auto.
  - intros. eapply good_range; eauto.
  - unfold eff_n. destruct (need_expand hi ho (rn qi) (rn qo)); lia.
Qed.

Variable r : resampler.
Hypothesis Er : resample_init gl hi wi ho wo gi go mode = Some r.
Lemma init_spec : res_spec r mode hi wi ho wo (lats gl hi gi) (lats gl ho go) /\
  rs_skip r = ((wi =? wo)%nat && (hi =? ho)%nat && grid_eqb gi go).
Proof. destruct init_ok as (r' & E & S). assert (r' = r) by congruence. subst. auto. Qed.
Lemma grid_eqb_eq : forall g h, grid_eqb g h = true -> g = h.
Proof. destruct g, h; simpl; congruence. Qed.
Lemma skip_same : rs_skip r = true -> wi = wo /\ hi = ho /\ gi = go.
Proof.
  destruct init_spec as [_ ->]. intros H. apply andb_prop in H. destruct H as [H G]. apply andb_prop in H. destruct H as [A B].
  apply Nat.eqb_eq in A, B. apply grid_eqb_eq in G. auto.
Qed.

Variables (lead : list nat) (X : tensor R).
Hypothesis SX : shp X = lead ++ [hi; wi].

Lemma resample_total : exists Y, resample r X = Some Y /\ shp Y = lead ++ [ho; wo].
Proof.
  destruct init_spec as [S _]. destruct (rs_skip r) eqn:K.
  - destruct (skip_same K) as (-> & -> & _). exists X. unfold resample. rewrite K. auto.
  - destruct (resample_value r _ _ _ _ _ _ _ lead X S ltac:(lia) Hwi K SX) as (Y & E & SY & _). eauto.
Qed.

Variable Y : tensor R.
Hypothesis EY : resample r X = Some Y.

Lemma max_principle : mode = MBilinear -> forall L lo up, length L = length lead ->
  (forall a b, (a < hi)%nat -> (b < wi)%nat -> lo <= val X (L ++ [a; b]) <= up) ->
  forall i j, (i < ho)%nat -> (j < wo)%nat -> lo <= val Y (L ++ [i; j]) <= up.
Proof.
  intros Hm L lo up HL HX i j Hi Hj. destruct init_spec as [S _]. destruct (rs_skip r) eqn:K.
  - destruct (skip_same K) as (<- & <- & _). unfold resample in EY. rewrite K in EY. inversion EY; subst. auto.
  - rewrite Hm in S. eapply resample_max_principle; eauto. lia.
Qed.
Lemma coincident : forall L i j a b, length L = length lead -> (i < ho)%nat -> (j < wo)%nat -> (a < hi)%nat -> (b < wi)%nat ->
  lats gl ho go i = lats gl hi gi a -> lon wo j = lon wi b -> val Y (L ++ [i; j]) = val X (L ++ [a; b]).
Proof.
  intros L i j a b HL Hi Hj Ha Hb El Eo. destruct init_spec as [S _].
  destruct (supported_good _ _ _ Si) as (_ & _ & _ & Gi). destruct (supported_good _ _ _ So) as (_ & _ & _ & Go).
  destruct (rs_skip r) eqn:K.
  - destruct (skip_same K) as (<- & <- & <-). unfold resample in EY. rewrite K in EY. inversion EY; subst.
    assert (i = a) by (eapply good_inj; eauto).
    assert (j = b). { destruct (lt_eq_lt_dec j b) as [[Q|Q]|Q]; auto; apply (lon_lt wi) in Q; try lia; lra. }
    congruence.
  - eapply resample_coincident; eauto. intros. eapply good_range; eauto.
Qed.
End Grids.

(** The shortcut for equal grids does not change the result. *)
Lemma shortcut_sound : forall gl h w g mode r lead X,
  supported gl h g -> (2 <= h)%nat -> (2 <= w)%nat -> mode <> MUnknown ->
  resample_init gl h w h w g g mode = Some r -> shp X = lead ++ [h; w] ->
  exists Y, resample (set_skip false r) X = Some Y /\ teq Y X.
Proof.
  intros gl h w g mode r lead X Hs Hh Hw Hm Er SX.
  destruct (init_spec gl h w h w g g mode Hs Hs Hh Hw ltac:(lia) Hm r Er) as [S _].
  assert (S' : res_spec (set_skip false r) mode h w h w (lats gl h g) (lats gl h g)) by (destruct S; constructor; auto).
  destruct (supported_good _ _ _ Hs) as (_ & _ & _ & G).
  destruct (resample_value _ _ _ _ _ _ _ _ lead X S' ltac:(lia) Hw eq_refl SX) as (Y & E & SY & _).
  exists Y. split; auto. split. congruence. intros i Hi. rewrite SY in Hi.
  assert (exists L a b, i = L ++ [a; b] /\ length L = length lead) as (L & a & b & -> & HL).
  { pose proof (valid_len _ _ Hi) as Ln. rewrite app_length in Ln. simpl in Ln.
    rewrite <- (firstn_skipn (length lead) i).
    assert (L2 : length (skipn (length lead) i) = 2%nat) by (rewrite skipn_length; lia).
    destruct (skipn (length lead) i) as [|a [|b [|]]]; simpl in L2; try lia.
    exists (firstn (length lead) i), a, b. split; auto. apply firstn_length_le. lia. }
  apply valid_app in Hi; auto. destruct Hi as [_ Hi]. apply valid_cons in Hi. destruct Hi as [Ha Hi]. apply valid_cons in Hi. destruct Hi as [Hb _].
  eapply resample_coincident with (xs := lats gl h g) (ys := lats gl h g); eauto; try lia. intros; eapply good_range; eauto.
Qed.
