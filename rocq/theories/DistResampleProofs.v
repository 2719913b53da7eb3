(** Distributed resampling = shards of the serial resampling. *)
From Coq Require Import List Arith Lia Bool Reals ZArith Lra.
From Coquelicot Require Import Coquelicot.
From Verif Require Import TensorModel TensorProofs BigSum FFTModel TruncModel LegendreModel QuadModel SHTModel
  PrimModel PrimSpec PrimProofs PrimProofs2 PrimAutogradModel AdjointProofs PrimPropProofs ResampleModel SpectralConvModel
  DistSHTModel DistSHTProofs DistSHTProofs2 DistSHTProofs3 DistMiscModel DistMiscProofs.
Import ListNotations.
Local Open Scope nat_scope.

(** ** Interpolation along a dimension *)
Definition idx_ok (n h : nat) (il : nat -> Z) : Prop := forall j, j < n -> pyidx_ok h (il j) = true.
Definition upsK (mode : rmode) (d n h : nat) (il ir : nat -> Z) (w : nat -> R) : tensor R -> tensor R :=
  along d n (fun i v => combine mode (v (pyidx h (il (nth d i 0)))) (v (pyidx h (ir (nth d i 0)))) (w (nth d i 0))).

Lemma upscale_eq : forall mode d n il ir w x, idx_ok n (dimsz x d) il -> idx_ok n (dimsz x d) ir ->
  upscale mode d n il ir w x = Some (upsK mode d n (dimsz x d) il ir w x).
Proof.
  intros mode d n il ir w x Hl Hr. unfold upscale, index_dim.
  assert (forall f, idx_ok n (dimsz x d) f -> forallb (fun j => pyidx_ok (dimsz x d) (f j)) (seq 0 n) = true) as F.
  { intros f Hf. apply forallb_forall. intros j Hj. apply in_seq in Hj. apply Hf; lia. }
  rewrite (F il), (F ir) by auto. reflexivity.
Qed.
Lemma pyidx_lt : forall n z, pyidx_ok n z = true -> pyidx n z < n.
Proof.
  intros n z H. unfold pyidx_ok in H. apply andb_prop in H. destruct H as [H1 H2].
  apply Z.leb_le in H1. apply Z.ltb_lt in H2. unfold pyidx. destruct (Z.ltb_spec z 0); lia.
Qed.
Lemma upsK_proper : forall mode d n h il ir w x y, d < ndim x -> dimsz x d = h -> idx_ok n h il -> idx_ok n h ir -> teq x y ->
  teq (upsK mode d n h il ir w x) (upsK mode d n h il ir w y).
Proof.
  intros mode d n h il ir w x y Hd Hh Hl Hr T. apply along_proper; auto. intros i u v Hi E.
  assert (nth d i 0 < n) by (eapply valid_upd_bound; eauto; auto).
  rewrite !E; auto; rewrite Hh; apply pyidx_lt; auto.
Qed.
Lemma upsK_shard : forall mode d e n h il ir w N r x, d <> e -> d < ndim x -> dimsz x d = h -> idx_ok n h il -> idx_ok n h ir ->
  teq (upsK mode d n h il ir w (shard e N r x)) (shard e N r (upsK mode d n h il ir w x)).
Proof.
  intros mode d e n h il ir w N r x Hne Hd Hh Hl Hr. apply along_shard; auto. intros i u v Hi E.
  rewrite nth_upd_other by auto.
  assert (nth d i 0 < n). { eapply valid_upd_bound with (s := upd e (chunk_len (dimsz x e) N r) (shp x)).
    rewrite upd_length; auto. rewrite upd_comm; eauto. }
  rewrite !E; auto; rewrite Hh; apply pyidx_lt; auto.
Qed.

(** ** Pole expansion *)
Lemma expand_shp : forall dh dw x, shp (expand_poles dh dw x) = upd dh (dimsz x dh + 2) (shp x).
Proof. reflexivity. Qed.

Lemma row_sum_shard : forall dh dw e N r row x i, e <> dh -> e <> dw ->
  row_sum dh dw row (shard e N r x) i = row_sum dh dw row x (upd e (nth e i 0 + chunk_lo (dimsz x e) N r) i).
Proof.
  intros dh dw e N r row x i H1 H2. unfold row_sum. rewrite dimsz_shard_other by auto. apply bsum_ext. intros j Hj.
  unfold shard, narrow. cbn [val]. rewrite !nth_upd_other by auto.
  rewrite (upd_comm e dw) by auto. rewrite (upd_comm e dh) by auto. reflexivity.
Qed.
Lemma expand_shard : forall dh dw e N r x, e <> dh -> e <> dw ->
  teq (expand_poles dh dw (shard e N r x)) (shard e N r (expand_poles dh dw x)).
Proof.
  intros dh dw e N r x H1 H2. split.
  - unfold expand_poles, expand_with; cbn [shp]. rewrite dimsz_shard_other by auto.
    unfold shard, narrow, dimsz; cbn [shp]. rewrite upd_comm by auto. now rewrite (nth_upd_other dh e) by auto.
  - intros i Hi. unfold expand_poles, expand_with; cbn [val shp]. rewrite !row_sum_shard, !dimsz_shard_other by auto.
    unfold shard, narrow, dimsz; cbn [val shp]. rewrite !(nth_upd_other e dh), !(nth_upd_other dh e) by auto.
    destruct (_ =? 0); auto. destruct (_ =? _); auto. now rewrite upd_comm by auto.
Qed.
Lemma row_sum_proper : forall dh dw row x y i, teq x y -> dh < ndim x -> dw < ndim x -> row < dimsz x dh ->
  dh <> dw -> length i = ndim x -> (forall d, d <> dh -> d <> dw -> d < ndim x -> nth d i 0 < nth d (shp x) 0) ->
  row_sum dh dw row x i = row_sum dh dw row y i.
Proof.
  intros dh dw row x y i T H1 H2 H3 Hne L Hi. unfold row_sum. rewrite <- (teq_dimsz _ _ _ dw T). apply bsum_ext. intros j Hj.
  apply T. unfold ndim in *.
  split. now rewrite !upd_length. intros d Hd. destruct (Nat.eq_dec d dw) as [->|].
  - rewrite nth_upd_same; auto. rewrite upd_length; lia.
  - rewrite nth_upd_other by auto. destruct (Nat.eq_dec d dh) as [->|].
    + rewrite nth_upd_same; auto; lia.
    + rewrite nth_upd_other by auto. apply Hi; auto; lia.
Qed.
Lemma expand_proper : forall dh dw x y, teq x y -> dh < ndim x -> dw < ndim x -> dh <> dw -> 1 <= dimsz x dh ->
  teq (expand_poles dh dw x) (expand_poles dh dw y).
Proof.
  intros dh dw x y T H1 H2 Hne Hp. pose proof (teq_shp _ _ _ T) as S.
  split; unfold expand_poles, expand_with; cbn [val shp]; rewrite <- !(teq_dimsz _ _ _ dh T). now rewrite S.
  intros i Hi. rewrite <- !(teq_dimsz _ _ _ dw T).
  assert (L0 : length i = ndim x) by (pose proof (valid_len _ _ Hi) as L; rewrite upd_length in L; auto).
  assert (V0 : forall d, d <> dh -> d <> dw -> d < ndim x -> nth d i 0 < nth d (shp x) 0).
  { intros d N1 N2 Hd. destruct Hi as [_ Hi]. specialize (Hi d). rewrite upd_length, nth_upd_other in Hi by auto. auto. }
  rewrite !(fun r Hr => row_sum_proper dh dw r x y i T H1 H2 Hr Hne L0 V0) by lia.
  destruct (Nat.eqb_spec (nth dh i 0) 0); auto. destruct (Nat.eqb_spec (nth dh i 0) (dimsz x dh + 1)); auto.
  apply T. pose proof (valid_upd_bound _ _ _ _ H1 Hi). pose proof (valid_len _ _ Hi) as L. rewrite upd_length in L.
  unfold ndim in *. split. now rewrite upd_length. intros d Hd. destruct (Nat.eq_dec d dh) as [->|].
  - rewrite nth_upd_same by lia. unfold dimsz in *; lia.
  - rewrite nth_upd_other by auto. destruct Hi as [_ Hi]. specialize (Hi d). rewrite upd_length, nth_upd_other in Hi by auto. auto.
Qed.

Lemma row_sum_w_shard : forall dh dw N r row x i, dh <> dw -> dw < ndim x -> length i = ndim x -> 
  row_sum dh dw row (shard dw N r x) i = rsum (chunk_len (dimsz x dw) N r) (fun j => val x (upd dw (chunk_lo (dimsz x dw) N r + j) (upd dh row i))).
Proof.
  intros dh dw N r row x i Hne Hd L. unfold row_sum. unfold shard at 1. rewrite dimsz_narrow_same by auto.
  apply bsum_ext. intros j Hj. unfold shard, narrow. cbn [val]. rewrite nth_upd_same by (rewrite upd_length; lia).
  rewrite upd_upd_same. f_equal. f_equal. lia.
Qed.

Lemma dist_expand_ok : forall P A dh dw (x : pfam (tensor R)) (T : nat -> tensor R),
  1 <= A -> dh <> dw ->
  (forall p, p < P -> dh < ndim (T p) /\ dw < ndim (T p) /\ 1 <= dimsz (T p) dh /\ A <= dimsz (T p) dw) ->
  holds2 P A x (fun p a => shard dw A a (T p)) ->
  holds2 P A (dist_expand_poles A dh dw x) (fun p a => shard dw A a (expand_poles dh dw (T p))).
Proof.
  intros P A dh dw x T HA Hne HT Hx.
  set (rows := fun (row : tensor R -> nat) p a => row_sum_t dh dw (row (T p)) (shard dw A a (T p))).
  assert (Hrow : forall row : tensor R -> nat, (forall t u, dimsz t dh = dimsz u dh -> row t = row u) ->
            (forall p, p < P -> row (T p) < dimsz (T p) dh) ->
            holds2 P A (pmap (fun t => Some (row_sum_t dh dw (row t) t)) x) (rows row)).
  { intros row Hr Hlt p a Hp Ha. destruct (Hx p a Hp Ha) as (t & E & Tt). unfold pmap. rewrite E. cbn [bindo].
    destruct (HT p Hp) as (D1 & D2 & D3 & D4).
    assert (Dt : dimsz t dh = dimsz (T p) dh) by (rewrite (teq_dimsz _ _ _ dh Tt); apply dimsz_shard_other; auto).
    rewrite (Hr t (T p)) by auto. apply returns_Some. unfold rows, row_sum_t. split; cbn [shp val].
    - now rewrite (teq_shp _ _ _ Tt).
    - intros i Hi. assert (Nt : ndim t = ndim (T p)) by (rewrite (teq_ndim _ _ _ Tt); apply ndim_shard).
      pose proof (valid_len _ _ Hi) as L. rewrite !upd_length in L.
      apply row_sum_proper; auto; try lia. rewrite Dt; auto.
      intros d N1 N2 Hd. destruct Hi as [_ Hi]. specialize (Hi d). rewrite !upd_length, !nth_upd_other in Hi by auto. auto. }
  assert (Hcount : holds2 P A (pmap (fun t => Some (mkT [1] (fun _ => INR (dimsz t dw)))) x)
             (fun p a => mkT [1] (fun _ => INR (chunk_len (dimsz (T p) dw) A a)))).
  { intros p a Hp Ha. destruct (Hx p a Hp Ha) as (t & E & Tt). unfold pmap. rewrite E. cbn [bindo].
    apply returns_Some. rewrite (teq_dimsz _ _ _ dw Tt). unfold shard. rewrite dimsz_narrow_same by (apply HT; auto). apply teq_refl. }
  assert (Hsum : forall p row i, p < P -> length i = ndim (T p) ->
      rsum A (fun a => row_sum dh dw row (shard dw A a (T p)) i) = row_sum dh dw row (T p) i).
  { intros p row i Hp L. destruct (HT p Hp) as (D1 & D2 & D3 & D4). unfold row_sum at 2.
    rewrite (rsum_balanced A (dimsz (T p) dw)) by auto. apply bsum_ext. intros a Ha. apply row_sum_w_shard; auto. }
  pose proof (Hrow (fun _ => 0)) as Hn. specialize (Hn ltac:(auto)).
  assert (Hn' := Hn ltac:(intros p Hp; destruct (HT p Hp); lia)). clear Hn.
  pose proof (Hrow (fun t => dimsz t dh - 1)) as Hs. specialize (Hs ltac:(intros t u E; cbv beta; rewrite E; reflexivity)).
  assert (Hs' := Hs ltac:(intros p Hp; destruct (HT p Hp); lia)). clear Hs.
  assert (Rc := az_reduce_ok P A _ (fun p a => mkT [1] (fun _ => INR (chunk_len (dimsz (T p) dw) A a))) HA (fun _ _ _ _ => eq_refl) Hcount).
  assert (SR : forall row p a, p < P -> a < A -> shp (rows row p a) = shp (rows row p 0)).
  { intros row p a Hp Ha. unfold rows, row_sum_t, shard, narrow; cbn [shp]. rewrite !(upd_comm dh dw) by auto. now rewrite !upd_upd_same. }
  assert (Rn := az_reduce_ok P A _ _ HA (SR _) Hn'). assert (Rs := az_reduce_ok P A _ _ HA (SR _) Hs').
  clear SR Hn' Hs' Hcount Hrow.
  intros p a Hp Ha. destruct (HT p Hp) as (D1 & D2 & D3 & D4). unfold dist_expand_poles.
  destruct (Hx p a Hp Ha) as (t & -> & Tt). cbn [bindo].
  destruct (Rn p a Hp Ha) as (n & -> & Tn). cbn [bindo].
  destruct (Rs p a Hp Ha) as (s & -> & Ts). cbn [bindo].
  destruct (Rc p a Hp Ha) as (c & -> & Tc). cbn [bindo].
  apply returns_Some.
  assert (Dt : dimsz t dh = dimsz (T p) dh) by (rewrite (teq_dimsz _ _ _ dh Tt); apply dimsz_shard_other; auto).
  assert (Nt : ndim t = ndim (T p)) by (rewrite (teq_ndim _ _ _ Tt); apply ndim_shard).
  assert (Vc : val c [0] = INR (dimsz (T p) dw)).
  { destruct Tc as [Sc Tc]. rewrite Tc.
    2:{ rewrite Sc. cbn. split; auto. intros [|d] Hd; simpl in *; lia. }
    cbn [val tsum]. rewrite fsum_rsum.
    rewrite <- (bal_sum (dimsz (T p) dw) A) by auto.
    assert (S : forall l, INR (sum_list l) = rsum (length l) (fun r => INR (nth r l 0))).
    { induction l as [|z l IH]; auto. simpl length. rewrite (bsum_S_l RT). simpl. rewrite plus_INR, IH. reflexivity. }
    rewrite S, bal_length by auto. rewrite bal_sum by auto. apply bsum_ext. intros r Hr. now rewrite chunk_len_nth by auto. }
  assert (Vr : forall row (u : tensor R) i, teq u (tsum 0%R Rplus A (fun a => rows row p a)) ->
     length i = ndim (T p) -> (forall d, d <> dh -> d <> dw -> d < ndim (T p) -> nth d i 0 < nth d (shp (T p)) 0) ->
     val u (upd dw 0 (upd dh 0 i)) = row_sum dh dw (row (T p)) (T p) i).
  { intros row u i Tu L Vi.
    assert (RS : forall y r, row_sum dh dw r y (upd dw 0 (upd dh 0 i)) = row_sum dh dw r y i).
    { intros y r. unfold row_sum. apply bsum_ext. intros j _. rewrite (upd_comm dh dw), upd_upd_same, upd_upd_same by auto. auto. }
    destruct Tu as [Su Tu]. rewrite Tu.
    - cbn [val tsum]. rewrite fsum_rsum. rewrite <- Hsum by auto. apply bsum_ext. intros b Hb. unfold rows, row_sum_t. cbn [val]. apply RS.
    - rewrite Su. cbn [shp tsum rows row_sum_t]. unfold shard, narrow; cbn [shp].
      unfold ndim in *. split. now rewrite !upd_length. rewrite !upd_length. intros d Hd.
      rewrite (upd_comm dh dw) by auto. rewrite upd_upd_same.
      destruct (Nat.eq_dec d dw) as [->|]. rewrite !nth_upd_same; auto; rewrite ?upd_length; lia.
      rewrite !(nth_upd_other dw) by auto. destruct (Nat.eq_dec d dh) as [->|]. rewrite !nth_upd_same; auto; lia.
      rewrite !nth_upd_other by auto. apply Vi; auto. }
  assert (Sh : shp (expand_with dh (fun i => (val n (upd dw 0 (upd dh 0 i))%nat / val c [0%nat])%R)
                  (fun i => (val s (upd dw 0 (upd dh 0 i))%nat / val c [0%nat])%R) t) =
               shp (shard dw A a (expand_poles dh dw (T p)))).
  { cbn [shp expand_with expand_poles shard narrow]. rewrite Dt, (teq_shp _ _ _ Tt). unfold shard, narrow, dimsz; cbn [shp].
    rewrite upd_comm by auto. cbn [shp expand_poles expand_with]. now rewrite (nth_upd_other dh dw) by auto. }
  split; auto. intros i Hi.
  assert (Hi0 := Hi). cbn [shp expand_with] in Hi0. pose proof (valid_len _ _ Hi0) as L. rewrite upd_length in L.
  fold (ndim t) in L. rewrite Nt in L.
  assert (Vi : forall d, d <> dh -> d <> dw -> d < ndim (T p) -> nth d i 0 < nth d (shp (T p)) 0).
  { intros d N1 N2 Hd. destruct Hi0 as [_ Hi0]. specialize (Hi0 d). rewrite upd_length, nth_upd_other in Hi0 by auto.
    rewrite (teq_shp _ _ _ Tt) in Hi0. unfold shard, narrow in Hi0; cbn [shp] in Hi0. rewrite upd_length, nth_upd_other in Hi0 by auto. auto. }
  assert (Hb : nth dh i 0 < dimsz t dh + 2). { eapply valid_upd_bound; [|exact Hi0]. fold (ndim t). lia. }
  assert (Dw : dimsz (expand_poles dh dw (T p)) dw = dimsz (T p) dw).
  { unfold dimsz. cbn [shp expand_poles expand_with]. now rewrite nth_upd_other by auto. }
  unfold shard, narrow. cbn [val]. rewrite Dw.
  unfold expand_poles, expand_with. cbn [val]. rewrite Vc, Dt, (Vr _ n i Tn L Vi), (Vr _ s i Ts L Vi).
  rewrite (nth_upd_other dw dh) by auto.
  assert (RS : forall r z, row_sum dh dw r (T p) (upd dw z i) = row_sum dh dw r (T p) i).
  { intros r z. unfold row_sum. apply bsum_ext. intros j _. rewrite (upd_comm dh dw), upd_upd_same by auto. auto. }
  rewrite !RS. destruct (Nat.eqb_spec (nth dh i 0) 0); auto. destruct (Nat.eqb_spec (nth dh i 0) (dimsz (T p) dh + 1)); auto.
  destruct Tt as [St Tt]. rewrite Tt.
  - unfold shard, narrow. cbn [val]. rewrite nth_upd_other by auto. now rewrite upd_comm by auto.
  - rewrite <- Nt in *. unfold ndim in *. split. now rewrite upd_length. intros d Hd. destruct (Nat.eq_dec d dh) as [->|].
    + rewrite nth_upd_same by lia. fold (dimsz t dh). lia.
    + rewrite nth_upd_other by auto. destruct Hi0 as [_ Hi0]. specialize (Hi0 d). rewrite upd_length, nth_upd_other in Hi0 by auto. auto.
Qed.

(** What the constructor guarantees about the interpolation indices. *)
Record res_ok (r : resampler) : Prop := {
  ro_lat : idx_ok (rs_nlat_out r) (if rs_expand r then rs_nlat_in r + 2 else rs_nlat_in r) (rs_lat_idx r);
  ro_lat1 : idx_ok (rs_nlat_out r) (if rs_expand r then rs_nlat_in r + 2 else rs_nlat_in r) (fun i => (rs_lat_idx r i + 1)%Z);
  ro_lonl : idx_ok (rs_nlon_out r) (rs_nlon_in r) (rs_lon_l r);
  ro_lonr : idx_ok (rs_nlon_out r) (rs_nlon_in r) (rs_lon_r r) }.

Lemma resample_init_res_ok : forall gl hi wi ho wo gi go mode r,
  resample_init gl hi wi ho wo gi go mode = Some r ->
  res_ok r /\ rs_nlat_in r = hi /\ rs_nlon_in r = wi /\ rs_nlat_out r = ho /\ rs_nlon_out r = wo /\
  rs_mode r = mode /\ mode <> MUnknown.
Proof.
  intros gl hi wi ho wo gi go mode r E. unfold resample_init in E.
  assert (Hm : mode <> MUnknown) by (intros ->; discriminate).
  destruct (precompute_latitudes gl hi gi) as [qi|]; [|destruct mode; discriminate].
  destruct (precompute_latitudes gl ho go) as [qo|]; [|destruct mode; discriminate]. cbn [bindo] in E.
  set (ex := need_expand hi ho (rn qi) (rn qo)) in *.
  set (n := if ex then (hi + 2)%nat else hi) in *. set (xs := if ex then lats_ext hi (rn qi) else rn qi) in *.
  destruct ((wi =? 0) || (wo =? 0)); [destruct mode; discriminate|].
  destruct (forallb (fun i => lat_weight_ok n xs (rn qo i)) (seq 0 ho)) eqn:F1; [|destruct mode; discriminate].
  destruct (forallb (fun j => lon_weight_ok wi (precompute_longitudes wi) (precompute_longitudes wo j)) (seq 0 wo)) eqn:F2;
    [|destruct mode; discriminate].
  assert (E' : r = mkRes mode hi wi ho wo ex ((wi =? wo) && (hi =? ho) && grid_eqb gi go)
                (fun i => lat_index n xs (rn qo i)) (fun i => lat_weight n xs (rn qo i))
                (fun j => lon_left wi (precompute_longitudes wi) (precompute_longitudes wo j)) 
                (fun j => lon_right wi (precompute_longitudes wi) (precompute_longitudes wo j))
                (fun j => lon_weight wi (precompute_longitudes wi) (precompute_longitudes wo j)))
    by (destruct mode; [inversion E; auto|inversion E; auto|congruence]).
  rewrite forallb_forall in F1, F2. subst r. cbn. repeat split; auto; intros j Hj; cbn in *.
  - specialize (F1 j). rewrite in_seq in F1. specialize (F1 ltac:(lia)). unfold lat_weight_ok in F1. apply andb_prop in F1. apply F1.
  - specialize (F1 j). rewrite in_seq in F1. specialize (F1 ltac:(lia)). unfold lat_weight_ok in F1. apply andb_prop in F1.
    destruct F1 as [_ F1]. unfold pyidx_ok in *. apply andb_prop in F1. destruct F1 as [A1 A2].
    apply Z.leb_le in A1. apply Z.ltb_lt in A2. fold n. apply andb_true_intro; split; [apply Z.leb_le|apply Z.ltb_lt]; lia.
  - specialize (F2 j). rewrite in_seq in F2. specialize (F2 ltac:(lia)). unfold lon_weight_ok in F2. apply andb_prop in F2.
    destruct F2 as [F2 _]. apply andb_prop in F2. apply F2.
  - specialize (F2 j). rewrite in_seq in F2. specialize (F2 ltac:(lia)). unfold lon_weight_ok in F2. apply andb_prop in F2.
    destruct F2 as [F2 _]. apply andb_prop in F2. apply F2.
Qed.

Theorem dist_resample_ok : forall debug P A r lead nc X x,
  1 <= P -> 1 <= A -> res_ok r -> 1 <= rs_nlat_in r ->
  P <= rs_nlat_in r -> A <= rs_nlon_in r -> P <= rs_nlat_out r -> A <= rs_nlon_out r ->
  P <= nc -> A <= nc -> shp X = lead ++ [nc; rs_nlat_in r; rs_nlon_in r] ->
  holds2 P A x (fun p a => shard (length lead + 1) P p (shard (length lead + 2) A a X)) ->
  exists Y, resample r X = Some Y /\
    shp Y = (if rs_skip r then shp X else lead ++ [nc; rs_nlat_out r; rs_nlon_out r]) /\
    holds2 P A (dist_resample debug P A r x) (fun p a => shard (length lead + 1) P p (shard (length lead + 2) A a Y)).
Proof.
  intros debug P A r lead nc X x HP HA Hr Hh H1 H2 H3 H4 H5 H6 HX Hx.
  unfold resample, dist_resample. destruct (rs_skip r).
  { exists X. auto. }
  set (k := length lead) in *.
  assert (N : ndim X = k + 3) by (unfold ndim; rewrite HX, app_length; auto).
  assert (D0 : dimsz X k = nc) by (unfold dimsz; rewrite HX; unfold k; rewrite <- (Nat.add_0_r (length lead)); apply nth_app_r).
  assert (D1 : dimsz X (k + 1) = rs_nlat_in r) by (unfold dimsz; rewrite HX; apply nth_app_r).
  assert (D2 : dimsz X (k + 2) = rs_nlon_in r) by (unfold dimsz; rewrite HX; apply nth_app_r).
  rewrite N. replace (k + 3 - 2) with (k + 1) by lia. replace (k + 3 - 1) with (k + 2) by lia.
  rewrite (proj2 (Nat.leb_le 2 (k + 3))) by lia. cbn [guard bindo].
  set (E := if rs_expand r then expand_poles (k + 1) (k + 2) X else X).
  set (h := if rs_expand r then rs_nlat_in r + 2 else rs_nlat_in r).
  assert (ES : shp E = upd (k + 1) h (shp X)).
  { unfold E, h. destruct (rs_expand r). rewrite expand_shp, D1; auto.
    rewrite <- D1. unfold dimsz. rewrite upd_nth_id; auto. fold (ndim X). lia. }
  assert (EN : ndim E = k + 3) by (unfold ndim; rewrite ES, upd_length; auto).
  assert (E1 : dimsz E (k + 1) = h) by (unfold dimsz; rewrite ES, nth_upd_same; auto; fold (ndim X); lia).
  assert (E0 : dimsz E k = nc) by (unfold dimsz; rewrite ES, nth_upd_other by lia; auto).
  assert (E2 : dimsz E (k + 2) = rs_nlon_in r) by (unfold dimsz; rewrite ES, nth_upd_other by lia; auto).
  destruct Hr as [R1 R2 R3 R4]. fold h in R1, R2.
  rewrite upscale_eq by (rewrite E1; auto). cbn [bindo]. rewrite E1.
  set (U := upsK (rs_mode r) (k + 1) (rs_nlat_out r) h (rs_lat_idx r) (fun i => (rs_lat_idx r i + 1)%Z) (rs_lat_w r) E).
  assert (US : shp U = upd (k + 1) (rs_nlat_out r) (shp E)) by reflexivity.
  assert (UN : ndim U = k + 3) by (unfold ndim; rewrite US, upd_length; auto).
  assert (U0 : dimsz U k = nc) by (unfold dimsz; rewrite US, nth_upd_other by lia; auto).
  assert (U1 : dimsz U (k + 1) = rs_nlat_out r) by (unfold dimsz; rewrite US, nth_upd_same; auto; fold (ndim E); lia).
  assert (U2 : dimsz U (k + 2) = rs_nlon_in r) by (unfold dimsz; rewrite US, nth_upd_other by lia; auto).
  rewrite upscale_eq by (rewrite U2; auto). rewrite U2.
  set (V := upsK (rs_mode r) (k + 2) (rs_nlon_out r) (rs_nlon_in r) (rs_lon_l r) (rs_lon_r r) (rs_lon_w r) U).
  assert (VS : shp V = upd (k + 2) (rs_nlon_out r) (shp U)) by reflexivity.
  exists V. split; auto. split.
  { rewrite VS, US, ES, HX. rewrite upd_upd_same. unfold k. now rewrite !upd_app_r. }
  assert (VN : ndim V = k + 3) by (unfold ndim; rewrite VS, upd_length; auto).
  assert (V0 : dimsz V k = nc) by (unfold dimsz; rewrite VS, nth_upd_other by lia; auto).
  assert (V2 : dimsz V (k + 2) = rs_nlon_out r) by (unfold dimsz; rewrite VS, nth_upd_same; auto; fold (ndim U); lia).
  (* channel counts seen by the ranks *)
  set (ncf := pmap (fun t => Some (dimsz t k)) x).
  assert (Hnc : forall p a, p < P -> a < A -> ncf p a = Some nc).
  { intros p a Hp Ha. unfold ncf, pmap. destruct (Hx p a Hp Ha) as (t & -> & T). cbn [bindo].
    rewrite (teq_dimsz _ _ _ k T), !dimsz_shard_other by lia. now rewrite D0. }
  (* the pipeline *)
  set (x1 := po_transpose debug P k (k + 1) (fun _ _ => compute_split_shapes (rs_nlat_in r) P) x).
  assert (X1 : holds2 P A x1 (fun p a => shard k P p (shard (k + 2) A a X))).
  { apply (po_transpose_ok R debug P A k (k + 1) _ x (fun a => shard (k + 2) A a X)); auto; try lia.
    intros a Ha. rewrite ndim_shard, !dimsz_shard_other, N, D0, D1 by lia. repeat split; try lia.
    intros p Hp _. rewrite css_some by auto. eauto. }
  set (x2 := if rs_expand r then dist_expand_poles A (k + 1) (k + 2) x1 else x1).
  assert (X2 : holds2 P A x2 (fun p a => shard (k + 2) A a (shard k P p E))).
  { assert (X1' : holds2 P A x1 (fun p a => shard (k + 2) A a (shard k P p X))).
    { eapply holds2_teq. exact X1. intros p a Hp Ha. apply shard_comm; auto; lia. }
    unfold x2, E. destruct (rs_expand r); auto. eapply holds2_teq.
    - apply (dist_expand_ok P A (k + 1) (k + 2) x1 (fun p => shard k P p X)); auto; try lia.
      intros p Hp. rewrite ndim_shard, !dimsz_shard_other, N, D1, D2 by lia. lia.
    - intros p a Hp Ha. cbv beta. apply shard_proper; auto. apply expand_shard; lia. }
  set (x3 := pmap (upscale (rs_mode r) (k + 1) (rs_nlat_out r) (rs_lat_idx r) (fun i => (rs_lat_idx r i + 1)%Z) (rs_lat_w r)) x2).
  assert (X3 : holds2 P A x3 (fun p a => shard k P p (shard (k + 2) A a U))).
  { intros p a Hp Ha. unfold x3, pmap. destruct (X2 p a Hp Ha) as (t & -> & T). cbn [bindo].
    assert (Dt : dimsz t (k + 1) = h) by (rewrite (teq_dimsz _ _ _ (k + 1) T), !dimsz_shard_other by lia; auto).
    assert (Nt : ndim t = k + 3) by (rewrite (teq_ndim _ _ _ T), !ndim_shard; auto).
    rewrite upscale_eq by (rewrite Dt; auto). apply returns_Some. rewrite Dt.
    eapply teq_trans. apply upsK_proper; try exact T; auto; lia.
    eapply teq_trans. apply upsK_shard; auto; rewrite ?ndim_shard, ?dimsz_shard_other; auto; lia.
    eapply teq_trans. apply shard_proper; [auto|auto|]. apply upsK_shard; auto; lia.
    apply shard_comm; auto; lia. }
  set (x4 := po_transpose debug P (k + 1) k (pmap (fun c => compute_split_shapes c P) ncf) x3).
  assert (X4 : holds2 P A x4 (fun p a => shard (k + 1) P p (shard (k + 2) A a U))).
  { apply (po_transpose_ok R debug P A (k + 1) k _ x3 (fun a => shard (k + 2) A a U)); auto; try lia.
    intros a Ha. rewrite ndim_shard, !dimsz_shard_other, UN, U0, U1 by lia. repeat split; try lia.
    intros p Hp _. unfold pmap. rewrite Hnc by auto. cbn [bindo]. rewrite css_some by auto. eauto. }
  set (x5 := az_transpose debug A k (k + 2) (fun _ _ => compute_split_shapes (rs_nlon_in r) A) x4).
  assert (X5 : holds2 P A x5 (fun p a => shard k A a (shard (k + 1) P p U))).
  { apply (az_transpose_ok R debug P A k (k + 2) _ x4 (fun p => shard (k + 1) P p U)); auto; try lia.
    - intros p Hp. rewrite ndim_shard, !dimsz_shard_other, UN, U0, U2 by lia. repeat split; try lia.
      intros a Ha _. rewrite css_some by auto. eauto.
    - eapply holds2_teq. exact X4. intros p a Hp Ha. apply shard_comm; auto; lia. }
  set (x6 := pmap (upscale (rs_mode r) (k + 2) (rs_nlon_out r) (rs_lon_l r) (rs_lon_r r) (rs_lon_w r)) x5).
  assert (X6 : holds2 P A x6 (fun p a => shard k A a (shard (k + 1) P p V))).
  { intros p a Hp Ha. unfold x6, pmap. destruct (X5 p a Hp Ha) as (t & -> & T). cbn [bindo].
    assert (Dt : dimsz t (k + 2) = rs_nlon_in r) by (rewrite (teq_dimsz _ _ _ (k + 2) T), !dimsz_shard_other by lia; auto).
    assert (Nt : ndim t = k + 3) by (rewrite (teq_ndim _ _ _ T), !ndim_shard; auto).
    rewrite upscale_eq by (rewrite Dt; auto). apply returns_Some. rewrite Dt.
    eapply teq_trans. apply upsK_proper; try exact T; auto; lia.
    eapply teq_trans. apply upsK_shard; auto; rewrite ?ndim_shard, ?dimsz_shard_other; auto; lia.
    apply shard_proper; auto. apply upsK_shard; auto; lia. }
  set (x7 := az_transpose debug A (k + 2) k (pmap (fun c => compute_split_shapes c A) ncf) x6).
  assert (X7 : holds2 P A x7 (fun p a => shard (k + 1) P p (shard (k + 2) A a V))).
  { eapply holds2_teq.
    - apply (az_transpose_ok R debug P A (k + 2) k _ x6 (fun p => shard (k + 1) P p V)); auto; try lia.
      intros p Hp. rewrite ndim_shard, !dimsz_shard_other, VN, V0, V2 by lia. repeat split; try lia.
      intros a Ha _. unfold pmap. rewrite Hnc by auto. cbn [bindo]. rewrite css_some by auto. eauto.
    - intros p a Hp Ha. apply shard_comm; auto; lia. }
  intros p a Hp Ha. destruct (Hx p a Hp Ha) as (t & Et & Tt). rewrite Et. cbn [bindo].
  assert (Nt : ndim t = k + 3) by (rewrite (teq_ndim _ _ _ Tt), !ndim_shard; auto). rewrite Nt.
  rewrite (proj2 (Nat.leb_le 3 (k + 3))) by lia. cbn [guard bindo].
  rewrite !css_some by auto. cbn [bindo].
  replace (k + 3 - 3) with k by lia. replace (k + 3 - 2) with (k + 1) by lia. replace (k + 3 - 1) with (k + 2) by lia.
  specialize (X7 p a Hp Ha). unfold x7, x6, x5, x4, x3, x2, x1, ncf in X7. rewrite !css_some in X7 by auto. exact X7.
Qed.
