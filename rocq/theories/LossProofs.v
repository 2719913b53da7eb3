(** Broadcasting, index enumeration and the weights of the losses. *)
From Coq Require Import List Arith Lia Bool Reals Lra.
From Verif Require Import TensorModel TensorProofs BigSum TruncModel QuadModel QuadSpec CCProofs QuadProofs QuadPropProofs LossModel LossSpec.
Import ListNotations.
Local Open Scope R_scope.

(** ** Indices *)
Lemma in_indices : forall s i, In i (indices s) <-> valid s i.
Proof.
  induction s as [|d s IH]; intros i; cbn [indices].
  - split. intros [<-|[]]. split; auto. intros; cbn in *; lia. intros [L _]. destruct i; [left; auto|discriminate].
  - rewrite in_flat_map. split.
    + intros (k & Hk & Hi). apply in_seq in Hk. apply in_map_iff in Hi. destruct Hi as (j & <- & Hj). apply IH in Hj. apply valid_cons. split; auto; lia.
    + intros V. destruct i as [|k i]. destruct V; discriminate. apply valid_cons in V. destruct V as [V1 V2]. exists k. split. apply in_seq; lia. apply in_map, IH; auto.
Qed.
Lemma NoDup_app' : forall (A : Type) (l l' : list A), NoDup l -> NoDup l' -> (forall x, In x l -> In x l' -> False) -> NoDup (l ++ l').
Proof.
  intros A l l' H H' D. induction H; cbn; auto. constructor. intros I. apply in_app_or in I. destruct I as [I|I]. contradiction. apply (D x); cbn; auto. apply IHNoDup. intros y Hy. apply D. cbn; auto.
Qed.
Lemma nodup_indices : forall s, NoDup (indices s).
Proof.
  induction s as [|d s IH]; cbn [indices]. repeat constructor; auto.
  assert (G : forall l, NoDup l -> NoDup (flat_map (fun k => map (cons k) (indices s)) l)).
  { induction l as [|k l IHl]; intros ND; cbn [flat_map]. constructor. inversion ND; subst.
    apply NoDup_app'. { apply FinFun.Injective_map_NoDup; auto. intros a b E. congruence. } { auto. }
    intros x Hx Hx'. apply in_map_iff in Hx. destruct Hx as (y & <- & _). apply in_flat_map in Hx'. destruct Hx' as (k' & Hk' & Hx). apply in_map_iff in Hx. destruct Hx as (z & E & _). injection E as <- _. contradiction. }
  apply G, seq_NoDup.
Qed.
Lemma count_indices : forall s, length (indices s) = count s.
Proof.
  induction s as [|d s IH]; cbn [indices count]; auto. rewrite <- IH. generalize 0%nat. induction d; intros a; cbn [seq flat_map Nat.mul]; auto. rewrite app_length, map_length, IHd. reflexivity.
Qed.
Lemma total_indices : forall s F, rlsum F (indices s) = total s F.
Proof.
  induction s as [|d s IH]; intros F; cbn [indices total]. unfold lsum_. cbn. ring.
  rewrite (lsum_flat_map RT), (lsum_seq RT). apply bsum_ext. intros k Hk. rewrite lsum_map. apply IH.
Qed.
Lemma total_ext : forall s F G, (forall i, valid s i -> F i = G i) -> total s F = total s G.
Proof.
  intros s F G H. rewrite <- !total_indices. apply lsum_ext. intros i Hi. apply H. now apply in_indices.
Qed.
Lemma total_le : forall s F G, (forall i, valid s i -> F i <= G i) -> total s F <= total s G.
Proof.
  induction s as [|d s IH]; intros F G H; cbn [total]. apply H. split; auto. intros; cbn in *; lia.
  apply rsum_le. intros k Hk. apply IH. intros i V. apply H. apply valid_cons. auto.
Qed.
Lemma total_const : forall s c, total s (fun _ => c) = INR (count s) * c.
Proof.
  induction s as [|d s IH]; intros c; cbn [total count]. cbn. ring.
  rewrite (bsum_ext d _ (fun _ => INR (count s) * c)) by (intros; apply IH). rewrite rsum_const, mult_INR. ring.
Qed.
Lemma total_plus : forall s F G, total s (fun i => F i + G i) = total s F + total s G.
Proof. intros. rewrite <- !total_indices. apply (lsum_plus RT). Qed.
Lemma total_scal : forall s c F, total s (fun i => c * F i) = c * total s F.
Proof. intros. rewrite <- !total_indices. apply (lsum_scal_l RT). Qed.
Lemma rsum_nonneg : forall n f, (forall i, (i < n)%nat -> 0 <= f i) -> 0 <= rsum n f.
Proof. intros n f H. apply Rle_trans with (rsum n (fun _ => 0)). rewrite (bsum_zero RT); lra. apply rsum_le; auto. Qed.
Lemma rsum_zero_iff : forall n f, (forall i, (i < n)%nat -> 0 <= f i) -> rsum n f = 0 -> forall i, (i < n)%nat -> f i = 0.
Proof.
  induction n; intros f H E i Hi. lia. cbn [bsum_] in E. assert (0 <= rsum n f) by (apply rsum_nonneg; auto). pose proof (H n ltac:(lia)).
  destruct (Nat.eq_dec i n) as [->|]; [lra|]. apply IHn; auto; try lia. lra.
Qed.
Lemma total_nonneg : forall s F, (forall i, valid s i -> 0 <= F i) -> 0 <= total s F.
Proof. intros s F H. apply Rle_trans with (total s (fun _ => 0)). rewrite total_const. lra. apply total_le; auto. Qed.
Lemma total_zero : forall s F, (forall i, valid s i -> 0 <= F i) -> total s F = 0 -> forall i, valid s i -> F i = 0.
Proof.
  induction s as [|d s IH]; intros F H E i V.
  - destruct V as [L _]. destruct i; [exact E|discriminate].
  - destruct i as [|k i]. destruct V; discriminate. apply valid_cons in V. destruct V as [V1 V2]. cbn [total] in E.
    assert (NN : forall a, (a < d)%nat -> 0 <= total s (fun i => F (a :: i))). { intros a Ha. apply total_nonneg. intros i' V'. apply H. apply valid_cons. auto. }
    pose proof (rsum_zero_iff d _ NN E k V1) as E'. cbn beta in E'.
    apply (IH (fun i => F (k :: i))); auto. intros; apply H. apply valid_cons; auto.
Qed.
Lemma count_pos : forall s, (1 <= count s)%nat -> 0 < INR (count s). Proof. intros. apply lt_0_INR. lia. Qed.
Lemma mean_value : forall x, (1 <= count (shp x))%nat -> mean_all x = Some (average (shp x) (val x)).
Proof.
  intros x H. unfold mean_all, average. rewrite count_indices, total_indices. destruct (Nat.eqb_spec (count (shp x)) 0); [lia|reflexivity].
Qed.
Lemma mean_none : forall x, mean_all x = None <-> count (shp x) = 0%nat.
Proof. intros x. unfold mean_all. rewrite count_indices. destruct (Nat.eqb_spec (count (shp x)) 0); split; auto; try discriminate; lia. Qed.
Lemma average_ext : forall s F G, (forall i, valid s i -> F i = G i) -> average s F = average s G.
Proof. intros. unfold average. now rewrite (total_ext s F G). Qed.

(** ** Broadcasting *)
Lemma bdim_refl : forall a, bdim a a = Some a. Proof. intros. unfold bdim. now rewrite Nat.eqb_refl. Qed.
Lemma bdim_1 : forall a, bdim a 1 = Some a. Proof. intros. unfold bdim. destruct (Nat.eqb_spec a 1); auto. Qed.
Lemma bdim_comm : forall a b, bdim a b = bdim b a.
Proof. intros. unfold bdim. destruct (Nat.eqb_spec a b), (Nat.eqb_spec b a); try lia; subst; auto. destruct (Nat.eqb_spec a 1), (Nat.eqb_spec b 1); subst; auto; lia. Qed.
Lemma bshape_r_nil : forall s, bshape_r s [] = Some s. Proof. destruct s; reflexivity. Qed.
Lemma bshape_r_refl : forall s, bshape_r s s = Some s. Proof. induction s; auto. cbn [bshape_r]. rewrite bdim_refl, IHs. reflexivity. Qed.
Lemma bshape_r_comm : forall s t, bshape_r s t = bshape_r t s.
Proof. induction s; destruct t; auto. cbn [bshape_r]. rewrite bdim_comm, IHs. reflexivity. Qed.
Lemma bshape_refl : forall s, bshape s s = Some s. Proof. intros. unfold bshape. rewrite bshape_r_refl. cbn. now rewrite rev_involutive. Qed.
Lemma bshape_comm : forall s t, bshape s t = bshape t s. Proof. intros. unfold bshape. now rewrite bshape_r_comm. Qed.
Lemma bshape_app2 : forall s t r h w, bshape s t = Some r -> bshape (s ++ [h; w]) (t ++ [h; w]) = Some (r ++ [h; w]).
Proof.
  intros s t r h w E. unfold bshape in *. rewrite !rev_app_distr. cbn [rev app bshape_r]. rewrite !bdim_refl. cbn [bindo].
  destruct (bshape_r (rev s) (rev t)) as [v|]; [|discriminate]. cbn [bindo] in *. injection E as <-. cbn [rev]. rewrite <- !app_assoc. reflexivity.
Qed.
Lemma bshape_rows : forall s h w, bshape (s ++ [h; w]) [h; 1]%nat = Some (s ++ [h; w]).
Proof.
  intros. unfold bshape. rewrite !rev_app_distr. cbn [rev app bshape_r]. rewrite bdim_refl, bdim_1. cbn [bindo]. rewrite bshape_r_nil. cbn [bindo rev]. rewrite <- !app_assoc, rev_involutive. reflexivity.
Qed.
Lemma bshape_tiled : forall s h w, bshape (s ++ [h; w]) [h; w]%nat = Some (s ++ [h; w]).
Proof.
  intros. unfold bshape. rewrite !rev_app_distr. cbn [rev app bshape_r]. rewrite !bdim_refl. cbn [bindo]. rewrite bshape_r_nil. cbn [bindo rev]. rewrite <- !app_assoc, rev_involutive. reflexivity.
Qed.
Lemma bshape_nil : forall s, bshape s [] = Some s. Proof. intros. unfold bshape. cbn [rev]. rewrite bshape_r_nil. cbn. now rewrite rev_involutive. Qed.
Lemma bidx_app2 : forall s i h w k j, (k < h)%nat -> (j < w)%nat -> bidx (s ++ [h; w]) (i ++ [k; j]) = bidx s i ++ [k; j].
Proof.
  intros. unfold bidx. rewrite !rev_app_distr. cbn [rev app bidx_r]. destruct (Nat.eqb_spec w 1), (Nat.eqb_spec h 1); cbn [rev]; rewrite <- app_assoc; cbn [app]; repeat f_equal; lia.
Qed.
Lemma bidx_rows : forall i h k j, (k < h)%nat -> bidx [h; 1]%nat (i ++ [k; j]) = [k; 0]%nat.
Proof.
  intros. unfold bidx. rewrite !rev_app_distr. cbn [rev app bidx_r Nat.eqb]. destruct (Nat.eqb_spec h 1); cbn [bidx_r rev app]; repeat f_equal; lia.
Qed.
Lemma bidx_tiled : forall i h w k j, (k < h)%nat -> (j < w)%nat -> bidx [h; w]%nat (i ++ [k; j]) = [k; j]%nat.
Proof. intros. exact (bidx_app2 [] i h w k j H H0). Qed.
Lemma bidx_nil : forall i, bidx [] i = []. Proof. intros. reflexivity. Qed.
Lemma bidx_r_valid : forall s i, (length i = length s)%nat -> (forall d, (d < length s)%nat -> (nth d i 0 < nth d s 0)%nat) -> bidx_r s i = i.
Proof.
  induction s as [|d s IH]; destruct i as [|k i]; intros L H; try discriminate; auto. cbn [bidx_r]. f_equal.
  - specialize (H 0%nat ltac:(cbn; lia)). cbn in H. destruct (Nat.eqb_spec d 1); lia.
  - apply IH. now injection L. intros e He. exact (H (S e) ltac:(cbn; lia)).
Qed.
Lemma bidx_valid : forall s i, valid s i -> bidx s i = i.
Proof.
  intros s i [L H]. unfold bidx. rewrite bidx_r_valid. apply rev_involutive. now rewrite !rev_length.
  intros d Hd. rewrite rev_length in Hd. rewrite !rev_nth by lia. rewrite L. apply H. lia.
Qed.
Lemma bidx_valid_b : forall s t i, bshape t s = Some s -> valid s i -> valid t (bidx t i).
Proof.
  assert (G : forall t s i, bshape_r t s = Some s -> length i = length s -> (forall d, (d < length s)%nat -> (nth d i 0 < nth d s 0)%nat) ->
    length (bidx_r t i) = length t /\ forall d, (d < length t)%nat -> (nth d (bidx_r t i) 0 < nth d t 0)%nat).
  { induction t as [|a t IH]; intros s i E L H. split; auto. intros; cbn in *; lia.
    destruct s as [|b s]. discriminate. destruct i as [|k i]; [discriminate|]. cbn [bshape_r] in E. destruct (bdim a b) as [d|] eqn:D; [|discriminate]. cbn [bindo] in E.
    destruct (bshape_r t s) as [r|] eqn:R; [|discriminate]. cbn [bindo] in E. injection E as -> ->.
    destruct (IH s i R ltac:(now injection L) (fun e He => H (S e) ltac:(cbn; lia))) as [I1 I2]. cbn [bidx_r length]. split. now rewrite I1.
    pose proof (H 0%nat ltac:(cbn; lia)) as K. cbn in K.
    intros [|e] He; cbn [nth]. { unfold bdim in D. destruct (Nat.eqb_spec a 1); [lia|]. destruct (Nat.eqb_spec a b); [lia|]. destruct (Nat.eqb_spec b 1); [|discriminate]. injection D as D. lia. }
    apply I2. cbn in He. lia. }
  intros s t i E [L H]. unfold bshape in E. destruct (bshape_r (rev t) (rev s)) as [r|] eqn:R; [|discriminate]. cbn [bindo] in E. injection E as E. assert (r = rev s) by (rewrite <- E, rev_involutive; auto). subst r.
  destruct (G (rev t) (rev s) (rev i) R) as [G1 G2]. now rewrite !rev_length. intros d Hd. rewrite rev_length in Hd. rewrite !rev_nth by lia. rewrite L. apply H. lia.
  unfold bidx. split. rewrite rev_length, G1, rev_length. auto. rewrite rev_length in *. intros d Hd. rewrite rev_nth by lia. specialize (G2 (length t - S d)%nat ltac:(lia)). rewrite G1. rewrite rev_nth in G2 by lia. replace (length t - S (length t - S d))%nat with d in G2 by lia. exact G2.
Qed.

(** ** The weights *)
Section W.
Variables (gl : nat -> rule) (nlat nlon : nat) (g : grid) (lat : rule).
Hypotheses (El : precompute_latitudes gl nlat g = Some lat) (Hn : (1 <= nlon)%nat).
Lemma column_total : forall c, rlsum (fun i => c (nth 0 i 0%nat)) (indices [nlat; 1%nat]) = rsum nlat c.
Proof. intros. rewrite total_indices. cbn [total bsum_ nth]. apply bsum_ext. intros. ring. Qed.
Lemma weights_value : forall tile normalized, (normalized = true -> rsum nlat (rw lat) <> 0) ->
  exists q, get_quadrature_weights gl nlat nlon g tile normalized = Some q /\ shp q = [nlat; if tile then nlon else 1%nat] /\
  forall k j, val q [k; j] = if normalized then area (rw lat) nlat nlon k else 2 * PI * rw lat k / INR nlon.
Proof.
  intros tile normalized HT. unfold get_quadrature_weights. rewrite El. cbn [bindo]. unfold guard. rewrite (proj2 (Nat.leb_le _ _)) by auto. cbn [bindo].
  assert (PN := INR_pos nlon Hn). pose proof PI_RGT_0.
  destruct normalized.
  - assert (T : rlsum (val (mkT [nlat; 1%nat] (fun i => rw lat (nth 0 i 0%nat) * 2 * PI / INR nlon))) (indices (shp (mkT [nlat; 1%nat] (fun i => rw lat (nth 0 i 0%nat) * 2 * PI / INR nlon)))) = 2 * PI / INR nlon * rsum nlat (rw lat)).
    { cbn [val shp]. rewrite (column_total (fun k => rw lat k * 2 * PI / INR nlon)). rewrite <- (bsum_scal_l RT). apply bsum_ext. intros. unfold Rdiv. ring. }
    rewrite T. specialize (HT eq_refl). destruct (Req_EM_T (2 * PI / INR nlon * rsum nlat (rw lat)) 0) as [Z|Z].
    { exfalso. apply Rmult_integral in Z. destruct Z as [Z|Z]; [|contradiction]. assert (0 < 2 * PI / INR nlon) by (apply Rdiv_lt_0_compat; lra). lra. }
    cbn [bindo]. destruct tile; eexists; (split; [reflexivity|]); (split; [reflexivity|]); intros k j; cbn [val map_t nth]; unfold area; field; repeat split; auto; lra.
  - cbn [bindo]. destruct tile; eexists; (split; [reflexivity|]); (split; [reflexivity|]); intros k j; cbn [val nth]; field; lra.
Qed.
Lemma weights_decided : forall tile normalized, get_quadrature_weights gl nlat nlon g tile normalized = None <-> normalized = true /\ rsum nlat (rw lat) = 0.
Proof.
  intros tile normalized. split.
  - intros E. destruct normalized. split; auto. destruct (Req_dec (rsum nlat (rw lat)) 0) as [Z|Z]; auto. exfalso. destruct (weights_value tile true (fun _ => Z)) as (q & Q & _). congruence.
    exfalso. destruct (weights_value tile false ltac:(discriminate)) as (q & Q & _). congruence.
  - intros [-> Z]. unfold get_quadrature_weights. rewrite El. cbn [bindo]. unfold guard. rewrite (proj2 (Nat.leb_le _ _)) by auto. cbn [bindo]. cbn [val shp].
    rewrite (column_total (fun k => rw lat k * 2 * PI / INR nlon)). rewrite (bsum_ext nlat _ (fun k => 2 * PI / INR nlon * rw lat k)) by (intros; unfold Rdiv; ring). rewrite (bsum_scal_l RT), Z.
    destruct (Req_EM_T (2 * PI / INR nlon * 0) 0) as [_|Q]; [reflexivity|]. exfalso. apply Q. ring.
Qed.
Lemma area_total : rsum nlat (rw lat) <> 0 -> rsum nlat (fun k => rsum nlon (fun _ => area (rw lat) nlat nlon k)) = 1.
Proof.
  intros HT. assert (PN := INR_pos nlon Hn). rewrite (bsum_ext nlat _ (fun k => / rsum nlat (rw lat) * rw lat k)).
  rewrite (bsum_scal_l RT). now apply Rinv_l. intros k Hk. rewrite rsum_const. unfold area. field. split; auto; lra.
Qed.
End W.
Lemma lat_weights_positive : forall gl nlat g lat, precompute_latitudes gl nlat g = Some lat -> (2 <= nlat)%nat -> g <> GLobatto ->
  (g = GLegendreGauss -> forall i, (i < nlat)%nat -> 0 < rw (gl nlat) i) -> forall k, (k < nlat)%nat -> 0 < rw lat k.
Proof.
  intros gl nlat g lat El Hn NL HG k Hk. assert (Q : exists q, quadrature_s2_rule gl nlat g = Some q). { unfold precompute_latitudes in El. rewrite quad_rule_lat in El. destruct (quadrature_s2_rule gl nlat g); [eauto|discriminate]. }
  destruct Q as (q & Q). rewrite (proj2 (lat_value _ _ _ _ _ Q El k)). assert (Hk' : (nlat - 1 - k < nlat)%nat) by lia. set (i := (nlat - 1 - k)%nat) in *.
  destruct g; cbn [quadrature_s2_rule] in Q.
  - eapply gl_rule_pos; eauto. lra.
  - now destruct NL.
  - destruct (cc_model nlat (-1) 1 Hn) as (q' & E' & H'). rewrite Q in E'. injection E' as <-. rewrite (proj2 (H' i)). apply rescale_pos; [lra|]. now apply cc_weight_pos.
  - eapply trap_pos; eauto. lra.
  - discriminate.
Qed.
