(** The losses against the specification. *)
From Coq Require Import List Arith Lia Bool Reals Lra.
From Verif Require Import TensorModel TensorProofs BigSum TruncModel QuadModel CCProofs LossModel LossSpec LossProofs LossProofs2.
Import ListNotations.
Local Open Scope R_scope.

Lemma average_le : forall s F G, (1 <= count s)%nat -> (forall i, valid s i -> F i <= G i) -> average s F <= average s G.
Proof. intros s F G C H. unfold average. apply Rmult_le_compat_r. left. apply Rinv_0_lt_compat, count_pos; auto. now apply total_le. Qed.
Lemma average_const : forall s c, (1 <= count s)%nat -> average s (fun _ => c) = c.
Proof. intros s c C. unfold average. rewrite total_const. field. pose proof (count_pos s C). lra. Qed.
Lemma average_nonneg : forall s F, (1 <= count s)%nat -> (forall i, valid s i -> 0 <= F i) -> 0 <= average s F.
Proof. intros s F C H. rewrite <- (average_const s 0 C). apply average_le; auto. Qed.
Lemma average_plus : forall s F G, average s (fun i => F i + G i) = average s F + average s G.
Proof. intros. unfold average. rewrite total_plus. unfold Rdiv. ring. Qed.
Lemma average_scal : forall s c F, average s (fun i => c * F i) = c * average s F.
Proof. intros. unfold average. rewrite total_scal. unfold Rdiv. ring. Qed.
Lemma average_zero : forall s F, (1 <= count s)%nat -> (forall i, valid s i -> 0 <= F i) -> (average s F = 0 <-> forall i, valid s i -> F i = 0).
Proof.
  intros s F C H. pose proof (count_pos s C) as P. unfold average. split.
  - intros Z. apply total_zero; auto. unfold Rdiv in Z. apply Rmult_integral in Z. destruct Z as [Z|Z]; auto. pose proof (Rinv_0_lt_compat _ P). lra.
  - intros Z. rewrite (total_ext s F (fun _ => 0)) by auto. rewrite total_const. unfold Rdiv. ring.
Qed.

(** ** sqrt hook *)
Lemma l2_value : forall q h a x y m lead lm w, rows q h a -> shp x = lead ++ [h; w] -> shp y = lead ++ [h; w] -> mask_ok h w a m lm lead -> (1 <= count lead)%nat ->
  (forall k, (k < h)%nat -> 0 < a k) -> mask_nonneg h w m ->
  l2_loss q x y m = Some (average lead (fun i => sqrt (integral h w a m lm (fun i => (val x i - val y i) ^ 2) i))).
Proof.
  intros q h a x y m lead lm w Q Sx Sy M C A MN. unfold l2_loss, spherical_loss. destruct (bmap2_same _ _ _ (fun p t => (p - t) ^ 2) x y _ Sx Sy) as (z & -> & Sz & Vz). cbn [bindo].
  destruct (integrate_any q h a z m lead lm w Q Sz M) as (l & -> & Sl & Vl). cbn [bindo]. unfold tsqrt.
  assert (VL : forall i, valid lead i -> val l i = integral h w a m lm (fun i => (val x i - val y i) ^ 2) i).
  { intros i Hi. rewrite Vl by auto. apply integral_ext. intros k j Hk Hj. rewrite Vz by (now apply valid_2'). reflexivity. }
  rewrite (proj2 (forallb_forall _ _)).
  2:{ intros i Hi. rewrite Sl in Hi. apply in_indices in Hi. rewrite VL by auto. destruct (Rle_dec 0 _) as [_|N]; auto. exfalso. apply N. apply (integral_nonneg h w a m lm lead); auto. intros. apply pow2_ge_0. }
  cbn [bindo]. rewrite mean_value by (cbn [map_t shp]; rewrite Sl; auto). f_equal. cbn [map_t shp val]. rewrite Sl. apply average_ext. intros i Hi. now rewrite VL.
Qed.
Lemma sqrt_sq_abs : forall x, sqrt (x ^ 2) = Rabs x. Proof. intros. rewrite <- sqrt_Rsqr_abs. f_equal. unfold Rsqr. ring. Qed.
Lemma minkowski : forall h w a m lm lead f g i, (forall k, (k < h)%nat -> 0 < a k) -> mask_ok h w a m lm lead -> mask_nonneg h w m -> valid lead i ->
  sqrt (integral h w a m lm (fun x => (f x + g x) ^ 2) i) <= sqrt (integral h w a m lm (fun x => f x ^ 2) i) + sqrt (integral h w a m lm (fun x => g x ^ 2) i).
Proof.
  intros h w a m lm lead f g i A M MN Hi. set (F := integral h w a m lm (fun x => f x ^ 2) i). set (G := integral h w a m lm (fun x => g x ^ 2) i).
  assert (HF : 0 <= F) by (apply (integral_nonneg h w a m lm lead); auto; intros; apply pow2_ge_0). assert (HG : 0 <= G) by (apply (integral_nonneg h w a m lm lead); auto; intros; apply pow2_ge_0).
  pose proof (integral_cs h w a m lm lead A M MN f g i Hi) as CS. fold F G in CS. set (H := integral h w a m lm (fun x => f x * g x) i) in *.
  rewrite (integral_ext h w a m lm (fun x => (f x + g x) ^ 2) (fun x => 1 * (1 * f x ^ 2 + 2 * (f x * g x)) + 1 * g x ^ 2)) by (intros; ring).
  rewrite (integral_lin h w a m lm 1 1 (fun x => 1 * f x ^ 2 + 2 * (f x * g x)) (fun x => g x ^ 2)), (integral_lin h w a m lm 1 2 (fun x => f x ^ 2) (fun x => f x * g x)). fold F G H.
  pose proof (sqrt_pos F). pose proof (sqrt_pos G). pose proof (sqrt_sqrt F HF) as SF. pose proof (sqrt_sqrt G HG) as SG.
  assert (HH : H <= sqrt F * sqrt G). { apply Rsqr_incr_0_var; [|nra]. unfold Rsqr. replace (sqrt F * sqrt G * (sqrt F * sqrt G)) with ((sqrt F * sqrt F) * (sqrt G * sqrt G)) by ring. rewrite SF, SG. nra. }
  rewrite <- (sqrt_Rsqr (sqrt F + sqrt G)) by lra. apply sqrt_le_1_alt. unfold Rsqr. nra.
Qed.

Lemma rsum_pos' : forall n f, (1 <= n)%nat -> (forall i, (i < n)%nat -> 0 < f i) -> 0 < rsum n f.
Proof. intros n f Hn' H. destruct n; [lia|]. cbn [bsum_]. assert (0 <= rsum n f) by (apply rsum_nonneg; intros; left; apply H; lia). pose proof (H n ltac:(lia)). lra. Qed.

(** ** Constructor *)
Section Con.
Variables (gl : nat -> rule) (nlat nlon : nat) (g : grid) (lat : rule) (normalized : bool) (q : tensor R).
Hypotheses (El : precompute_latitudes gl nlat g = Some lat) (Hn : (1 <= nlon)%nat) (E : loss_weights gl nlat nlon g normalized = Some q).
Definition row_weight (k : nat) : R := if normalized then area (rw lat) nlat nlon k else 2 * PI * rw lat k / INR nlon.
Lemma con_rows : rows q nlat row_weight.
Proof.
  assert (HT : normalized = true -> rsum nlat (rw lat) <> 0). { intros N Z. unfold loss_weights in E. destruct (weights_decided gl nlat nlon g lat El Hn false normalized) as [_ D]. rewrite (D (conj N Z)) in E. discriminate. }
  destruct (weights_value gl nlat nlon g lat El Hn false normalized HT) as (q' & E' & S & V). unfold loss_weights in E. rewrite E in E'. injection E' as <-. split; auto. intros k Hk. apply V.
Qed.
Lemma con_total : normalized = true -> rsum nlat (rw lat) <> 0.
Proof. intros N Z. unfold loss_weights in E. destruct (weights_decided gl nlat nlon g lat El Hn false normalized) as [_ D]. rewrite (D (conj N Z)) in E. discriminate. Qed.
Lemma row_weight_pos : (forall k, (k < nlat)%nat -> 0 < rw lat k) -> forall k, (k < nlat)%nat -> 0 < row_weight k.
Proof.
  intros P k Hk. pose proof (INR_pos nlon Hn). pose proof PI_RGT_0. unfold row_weight, area. destruct normalized.
  - apply Rdiv_lt_0_compat; auto. apply Rmult_lt_0_compat; auto. apply rsum_pos'; auto; lia.
  - apply Rdiv_lt_0_compat; auto. specialize (P k Hk). nra.
Qed.
(** a common factor of the row weights *)
Lemma row_weight_factor : exists c, c <> 0 /\ forall k, row_weight k = c * rw lat k.
Proof.
  pose proof (INR_pos nlon Hn). pose proof PI_RGT_0. pose proof con_total as T. unfold row_weight, area. destruct normalized.
  - specialize (T eq_refl). exists (/ (rsum nlat (rw lat) * INR nlon)). split. apply Rinv_neq_0_compat. apply Rmult_integral_contrapositive. split; auto; lra. intros k. unfold Rdiv. ring.
  - exists (2 * PI / INR nlon). split. apply Rgt_not_eq, Rdiv_lt_0_compat; lra. intros k. unfold Rdiv. ring.
Qed.
Lemma integral_on_sphere : forall lm F i, normalized = true -> integral nlat nlon row_weight None lm F i = mean_on_sphere (rw lat) nlat nlon (fun k j => F (i ++ [k; j]%nat)).
Proof. intros lm F i N. unfold integral, mean_on_sphere, row_weight. rewrite N. reflexivity. Qed.
Lemma denominator_factor : forall c w m i, (forall k, row_weight k = c * rw lat k) -> denominator nlat w row_weight m i = c * rsum nlat (fun k => rsum w (fun j => rw lat k * val m (i ++ [k; j]%nat))).
Proof. intros c w m i H. unfold denominator. rewrite <- (bsum_scal_l RT). apply bsum_ext. intros k Hk. rewrite <- (bsum_scal_l RT). apply bsum_ext. intros j Hj. rewrite H. ring. Qed.
Lemma integral_on_mask : forall w m lm F i, (rsum nlat (fun k => rsum w (fun j => rw lat k * val m (bidx lm i ++ [k; j]%nat))) <> 0) ->
  integral nlat w row_weight (Some m) lm F i = mean_on_mask (rw lat) nlat w (fun k j => val m (bidx lm i ++ [k; j]%nat)) (fun k j => F (i ++ [k; j]%nat)).
Proof.
  intros w m lm F i D. destruct row_weight_factor as (c & Hc & RW). unfold integral, mean_on_mask. rewrite (denominator_factor c) by auto.
  rewrite (bsum_ext nlat (fun k => rsum w (fun j => row_weight k * val m (bidx lm i ++ [k; j]%nat) * F (i ++ [k; j]%nat))) (fun k => c * rsum w (fun j => rw lat k * val m (bidx lm i ++ [k; j]%nat) * F (i ++ [k; j]%nat)))).
  2:{ intros k Hk. rewrite <- (bsum_scal_l RT). apply bsum_ext. intros j Hj. rewrite RW. ring. }
  rewrite (bsum_scal_l RT). now field.
Qed.
End Con.
