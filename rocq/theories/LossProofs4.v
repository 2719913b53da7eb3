(** Properties of the losses built by the constructor. *)
From Coq Require Import List Arith Lia Bool Reals Lra.
From Verif Require Import TensorModel TensorProofs BigSum TruncModel QuadModel CCProofs QuadProofs QuadPropProofs LossModel LossSpec LossProofs LossProofs2 LossProofs3.
Import ListNotations.
Local Open Scope R_scope.

Section L.
Variables (gl : nat -> rule) (nlat nlon : nat) (g : grid) (lat : rule) (normalized : bool) (q : tensor R) (lead : list nat).
Hypotheses (El : precompute_latitudes gl nlat g = Some lat) (Hn : (1 <= nlon)%nat) (E : loss_weights gl nlat nlon g normalized = Some q) (C : (1 <= count lead)%nat).
Notation RW := (row_weight nlat nlon lat normalized).
Notation field x := (shp x = lead ++ [nlat; nlon]).

Lemma values_sphere : normalized = true -> forall x y, field x -> field y ->
  squared_l2_loss q x y None = Some (average lead (fun i => mean_on_sphere (rw lat) nlat nlon (fun k j => (val x (i ++ [k; j]) - val y (i ++ [k; j])) ^ 2))) /\
  l1_loss q x y None = Some (average lead (fun i => mean_on_sphere (rw lat) nlat nlon (fun k j => Rabs (val x (i ++ [k; j]) - val y (i ++ [k; j]))))) /\
  ((forall k, (k < nlat)%nat -> 0 < rw lat k) ->
   l2_loss q x y None = Some (average lead (fun i => sqrt (mean_on_sphere (rw lat) nlat nlon (fun k j => (val x (i ++ [k; j]) - val y (i ++ [k; j])) ^ 2))))).
Proof.
  intros N x y Sx Sy. pose proof (con_rows gl nlat nlon g lat normalized q El Hn E) as Q. split; [|split].
  - unfold squared_l2_loss. rewrite (loss_value q nlat RW x y None lead [] nlon) by (auto; exact I). f_equal. apply average_ext. intros i Hi. now rewrite integral_on_sphere.
  - unfold l1_loss. rewrite (loss_value q nlat RW x y None lead [] nlon) by (auto; exact I). f_equal. apply average_ext. intros i Hi. now rewrite integral_on_sphere.
  - intros P. rewrite (l2_value q nlat RW x y None lead [] nlon); auto; try exact I. 2:{ intros k Hk. eapply row_weight_pos; eauto. } f_equal. apply average_ext. intros i Hi. now rewrite integral_on_sphere.
Qed.
(** mask of a shape that broadcasts to the one of the fields, of non-zero weight *)
Definition good_mask (lm : list nat) (m : tensor R) : Prop := shp m = lm ++ [nlat; nlon] /\ bshape lm lead = Some lead /\
  forall i, valid lm i -> rsum nlat (fun k => rsum nlon (fun j => rw lat k * val m (i ++ [k; j]))) <> 0.
Lemma good_mask_ok : forall lm m, good_mask lm m -> mask_ok nlat nlon RW (Some m) lm lead.
Proof.
  intros lm m (M1 & M2 & M3). split; auto. split; auto. intros i Hi. destruct (row_weight_factor gl nlat nlon g lat normalized q El Hn E) as (c & Hc & F). rewrite (denominator_factor _ _ _ _ c) by auto.
  apply Rmult_integral_contrapositive. split; auto.
Qed.
Definition option_mask (lm : list nat) (m : option (tensor R)) : Prop := match m with None => True | Some m => good_mask lm m end.
Lemma option_mask_ok : forall lm m, option_mask lm m -> mask_ok nlat nlon RW m lm lead. Proof. intros lm [m|] H. now apply good_mask_ok. exact I. Qed.
Lemma values_mask : forall x y m lm, field x -> field y -> good_mask lm m ->
  let M i k j := val m (bidx lm i ++ [k; j]) in
  squared_l2_loss q x y (Some m) = Some (average lead (fun i => mean_on_mask (rw lat) nlat nlon (M i) (fun k j => (val x (i ++ [k; j]) - val y (i ++ [k; j])) ^ 2))) /\
  l1_loss q x y (Some m) = Some (average lead (fun i => mean_on_mask (rw lat) nlat nlon (M i) (fun k j => Rabs (val x (i ++ [k; j]) - val y (i ++ [k; j]))))) /\
  ((forall k, (k < nlat)%nat -> 0 < rw lat k) -> mask_nonneg nlat nlon (Some m) ->
   l2_loss q x y (Some m) = Some (average lead (fun i => sqrt (mean_on_mask (rw lat) nlat nlon (M i) (fun k j => (val x (i ++ [k; j]) - val y (i ++ [k; j])) ^ 2))))).
Proof.
  intros x y m lm Sx Sy GM M. pose proof (con_rows gl nlat nlon g lat normalized q El Hn E) as Q. pose proof (good_mask_ok lm m GM) as K. destruct GM as (M1 & M2 & M3).
  assert (IM : forall F i, valid lead i -> integral nlat nlon RW (Some m) lm F i = mean_on_mask (rw lat) nlat nlon (M i) (fun k j => F (i ++ [k; j]))).
  { intros F i Hi. eapply integral_on_mask; eauto. apply M3. eapply bidx_valid_b; eauto. }
  split; [|split].
  - unfold squared_l2_loss. rewrite (loss_value q nlat RW x y (Some m) lead lm nlon) by auto. f_equal. apply average_ext. intros i Hi. now rewrite IM.
  - unfold l1_loss. rewrite (loss_value q nlat RW x y (Some m) lead lm nlon) by auto. f_equal. apply average_ext. intros i Hi. now rewrite IM.
  - intros P MN. rewrite (l2_value q nlat RW x y (Some m) lead lm nlon); auto. 2:{ intros k Hk. eapply row_weight_pos; eauto. } f_equal. apply average_ext. intros i Hi. now rewrite IM.
Qed.
Lemma empty_mask : forall x y m lm i, field x -> field y -> shp m = lm ++ [nlat; nlon] -> bshape lm lead = Some lead -> valid lm i ->
  (forall k j, (k < nlat)%nat -> (j < nlon)%nat -> val m (i ++ [k; j]) = 0) ->
  squared_l2_loss q x y (Some m) = None /\ l1_loss q x y (Some m) = None /\ l2_loss q x y (Some m) = None.
Proof.
  intros x y m lm i Sx Sy Sm Hb Hi Z. pose proof (con_rows gl nlat nlon g lat normalized q El Hn E) as Q.
  assert (D : denominator nlat nlon RW m i = 0). { unfold denominator. apply (bsum_zero' RT). intros k Hk. apply (bsum_zero' RT). intros j Hj. rewrite Z by auto. ring. }
  assert (G : forall f hk, spherical_loss (bmap2 f) hk q x y (Some m) = None).
  { intros f hk. unfold spherical_loss. destruct (bmap2_same _ _ _ f x y _ Sx Sy) as (z & -> & Sz & Vz). cbn [bindo]. rewrite (integrate_mask_none q nlat RW z m lead lm nlon i); auto. }
  repeat split; apply G.
Qed.

Hypothesis P : forall k, (k < nlat)%nat -> 0 < rw lat k.
Variables (lm : list nat) (m : option (tensor R)).
Hypotheses (GM : option_mask lm m) (MN : mask_nonneg nlat nlon m).
Lemma RWpos : forall k, (k < nlat)%nat -> 0 < RW k. Proof. eapply row_weight_pos; eauto. Qed.
Definition pixel_counts (i : list nat) (k j : nat) : Prop := match m with None => True | Some mm => val mm (bidx lm i ++ [k; j]) <> 0 end.

Lemma losses_exist : forall x y, field x -> field y -> exists a b c, squared_l2_loss q x y m = Some a /\ l1_loss q x y m = Some b /\ l2_loss q x y m = Some c /\
  0 <= a /\ 0 <= b /\ 0 <= c /\
  (forall v, v = a \/ v = b \/ v = c -> (v = 0 <-> forall i k j, valid lead i -> (k < nlat)%nat -> (j < nlon)%nat -> pixel_counts i k j -> val x (i ++ [k; j]) = val y (i ++ [k; j]))).
Proof.
  intros x y Sx Sy. pose proof (con_rows gl nlat nlon g lat normalized q El Hn E) as Q. pose proof (option_mask_ok lm m GM) as K. pose proof RWpos as A.
  assert (N2 : forall i, valid lead i -> 0 <= integral nlat nlon RW m lm (fun i => (val x i - val y i) ^ 2) i) by (intros; apply (integral_nonneg nlat nlon RW m lm lead); auto; intros; apply pow2_ge_0).
  assert (N1 : forall i, valid lead i -> 0 <= integral nlat nlon RW m lm (fun i => Rabs (val x i - val y i)) i) by (intros; apply (integral_nonneg nlat nlon RW m lm lead); auto; intros; apply Rabs_pos).
  do 3 eexists. split; [apply (loss_value q nlat RW x y m lead lm nlon); auto|]. split; [apply (loss_value q nlat RW x y m lead lm nlon); auto|]. split; [apply (l2_value q nlat RW x y m lead lm nlon); auto|].
  split; [apply average_nonneg; auto|]. split; [apply average_nonneg; auto|]. split; [apply average_nonneg; auto; intros; apply sqrt_pos|].
  assert (Z2 : forall i, valid lead i -> (integral nlat nlon RW m lm (fun i => (val x i - val y i) ^ 2) i = 0 <-> forall k j, (k < nlat)%nat -> (j < nlon)%nat -> pixel_counts i k j -> val x (i ++ [k; j]) = val y (i ++ [k; j]))).
  { intros i Hi. rewrite (integral_zero nlat nlon RW m lm lead A K MN) by (auto; intros; apply pow2_ge_0). split; intros H k j Hk Hj Hc; specialize (H k j Hk Hj Hc). nra. rewrite H. ring. }
  assert (Z1 : forall i, valid lead i -> (integral nlat nlon RW m lm (fun i => Rabs (val x i - val y i)) i = 0 <-> forall k j, (k < nlat)%nat -> (j < nlon)%nat -> pixel_counts i k j -> val x (i ++ [k; j]) = val y (i ++ [k; j]))).
  { intros i Hi. rewrite (integral_zero nlat nlon RW m lm lead A K MN) by (auto; intros; apply Rabs_pos). split; intros H k j Hk Hj Hc; specialize (H k j Hk Hj Hc). pose proof (Rabs_no_R0 (val x (i ++ [k; j]) - val y (i ++ [k; j]))). destruct (Req_dec (val x (i ++ [k; j])) (val y (i ++ [k; j]))); auto. exfalso. apply H0; auto. lra. rewrite H, Rminus_diag_eq by auto. apply Rabs_R0. }
  intros v [V|[V|V]]; rewrite V, average_zero; auto.
  - split. intros H i k j Hi. now apply Z2, H. intros H i Hi. apply Z2; auto.
  - split. intros H i k j Hi. now apply Z1, H. intros H i Hi. apply Z1; auto.
  - split. intros H i k j Hi. apply Z2; auto. apply sqrt_eq_0; auto. intros H i Hi. rewrite (proj2 (Z2 i Hi)) by auto. apply sqrt_0.
  - intros. apply sqrt_pos.
Qed.
Lemma constant_offset : (m = None -> normalized = true) -> forall c x y, field x -> field y ->
  (forall i k j, valid lead i -> (k < nlat)%nat -> (j < nlon)%nat -> val x (i ++ [k; j]) = val y (i ++ [k; j]) + c) ->
  squared_l2_loss q x y m = Some (c ^ 2) /\ l1_loss q x y m = Some (Rabs c) /\ l2_loss q x y m = Some (Rabs c).
Proof.
  intros HN c x y Sx Sy H. pose proof (con_rows gl nlat nlon g lat normalized q El Hn E) as Q. pose proof (option_mask_ok lm m GM) as K. pose proof RWpos as A.
  assert (T : m = None -> rsum nlat (fun k => rsum nlon (fun _ => RW k)) = 1).
  { intros M0. specialize (HN M0). pose proof (con_total gl nlat nlon g lat normalized q El Hn E HN) as T. unfold row_weight. rewrite HN. now apply area_total. }
  assert (IC : forall (F : R -> R) i, valid lead i -> integral nlat nlon RW m lm (fun i => F (val x i - val y i)) i = F c).
  { intros F i Hi. rewrite (integral_ext _ _ _ _ _ _ (fun _ => F c)). apply (integral_const nlat nlon RW m lm lead); auto. intros k j Hk Hj. f_equal. rewrite H by auto. ring. }
  split; [|split].
  - unfold squared_l2_loss. rewrite (loss_value q nlat RW x y m lead lm nlon) by auto. f_equal. rewrite (average_ext _ _ (fun _ => c ^ 2)) by (intros; now apply (IC (fun d => d ^ 2))). now apply average_const.
  - unfold l1_loss. rewrite (loss_value q nlat RW x y m lead lm nlon) by auto. f_equal. rewrite (average_ext _ _ (fun _ => Rabs c)) by (intros; now apply (IC Rabs)). now apply average_const.
  - rewrite (l2_value q nlat RW x y m lead lm nlon) by auto. f_equal. rewrite (average_ext _ _ (fun _ => Rabs c)). now apply average_const. intros i Hi. rewrite (IC (fun d => d ^ 2)) by auto. apply sqrt_sq_abs.
Qed.
Lemma triangle : forall x y z a b, field x -> field y -> field z ->
  (l1_loss q x y m = Some a -> l1_loss q y z m = Some b -> exists c, l1_loss q x z m = Some c /\ c <= a + b) /\
  (l2_loss q x y m = Some a -> l2_loss q y z m = Some b -> exists c, l2_loss q x z m = Some c /\ c <= a + b).
Proof.
  intros x y z a b Sx Sy Sz. pose proof (con_rows gl nlat nlon g lat normalized q El Hn E) as Q. pose proof (option_mask_ok lm m GM) as K. pose proof RWpos as A.
  split.
  - unfold l1_loss. rewrite !(fun x y => loss_value q nlat RW x y m lead lm nlon) by auto. intros Ea Eb. injection Ea as <-. injection Eb as <-. eexists. split; [reflexivity|].
    rewrite <- average_plus. apply average_le; auto. intros i Hi.
    apply Rle_trans with (integral nlat nlon RW m lm (fun i => 1 * Rabs (val x i - val y i) + 1 * Rabs (val y i - val z i)) i).
    + apply (integral_le nlat nlon RW m lm lead); auto. intros k j Hk Hj. replace (val x (i ++ [k; j]) - val z (i ++ [k; j])) with ((val x (i ++ [k; j]) - val y (i ++ [k; j])) + (val y (i ++ [k; j]) - val z (i ++ [k; j]))) by ring.
      rewrite !Rmult_1_l. apply Rabs_triang.
    + rewrite (integral_lin nlat nlon RW m lm 1 1 (fun i => Rabs (val x i - val y i)) (fun i => Rabs (val y i - val z i))). lra.
  - rewrite !(fun x y => l2_value q nlat RW x y m lead lm nlon) by auto. intros Ea Eb. injection Ea as <-. injection Eb as <-. eexists. split; [reflexivity|].
    rewrite <- average_plus. apply average_le; auto. intros i Hi.
    rewrite (integral_ext nlat nlon RW m lm (fun i => (val x i - val z i) ^ 2) (fun i => ((val x i - val y i) + (val y i - val z i)) ^ 2)) by (intros; f_equal; ring).
    apply (minkowski nlat nlon RW m lm lead (fun i => val x i - val y i) (fun i => val y i - val z i)); auto.
Qed.
Lemma l1_below_l2 : (m = None -> normalized = true) -> forall x y a b, field x -> field y -> l1_loss q x y m = Some a -> l2_loss q x y m = Some b -> a <= b.
Proof.
  intros HN x y a b Sx Sy. pose proof (con_rows gl nlat nlon g lat normalized q El Hn E) as Q. pose proof (option_mask_ok lm m GM) as K. pose proof RWpos as A.
  assert (T : m = None -> rsum nlat (fun k => rsum nlon (fun _ => RW k)) = 1).
  { intros M0. specialize (HN M0). pose proof (con_total gl nlat nlon g lat normalized q El Hn E HN) as T. unfold row_weight. rewrite HN. now apply area_total. }
  unfold l1_loss. rewrite (loss_value q nlat RW x y m lead lm nlon), (l2_value q nlat RW x y m lead lm nlon) by auto. intros Ea Eb. injection Ea as <-. injection Eb as <-. apply average_le; auto. intros i Hi.
  pose proof (integral_cs nlat nlon RW m lm lead A K MN (fun i => Rabs (val x i - val y i)) (fun _ => 1) i Hi) as CS.
  rewrite (integral_ext nlat nlon RW m lm (fun _ => 1 ^ 2) (fun _ => 1)) in CS by (intros; ring). rewrite (integral_const nlat nlon RW m lm lead) in CS by auto.
  rewrite (integral_ext nlat nlon RW m lm (fun x0 => Rabs (val x x0 - val y x0) * 1) (fun x0 => Rabs (val x x0 - val y x0))) in CS by (intros; ring).
  rewrite (integral_ext nlat nlon RW m lm (fun x0 => Rabs (val x x0 - val y x0) ^ 2) (fun x0 => (val x x0 - val y x0) ^ 2)) in CS by (intros; apply pow2_abs).
  set (F := integral nlat nlon RW m lm (fun i => Rabs (val x i - val y i)) i) in *. set (G := integral nlat nlon RW m lm (fun i => (val x i - val y i) ^ 2) i) in *.
  assert (0 <= F) by (apply (integral_nonneg nlat nlon RW m lm lead); auto; intros; apply Rabs_pos). rewrite <- (sqrt_Rsqr F) by auto. apply sqrt_le_1_alt. change (F * F <= G). lra.
Qed.
Lemma masked_out : forall x y x' y', field x -> field y -> field x' -> field y' ->
  (forall i k j, valid lead i -> (k < nlat)%nat -> (j < nlon)%nat -> pixel_counts i k j -> val x (i ++ [k; j]) = val x' (i ++ [k; j]) /\ val y (i ++ [k; j]) = val y' (i ++ [k; j])) ->
  squared_l2_loss q x y m = squared_l2_loss q x' y' m /\ l1_loss q x y m = l1_loss q x' y' m /\ l2_loss q x y m = l2_loss q x' y' m.
Proof.
  intros x y x' y' Sx Sy Sx' Sy' H. pose proof (con_rows gl nlat nlon g lat normalized q El Hn E) as Q. pose proof (option_mask_ok lm m GM) as K. pose proof RWpos as A.
  assert (I : forall (F : R -> R) i, valid lead i -> integral nlat nlon RW m lm (fun i => F (val x i - val y i)) i = integral nlat nlon RW m lm (fun i => F (val x' i - val y' i)) i).
  { intros F i Hi. unfold integral, pixel_counts in *. clear GM MN K. destruct m as [mm|].
    - f_equal. apply bsum_ext. intros k Hk. apply bsum_ext. intros j Hj. destruct (Req_dec (val mm (bidx lm i ++ [k; j])) 0) as [->|Z]. ring. destruct (H i k j Hi Hk Hj Z) as [-> ->]. reflexivity.
    - apply bsum_ext. intros k Hk. apply bsum_ext. intros j Hj. destruct (H i k j Hi Hk Hj I) as [-> ->]. reflexivity. }
  split; [|split].
  - unfold squared_l2_loss. rewrite !(fun x y => loss_value q nlat RW x y m lead lm nlon) by auto. f_equal. apply average_ext. intros i Hi. apply (I (fun d => d ^ 2)); auto.
  - unfold l1_loss. rewrite !(fun x y => loss_value q nlat RW x y m lead lm nlon) by auto. f_equal. apply average_ext. intros i Hi. apply (I Rabs); auto.
  - rewrite !(fun x y => l2_value q nlat RW x y m lead lm nlon) by auto. f_equal. apply average_ext. intros i Hi. f_equal. apply (I (fun d => d ^ 2)); auto.
Qed.
End L.

(** The column count of the fields is not checked: weights for nlon columns applied to W columns. *)
Lemma width_unchecked : forall gl nlat nlon g lat q W lead c x y, precompute_latitudes gl nlat g = Some lat -> (1 <= nlon)%nat -> loss_weights gl nlat nlon g true = Some q -> (1 <= count lead)%nat ->
  shp x = lead ++ [nlat; W] -> shp y = shp x -> (forall i, val x i = val y i + c) -> l1_loss q x y None = Some (INR W / INR nlon * Rabs c).
Proof.
  intros gl nlat nlon g lat q W lead c x y El Hn E C Sx Sy H. pose proof (con_rows gl nlat nlon g lat true q El Hn E) as Q. pose proof (con_total gl nlat nlon g lat true q El Hn E eq_refl) as T.
  unfold l1_loss. rewrite (loss_value q nlat (row_weight nlat nlon lat true) x y None lead [] W); auto; try congruence; try exact I. f_equal.
  rewrite (average_ext _ _ (fun _ => INR W / INR nlon * Rabs c)). now apply average_const. intros i Hi. unfold integral, row_weight, area.
  pose proof (INR_pos nlon Hn).
  rewrite (bsum_ext nlat _ (fun k => INR W * Rabs c / (rsum nlat (rw lat) * INR nlon) * rw lat k)).
  - rewrite (bsum_scal_l RT). field. split; auto; lra.
  - intros k Hk. rewrite (bsum_ext W _ (fun _ => rw lat k / (rsum nlat (rw lat) * INR nlon) * Rabs c)). rewrite rsum_const. unfold Rdiv. ring. intros j Hj. rewrite H. f_equal. f_equal. ring.
Qed.
