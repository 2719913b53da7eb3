(** The piecewise linear filter basis. *)
From Coq Require Import List Arith ZArith Lia Bool Reals Lra.
From Verif Require Import TensorModel BigSum ResampleModel ResampleProofs FilterModel FilterSpec AttnGradProofs AttnUpProofs.
Import ListNotations.
Local Open Scope R_scope.

(** ** Tables *)
Lemma NoDup_app' : forall A (a b : list A), NoDup a -> NoDup b -> (forall x, In x a -> In x b -> False) -> NoDup (a ++ b).
Proof.
  induction a as [|x a IH]; intros b Ha Hb D; [exact Hb|]. inversion Ha; subst. cbn [app]. constructor.
  - intros I. apply in_app_or in I. destruct I; [auto|]. apply (D x); [left; auto|auto].
  - apply IH; auto. intros y Iy Iy'. apply (D y); [right; auto|auto].
Qed.
Lemma NoDup_flat_map : forall A B (f : A -> list B) l, NoDup l -> (forall x, In x l -> NoDup (f x)) -> (forall x y b, In x l -> In y l -> In b (f x) -> In b (f y) -> x = y) -> NoDup (flat_map f l).
Proof.
  intros A B f l H. induction H as [|x l Hx Hl IH]; intros H1 H2; [constructor|]. cbn [flat_map]. apply NoDup_app'.
  - apply H1. left. auto.
  - apply IH; [intros; apply H1; right; auto|]. intros y z b Hy Hz. apply H2; right; auto.
  - intros b Ib Ib'. apply in_flat_map in Ib'. destruct Ib' as (y & Iy & Iyb). rewrite (H2 x y b) in Hx; auto; [left; auto|right; auto].
Qed.
Lemma NoDup_map_inj : forall A B (f : A -> B) l, (forall x y, f x = f y -> x = y) -> NoDup l -> NoDup (map f l).
Proof.
  intros A B f l I H. induction H as [|x l Hx Hl IH]; [constructor|]. cbn [map]. constructor; auto.
  intros Im. apply in_map_iff in Im. destruct Im as (y & E & Iy). apply I in E. congruence.
Qed.
Lemma in_all_idx : forall K H W k i j, In (k, i, j) (all_idx K H W) <-> (k < K /\ i < H /\ j < W)%nat.
Proof.
  intros. unfold all_idx. rewrite in_flat_map. split.
  - intros (k' & Ik & I). apply in_flat_map in I. destruct I as (i' & Ii & I). apply in_map_iff in I. destruct I as (j' & E & Ij). injection E as -> -> ->.
    apply in_seq in Ik. apply in_seq in Ii. apply in_seq in Ij. lia.
  - intros (Hk & Hi & Hj). exists k. split; [apply in_seq; lia|]. apply in_flat_map. exists i. split; [apply in_seq; lia|]. apply in_map_iff. exists j. split; [auto|apply in_seq; lia].
Qed.
Lemma NoDup_all_idx : forall K H W, NoDup (all_idx K H W).
Proof.
  intros. unfold all_idx. apply NoDup_flat_map; [apply seq_NoDup| |].
  - intros k _. apply NoDup_flat_map; [apply seq_NoDup| |].
    + intros i _. apply NoDup_map_inj; [|apply seq_NoDup]. intros x y E. injection E. auto.
    + intros i i' b _ _ I I'. apply in_map_iff in I. apply in_map_iff in I'. destruct I as (j & <- & _). destruct I' as (j' & E & _). injection E. auto.
  - intros k k' b _ _ I I'. apply in_flat_map in I. apply in_flat_map in I'. destruct I as (i & _ & I). destruct I' as (i' & _ & I').
    apply in_map_iff in I. apply in_map_iff in I'. destruct I as (j & <- & _). destruct I' as (j' & E & _). injection E. auto.
Qed.
Lemma in_argwhere : forall K H W c k i j, In (k, i, j) (argwhere K H W c) <-> (k < K /\ i < H /\ j < W)%nat /\ c k i j = true.
Proof. intros. unfold argwhere. rewrite filter_In, in_all_idx. reflexivity. Qed.
Lemma NoDup_argwhere : forall K H W c, NoDup (argwhere K H W c).
Proof. intros. unfold argwhere. apply NoDup_filter, NoDup_all_idx. Qed.
Lemma fst_with_vals : forall l f, map fst (with_vals l f) = l.
Proof. intros. unfold with_vals. rewrite map_map. cbn [fst]. rewrite map_id. reflexivity. Qed.
Lemma table_represents : forall K H W c v r phi rc f,
  (forall k i j, (k < K)%nat -> (i < H)%nat -> (j < W)%nat -> c k i j = true -> r i j <= rc /\ v k i j = f k (r i j) (phi i j)) ->
  (forall k i j, (k < K)%nat -> (i < H)%nat -> (j < W)%nat -> c k i j = false -> r i j <= rc -> f k (r i j) (phi i j) = 0) ->
  represents (with_vals (argwhere K H W c) v) K H W r phi rc f.
Proof.
  intros K H W c v r phi rc f H1 H2. unfold represents. rewrite fst_with_vals. split; [apply NoDup_argwhere|]. split.
  - intros k i j x I. unfold with_vals in I. apply in_map_iff in I. destruct I as (t & E & I). destruct t as ((k', i'), j'). injection E as -> -> -> <-.
    apply in_argwhere in I. destruct I as ((Hk & Hi & Hj) & Hc). destruct (H1 k i j Hk Hi Hj Hc). auto.
  - intros k i j Hk Hi Hj Hr N. apply H2; auto. destruct (c k i j) eqn:E; [|auto]. exfalso. apply N. apply in_argwhere. auto.
Qed.

(** ** Distances on the circle *)
Lemma acos_cos_fold : forall y, 0 <= y <= 2 * PI -> acos (cos y) = Rmin y (2 * PI - y).
Proof.
  intros y Hy. pose proof PI_RGT_0. destruct (Rle_lt_dec y PI).
  - rewrite acos_cos by lra. rewrite Rmin_left; lra.
  - rewrite Rmin_right by lra. rewrite <- (acos_cos (2 * PI - y)) by lra. f_equal. rewrite <- (cos_neg y). replace (2 * PI - y) with (- y + 2 * PI) by ring.
    rewrite <- (cos_period (- y) 1). f_equal. simpl. ring.
Qed.
Lemma cos_abs : forall x, cos (Rabs x) = cos x.
Proof. intros. unfold Rabs. destruct (Rcase_abs x); [apply cos_neg|reflexivity]. Qed.
Lemma circle_dist_spec : forall a b, Rabs (a - b) <= 3 * PI -> circle_dist a b = adist a b.
Proof.
  intros a b Hab. unfold circle_dist, adist. rewrite <- (cos_abs (a - b)). set (y := Rabs (a - b)) in *. pose proof (Rabs_pos (a - b)). fold y in H. pose proof PI_RGT_0.
  destruct (Rle_lt_dec y (2 * PI)).
  - rewrite acos_cos_fold by lra. rewrite (Rabs_pos_eq (2 * PI - y)) by lra. reflexivity.
  - replace (cos y) with (cos (y - 2 * PI)). 2:{ rewrite <- (cos_period (y - 2 * PI) 1). f_equal. simpl. ring. }
    rewrite acos_cos by lra. rewrite (Rabs_left (2 * PI - y)) by lra. rewrite Rmin_right; lra.
Qed.
Lemma adist_range : forall a b, 0 <= adist a b <= PI.
Proof. intros. apply acos_bound. Qed.
Lemma adist_shift : forall a b k, adist (a + 2 * INR k * PI) b = adist a b.
Proof. intros. unfold adist. f_equal. replace (a + 2 * INR k * PI - b) with (a - b + 2 * INR k * PI) by ring. apply cos_period. Qed.

(** ** Hat functions *)
Lemma hat_range : forall d, 0 <= d -> 0 <= hat d <= 1.
Proof. intros. unfold hat, Rmax. destruct (Rle_dec 0 (1 - d)); lra. Qed.
Lemma hat_in : forall d, d <= 1 -> hat d = 1 - d.
Proof. intros. unfold hat. rewrite Rmax_right; lra. Qed.
Lemma hat_out : forall d, 1 <= d -> hat d = 0.
Proof. intros. unfold hat. rewrite Rmax_left; lra. Qed.
(** the sum of the first n hats with integer centres *)
Lemma hats_right : forall n x, (1 <= n)%nat -> 0 <= x -> rsum n (fun i => hat (Rabs (x - INR i))) = Rmin 1 (Rmax 0 (INR n - x)).
Proof.
  intros n x Hn Hx. induction n as [|n IH]; [lia|]. cbn [bsum_]. destruct (Nat.eq_dec n 0) as [->|N].
  - cbn [bsum_ INR]. rewrite Rminus_0_r, Rabs_pos_eq by lra. unfold hat. rewrite Rplus_0_l. symmetry. apply Rmin_right. apply Rmax_lub; lra.
  - rewrite IH by lia. rewrite S_INR. set (z := INR n). destruct (Rle_lt_dec x (z - 1)).
    + rewrite (Rabs_left1 (x - z)), hat_out by lra. rewrite (Rmax_right 0 (z - x)), (Rmax_right 0 (z + 1 - x)) by lra. rewrite !Rmin_left by lra. lra.
    + destruct (Rle_lt_dec x z).
      * rewrite (Rabs_left1 (x - z)), hat_in by lra. rewrite (Rmax_right 0 (z - x)), (Rmax_right 0 (z + 1 - x)) by lra. rewrite Rmin_right, Rmin_left by lra. lra.
      * rewrite (Rabs_right (x - z)) by lra. rewrite (Rmax_left 0 (z - x)) by lra. rewrite (Rmin_right 1 0) by lra. unfold hat.
        replace (1 - (x - z)) with (z + 1 - x) by ring. rewrite Rplus_0_l. symmetry. apply Rmin_right. apply Rmax_lub; lra.
Qed.
Lemma hats_left : forall n x, (1 <= n)%nat -> -1 <= x <= 0 -> rsum n (fun i => hat (Rabs (x - INR i))) = 1 + x.
Proof.
  intros n x Hn Hx. destruct n as [|n]; [lia|]. rewrite (bsum_S_l RT). rewrite (bsum_zero' RT).
  - cbn [INR]. rewrite Rminus_0_r, Rabs_left1, hat_in by lra. ring.
  - intros i _. rewrite S_INR. pose proof (pos_INR i). rewrite Rabs_left1 by lra. apply hat_out. lra.
Qed.
Lemma hat_min : forall a b, 2 <= a + b -> hat (Rmin a b) = hat a + hat b.
Proof.
  intros a b H. destruct (Rle_lt_dec a 1).
  - rewrite Rmin_left by lra. rewrite (hat_out b) by lra. ring.
  - rewrite (hat_out a) by lra. rewrite Rplus_0_l. destruct (Rle_lt_dec a b); [rewrite Rmin_left, !hat_out by lra; lra|rewrite Rmin_right by lra; auto].
Qed.
(** hats on the circle of n >= 2 points *)
Lemma hats_circle : forall n v, (2 <= n)%nat -> 0 <= v < INR n -> rsum n (fun j => hat (Rmin (Rabs (v - INR j)) (INR n - Rabs (v - INR j)))) = 1.
Proof.
  intros n v Hn Hv. assert (N2 : 2 <= INR n) by (replace 2 with (INR 2) by reflexivity; apply le_INR; lia).
  assert (E : forall j, (j < n)%nat -> hat (Rmin (Rabs (v - INR j)) (INR n - Rabs (v - INR j))) = hat (Rabs (v - INR j)) + hat (INR n - Rabs (v - INR j))).
  { intros. apply hat_min. lra. }
  rewrite (rsum_ext' n _ _ E), (bsum_plus RT), hats_right by (lia || lra).
  assert (T : rsum n (fun j => hat (INR n - Rabs (v - INR j))) = hat (INR n - v)).
  { destruct n as [|n]; [lia|]. rewrite (bsum_S_l RT), (bsum_zero' RT).
    - cbn [INR]. rewrite Rminus_0_r, (Rabs_pos_eq v) by lra. ring.
    - intros i Hi. apply hat_out. assert (INR (S i) <= INR n) by (apply le_INR; lia). assert (1 <= INR (S i)) by (rewrite S_INR; pose proof (pos_INR i); lra).
      rewrite S_INR in Hv |- *. unfold Rabs. destruct (Rcase_abs (v - INR (S i))); lra. }
  rewrite T, Rmax_right by lra. destruct (Rle_lt_dec v (INR n - 1)).
  - rewrite Rmin_left, hat_out by lra. ring.
  - rewrite Rmin_right, hat_in by lra. ring.
Qed.
Lemma angular_unity : forall n phi, (2 <= n)%nat -> 0 <= phi < 2 * PI -> rsum n (fun j => hat (adist phi (INR j * (2 * PI / INR n) - PI) / (2 * PI / INR n))) = 1.
Proof.
  intros n phi Hn Hp. pose proof PI_RGT_0. assert (N0 : 0 < INR n) by (apply lt_0_INR; lia). set (d := 2 * PI / INR n). assert (D : 0 < d) by (apply Rdiv_lt_0_compat; lra).
  assert (Dn : d * INR n = 2 * PI) by (unfold d; field; lra).
  assert (K : exists v, 0 <= v < INR n /\ forall j, adist phi (INR j * d - PI) = adist (d * v) (INR j * d)).
  { destruct (Rle_lt_dec PI phi).
    - exists ((phi - PI) / d). split.
      + split; [apply Rmult_le_reg_r with d; auto; unfold Rdiv; rewrite Rmult_assoc, Rinv_l by lra; lra|apply Rmult_lt_reg_r with d; auto; unfold Rdiv; rewrite Rmult_assoc, Rinv_l by lra; lra].
      + intros j. unfold adist. f_equal. rewrite <- (cos_period (d * ((phi - PI) / d) - INR j * d) 1). f_equal. simpl. field. lra.
    - exists ((phi + PI) / d). split.
      + split; [apply Rmult_le_reg_r with d; auto; unfold Rdiv; rewrite Rmult_assoc, Rinv_l by lra; lra|apply Rmult_lt_reg_r with d; auto; unfold Rdiv; rewrite Rmult_assoc, Rinv_l by lra; lra].
      + intros j. unfold adist. f_equal. f_equal. field. lra. }
  destruct K as (v & Hv & E). rewrite <- (hats_circle n v Hn Hv). apply rsum_ext'. intros j Hj. rewrite E. unfold adist.
  assert (Hj' : INR j <= INR n - 1). { replace (INR n - 1) with (INR (n - 1)) by (rewrite minus_INR by lia; simpl; ring). apply le_INR. lia. } pose proof (pos_INR j).
  assert (A : Rabs (v - INR j) <= INR n) by (unfold Rabs; destruct (Rcase_abs (v - INR j)); lra).
  assert (Y : Rabs (d * v - INR j * d) = d * Rabs (v - INR j)). { replace (d * v - INR j * d) with (d * (v - INR j)) by ring. rewrite Rabs_mult, (Rabs_pos_eq d) by lra. reflexivity. }
  rewrite <- cos_abs, Y, acos_cos_fold. 2:{ pose proof (Rabs_pos (v - INR j)). split; [apply Rmult_le_pos; lra|rewrite <- Dn; apply Rmult_le_compat_l; lra]. }
  f_equal. rewrite <- Dn. replace (d * INR n - d * Rabs (v - INR j)) with (d * (INR n - Rabs (v - INR j))) by ring. set (a := Rabs _) in *.
  destruct (Rle_lt_dec a (INR n - a)).
  - rewrite !Rmin_left; [field; lra|auto|apply Rmult_le_compat_l; lra].
  - rewrite !Rmin_right; [field; lra|lra|apply Rmult_le_compat_l; lra].
Qed.
