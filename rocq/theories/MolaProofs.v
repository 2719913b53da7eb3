(** Proofs about the elevation map. *)
From Coq Require Import List Arith Lia Reals Lra.
From Verif Require Import TensorModel SHTModel MolaModel MolaSpec.
Import ListNotations.
Local Open Scope R_scope.

Section One.
Context (n out : nat) (Hn : (1 <= n)%nat) (Ho : (1 <= out)%nat).
Lemma frac_bounds : forall d, 0 <= frac n out d < 1.
Proof.
  intros d. unfold frac. assert (H : (source n out d mod (2 * out) < 2 * out)%nat) by (apply Nat.mod_upper_bound; lia). apply lt_INR in H. pose proof (pos_INR (source n out d mod (2 * out))).
  set (x := INR (source n out d mod (2 * out))) in *. set (y := INR (2 * out)) in *. assert (0 < y) by lra. split.
  - apply Rmult_le_pos; auto. left. now apply Rinv_0_lt_compat.
  - apply (Rmult_lt_reg_r y); auto. unfold Rdiv. rewrite Rmult_assoc, Rinv_l, Rmult_1_r, Rmult_1_l by lra. auto.
Qed.
Lemma low_lt : forall d, (d < out)%nat -> (low n out d < n)%nat.
Proof. intros d Hd. unfold low, source. apply Nat.div_lt_upper_bound; nia. Qed.
Lemma high_lt : forall d, (d < out)%nat -> (high n out d < n)%nat.
Proof. intros d Hd. unfold high. pose proof (low_lt d Hd). destruct (Nat.ltb_spec (low n out d) (n - 1)); lia. Qed.
Lemma source_split : forall d, INR (source n out d) = INR (2 * out) * (INR (low n out d) + frac n out d).
Proof.
  intros d. unfold frac, low. pose proof (Nat.div_mod (source n out d) (2 * out) ltac:(lia)) as D. rewrite D at 1. rewrite plus_INR, mult_INR. field. apply not_0_INR. lia.
Qed.
Lemma centre_ge : forall d, (out <= (2 * d + 1) * n)%nat -> centre n out d = INR (low n out d) + frac n out d + 1 / 2.
Proof.
  intros d H. unfold centre. assert (P : 0 < INR out) by (apply lt_0_INR; lia). pose proof (source_split d) as S. unfold source in S at 1.
  rewrite minus_INR in S by auto. rewrite !mult_INR, plus_INR, mult_INR in S. change (INR 2) with 2 in S. change (INR 1) with 1 in S.
  apply (Rmult_eq_reg_r (2 * INR out)); [|lra]. replace ((INR d + 1 / 2) * INR n / INR out * (2 * INR out)) with ((2 * INR d + 1) * INR n) by (field; lra). lra.
Qed.
Lemma centre_small : forall d, ((2 * d + 1) * n < out)%nat -> centre n out d < 1 / 2 /\ low n out d = 0%nat /\ frac n out d = 0.
Proof.
  intros d H. assert (S0 : source n out d = 0%nat) by (unfold source; lia). unfold low, frac. rewrite S0, Nat.div_0_l, Nat.mod_0_l by lia. split; [|split; [auto|unfold Rdiv; cbn [INR]; ring]].
  unfold centre. assert (P : 0 < INR out) by (apply lt_0_INR; lia). apply lt_INR in H. rewrite mult_INR, plus_INR, mult_INR in H. change (INR 2) with 2 in H. change (INR 1) with 1 in H.
  apply (Rmult_lt_reg_r (2 * INR out)); [lra|]. replace ((INR d + 1 / 2) * INR n / INR out * (2 * INR out)) with ((2 * INR d + 1) * INR n) by (field; lra). lra.
Qed.
Lemma resize1_interpolates : forall f d, (d < out)%nat -> interpolates f n (centre n out d) (resize1 n out f d).
Proof.
  intros f d Hd. unfold resize1. pose proof (frac_bounds d) as Fb. pose proof (low_lt d Hd) as Ll. unfold high.
  destruct (le_lt_dec out ((2 * d + 1) * n)) as [H|H].
  - rewrite (centre_ge d H). set (l := low n out d) in *. set (t := frac n out d) in *. split; [|split].
    + intros Hx. pose proof (pos_INR l). assert (E : INR l = 0) by lra. assert (t = 0) by lra. change 0 with (INR 0) in E. apply INR_eq in E. rewrite E, H1. ring.
    + intros Hx. assert (E : (n - 1 <= l)%nat).
      { destruct (le_lt_dec (n - 1) l) as [|Q]; auto. exfalso. assert (Q' : (l + 2 <= n)%nat) by lia. apply le_INR in Q'. rewrite plus_INR in Q'. change (INR 2) with 2 in Q'. lra. }
      assert (l = n - 1)%nat as -> by lia. rewrite (proj2 (Nat.ltb_ge _ _)) by lia. ring.
    + intros i Hi Hx. assert (C : l = i \/ (l = i + 1)%nat /\ t = 0).
      { destruct (lt_eq_lt_dec l i) as [[Q|Q]|Q]; auto.
        - exfalso. assert (Q' : (l + 1 <= i)%nat) by lia. apply le_INR in Q'. rewrite plus_INR in Q'. change (INR 1) with 1 in Q'. lra.
        - right. assert (Q' : (i + 1 <= l)%nat) by lia. apply le_INR in Q'. rewrite plus_INR in Q'. change (INR 1) with 1 in Q'. split; [|lra]. apply INR_eq. rewrite plus_INR. change (INR 1) with 1. lra. }
      destruct C as [->|[-> ->]].
      * rewrite (proj2 (Nat.ltb_lt _ _)) by lia. ring.
      * rewrite plus_INR. change (INR 1) with 1. ring.
  - destruct (centre_small d H) as (Hc & L0 & F0). rewrite L0, F0. split; [|split].
    + intros _. ring.
    + intros Hx. assert (1 <= INR n) by (change 1 with (INR 1); now apply le_INR). lra.
    + intros i Hi Hx. pose proof (pos_INR i). lra.
Qed.
Lemma centre_flip : forall d, (d < out)%nat -> centre n out (out - 1 - d) = INR n - centre n out d.
Proof. intros d Hd. unfold centre. rewrite !minus_INR by lia. change (INR 1) with 1. field. apply not_0_INR. lia. Qed.
End One.

Section Interpolant.
Context (n : nat) (Hn : (1 <= n)%nat).
(** The interpolated value is determined. *)
Lemma interpolates_unique : forall f x y y', interpolates f n x y -> interpolates f n x y' -> y = y'.
Proof.
  intros f x y y' (A & B & C) (A' & B' & C'). destruct (Rle_dec x (1 / 2)) as [H|H]; [now rewrite A, A'|]. destruct (Rle_dec (INR n - 1 / 2) x) as [G|G]; [now rewrite B, B'|].
  destruct (archimed (x - 1 / 2)) as [U V]. assert (P : (0 < up (x - 1 / 2))%Z) by (apply lt_IZR; lra).
  destruct (IZN (up (x - 1 / 2) - 1) ltac:(lia)) as [i Ei]. assert (E : INR i = IZR (up (x - 1 / 2)) - 1) by (rewrite INR_IZR_INZ, <- Ei, minus_IZR; reflexivity).
  assert (Hi : (i + 1 < n)%nat). { apply INR_lt. rewrite plus_INR. change (INR 1) with 1. lra. } rewrite (C i Hi), (C' i Hi) by lra. reflexivity.
Qed.
Lemma interpolates_between : forall f x y a b, interpolates f n x y -> (forall i, (i < n)%nat -> a <= f i <= b) -> a <= y <= b.
Proof.
  intros f x y a b (A & B & C) Hf. destruct (Rle_dec x (1 / 2)) as [H|H]; [rewrite A; auto; apply Hf; lia|]. destruct (Rle_dec (INR n - 1 / 2) x) as [G|G]; [rewrite B; auto; apply Hf; lia|].
  destruct (archimed (x - 1 / 2)) as [U V]. assert (P : (0 < up (x - 1 / 2))%Z) by (apply lt_IZR; lra).
  destruct (IZN (up (x - 1 / 2) - 1) ltac:(lia)) as [i Ei]. assert (E : INR i = IZR (up (x - 1 / 2)) - 1) by (rewrite INR_IZR_INZ, <- Ei, minus_IZR; reflexivity).
  assert (Hi : (i + 1 < n)%nat). { apply INR_lt. rewrite plus_INR. change (INR 1) with 1. lra. } rewrite (C i Hi) by lra.
  pose proof (Hf i ltac:(lia)). pose proof (Hf (i + 1)%nat ltac:(lia)). set (t := x - INR i - 1 / 2). assert (0 <= t <= 1) by (unfold t; lra). nra.
Qed.
Lemma interpolates_flip : forall f x y, interpolates f n x y -> interpolates (fun i => f (n - 1 - i)%nat) n (INR n - x) y.
Proof.
  intros f x y (A & B & C). split; [|split].
  - intros H. rewrite Nat.sub_0_r. apply B. lra.
  - intros H. replace (n - 1 - (n - 1))%nat with 0%nat by lia. apply A. lra.
  - intros i Hi Hx. rewrite (C (n - 1 - (i + 1))%nat) by (try lia; rewrite !minus_INR, plus_INR by lia; change (INR 1) with 1; lra).
    replace (n - 1 - (i + 1) + 1)%nat with (n - 1 - i)%nat by lia. rewrite !minus_INR, plus_INR by lia. change (INR 1) with 1. field.
Qed.
Lemma interpolates_ext : forall f f' x y, (forall i, (i < n)%nat -> f i = f' i) -> interpolates f n x y -> interpolates f' n x y.
Proof. intros f f' x y H (A & B & C). split; [|split]; intros; rewrite <- ?H by lia; auto. Qed.
End Interpolant.
Lemma centre_same : forall n d, (1 <= n)%nat -> centre n n d = INR d + 1 / 2.
Proof. intros n d H. unfold centre. field. apply not_0_INR. lia. Qed.
Lemma resize_bilinear : forall h w a b f k j, (1 <= h)%nat -> (1 <= w)%nat -> (k < a)%nat -> (j < b)%nat -> bilinear f h w (centre w b j) (centre h a k) (resize h w a b f k j).
Proof. intros h w a b f k j Hh Hw Hk Hj. exists (fun i => resize1 w b (f i) j). split. intros i _. apply resize1_interpolates; auto; lia. unfold resize. apply resize1_interpolates; auto; lia. Qed.
Lemma bilinear_unique : forall f h w x y v v', (1 <= h)%nat -> (1 <= w)%nat -> bilinear f h w x y v -> bilinear f h w x y v' -> v = v'.
Proof.
  intros f h w x y v v' Hh Hw (r & R & V) (r' & R' & V'). apply (interpolates_unique h Hh r y); auto. apply (interpolates_ext h Hh r' r); auto. intros i Hi. eapply (interpolates_unique w Hw); eauto.
Qed.
Lemma bilinear_between : forall f h w x y v a b, (1 <= h)%nat -> (1 <= w)%nat -> bilinear f h w x y v -> (forall i j, (i < h)%nat -> (j < w)%nat -> a <= f i j <= b) -> a <= v <= b.
Proof. intros f h w x y v a b Hh Hw (r & R & V) H. apply (interpolates_between h Hh r y v a b V). intros i Hi. apply (interpolates_between w Hw (f i) x (r i) a b (R i Hi)). auto. Qed.
Lemma bilinear_flip : forall f h w x y v, (1 <= h)%nat -> bilinear f h w x y v -> bilinear (fun i => f (h - 1 - i)%nat) h w x (INR h - y) v.
Proof. intros f h w x y v Hh (r & R & V). exists (fun i => r (h - 1 - i)%nat). split. intros i Hi. apply R. lia. now apply (interpolates_flip h Hh). Qed.
Lemma resize_same : forall h w f k j, (k < h)%nat -> (j < w)%nat -> resize h w h w f k j = f k j.
Proof.
  assert (K : forall n f d, (d < n)%nat -> resize1 n n f d = f d).
  { intros n f d Hd. apply (interpolates_unique n ltac:(lia) f (centre n n d)). apply resize1_interpolates; lia. rewrite centre_same by lia. split; [|split].
    - intros H. pose proof (pos_INR d). assert (E : INR d = INR 0) by (cbn [INR]; lra). apply INR_eq in E. now subst.
    - intros H. f_equal. assert (Q : INR d < INR n) by now apply lt_INR. assert (E : INR n <= INR (d + 1)) by (rewrite plus_INR; change (INR 1) with 1; lra). apply INR_le in E. lia.
    - intros i Hi H. destruct (lt_eq_lt_dec i d) as [[Q|Q]|Q].
      + assert (E : INR d <= INR (i + 1)) by (rewrite plus_INR; change (INR 1) with 1; lra). apply INR_le in E. assert (d = i + 1)%nat as -> by lia. rewrite plus_INR. change (INR 1) with 1. ring.
      + subst. ring.
      + apply lt_INR in Q. lra. }
  intros h w f k j Hk Hj. unfold resize. rewrite K by auto. now apply K.
Qed.
