(** Proofs about moving and converting layers. *)
From Coq Require Import List Arith ZArith Reals Lia Lra Psatz.
From Flocq Require Import Core Relative.
From Verif Require Import MixedPrecModel ConvertModel ConvertSpec.
Import ListNotations.

Lemma prec_bits : forall t, (prec t = fraction_bits t + 1)%Z. Proof. now intros []. Qed.
Lemma emin_bits : forall t, (emin t = normal t - fraction_bits t)%Z. Proof. now intros []. Qed.
#[global] Instance prec_pos : forall t, Prec_gt_0 (prec t). Proof. intros []; reflexivity. Qed.
Lemma holds_format : forall t x, holds t x <-> generic_format radix2 (FLT_exp (emin t) (prec t)) x.
Proof.
  intros t x. split.
  - intros (m & e & -> & Hm & He). apply generic_format_FLT. rewrite <- prec_bits in Hm. rewrite <- emin_bits in He. exists (Float radix2 m e); auto.
  - intros H. apply FLT_format_generic in H; [|apply prec_pos]. destruct H as [[m e] -> Hm He]. exists m, e. rewrite <- prec_bits, <- emin_bits. auto.
Qed.
Lemma rnd_holds : forall t x, holds t (rnd t x). Proof. intros t x. apply holds_format. unfold rnd. apply generic_format_round; auto with typeclass_instances. Qed.
Lemma rnd_id : forall t x, holds t x <-> rnd t x = x.
Proof. intros t x. split. intros H. apply round_generic; auto with typeclass_instances. now apply holds_format. intros <-. apply rnd_holds. Qed.
Lemma holds_wider : forall t u x, (fraction_bits t <= fraction_bits u)%Z -> (normal u - fraction_bits u <= normal t - fraction_bits t)%Z -> holds t x -> holds u x.
Proof.
  intros t u x Hp He (m & e & -> & Hm & H). exists m, e. repeat split; [|lia]. apply Z.lt_le_trans with (1 := Hm). apply Z.pow_le_mono_r; lia.
Qed.
Lemma rnd_nearest : forall t x y, holds t y -> (Rabs (rnd t x - x) <= Rabs (y - x))%R.
Proof. intros t x y H. apply holds_format in H. unfold rnd. destruct (round_N_pt radix2 (FLT_exp (emin t) (prec t)) (fun z => negb (Z.even z)) x) as (_ & K). now apply K. Qed.
Lemma rnd_error : forall t x, (bpow radix2 (normal t) <= Rabs x)%R -> (Rabs (rnd t x - x) <= bpow radix2 (- (fraction_bits t + 1)) * Rabs x)%R.
Proof.
  intros t x H. replace (normal t) with (emin t + prec t - 1)%Z in H by (rewrite emin_bits, prec_bits; lia). rewrite <- prec_bits. pose proof (relative_error_N_FLT radix2 (emin t) (prec t) (prec_pos t) (fun z => negb (Z.even z)) x H) as K. unfold rnd.
  replace (bpow radix2 (- prec t)) with (/ 2 * bpow radix2 (- prec t + 1))%R; auto. rewrite bpow_plus. cbn [bpow]. change (IZR (Z.pow_pos radix2 1)) with 2%R. field.
Qed.

Section Layer.
Variable supported : nat -> bool.
Notation mv := (moves supported).
Lemma moves_app : forall l a b, mv l (a ++ b) = mv (mv l a) b. Proof. intros. apply fold_left_app. Qed.
Lemma plain_kept : forall ms l, b_plain (mv l ms) = b_plain l.
Proof. induction ms as [|m ms IH]; intros l; cbn [moves fold_left]; auto. fold (mv (apply_move supported l m) ms). rewrite IH. now destruct m. Qed.
Lemma flag_ok : forall ms v, b_flag (mv (construct v) ms) = supported_for supported (b_dev (mv (construct v) ms)).
Proof.
  intros ms v. destruct ms as [|m ms] using rev_ind. reflexivity. rewrite moves_app. reflexivity.
Qed.
Lemma vals_inv : forall (P : R -> R -> Prop) ms l v, (forall i, P (v i) (b_vals l i)) -> (forall t x y, In (ToType t) ms -> P x y -> P x (rnd t y)) -> forall i, P (v i) (b_vals (mv l ms) i).
Proof.
  intros P ms. induction ms as [|m ms IH]; intros l v H K i; cbn [moves fold_left]. apply H. apply (IH (apply_move supported l m) v).
  - intros j. destruct m as [d|t]; cbn. apply H. apply K. now left. apply H.
  - intros t x y I. apply K. now right.
Qed.
Lemma place_refl : forall d, place_eqb d d = true. Proof. intros [k|]; cbn; auto. apply Nat.eqb_refl. Qed.
Lemma place_eq : forall a b, place_eqb a b = true -> a = b. Proof. intros [i|] [j|]; cbn; intros H; try discriminate; auto. apply Nat.eqb_eq in H. congruence. Qed.
End Layer.
