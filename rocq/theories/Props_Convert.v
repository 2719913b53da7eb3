(** C81: moving and converting layers. *)
From Coq Require Import List Arith ZArith Reals Lia Lra Psatz.
From Flocq Require Import Core.
From Verif Require Import MixedPrecModel ConvertModel ConvertSpec ConvertProofs.
Import ListNotations.
Local Open Scope R_scope.

(** The rounding of the model: a number of the type, and none of the type is nearer. *)
Theorem C81_rounding : forall t x, holds t (rnd t x) /\ (forall y, holds t y -> Rabs (rnd t x - x) <= Rabs (y - x)) /\ (holds t x <-> rnd t x = x).
Proof. intros t x. split. apply rnd_holds. split. apply rnd_nearest. apply rnd_id. Qed.
Print Assumptions C81_rounding.

(** The flag that admits the tensor-core kernels is that of the device on which the layer is, after any moves. *)
Theorem C81_flag : forall supported v ms, b_flag (moves supported (construct v) ms) = match b_dev (moves supported (construct v) ms) with Some k => supported k | None => false end.
Proof. intros. now rewrite flag_ok. Qed.
Print Assumptions C81_flag.

(** Moves from device to device and conversions to types that hold the values change nothing: the layer multiplies an input on its
    device with the filter it was constructed with, and refuses one on another. *)
Theorem C81_moves : forall supported v ms d t, (forall u i, In (ToType u) ms -> holds u (v i)) ->
  match filter_buffer (moves supported (construct v) ms) d t with
  | Some f => d = b_dev (moves supported (construct v) ms) /\ forall i, f i = rnd (compute_dtype t) (v i)
  | None => d <> b_dev (moves supported (construct v) ms)
  end.
Proof.
  intros supported v ms d t H. set (l := moves supported (construct v) ms). unfold filter_buffer. destruct (place_eqb d (b_dev l)) eqn:E.
  - split. now apply place_eq. intros i. f_equal. unfold l.
    assert (K : forall ms l, (forall j, b_vals l j = v j) -> (forall u i, In (ToType u) ms -> holds u (v i)) -> forall j, b_vals (moves supported l ms) j = v j).
    { clear. induction ms as [|m ms IH]; intros l Hl H j; cbn [moves fold_left]; auto. apply (IH (apply_move supported l m)). intros k. destruct m as [d|u]; cbn; auto. rewrite Hl. apply rnd_id. apply H. now left. intros u i I. apply H. now right. }
    apply K; auto.
  - intros ->. now rewrite place_refl in E.
Qed.
Print Assumptions C81_moves.

(** Values held in double precision: after any sequence of float(), double() and moves, an input in single or half precision sees the filter
    the reference path sees. *)
Theorem C81_float_double : forall supported v ms t, (forall i, holds F64 (v i)) -> (forall u, In (ToType u) ms -> u = F32 \/ u = F64) -> t <> F64 ->
  let l := moves supported (construct v) ms in
  exists f g, filter_buffer l (b_dev l) t = Some f /\ filter_plain l (b_dev l) t = Some g /\ forall i, f i = g i.
Proof.
  intros supported v ms t Hv Hm Ht l. unfold filter_buffer, filter_plain. rewrite place_refl. do 2 eexists. split; [reflexivity|]. split; [reflexivity|]. intros i. cbv beta.
  assert (C : compute_dtype t = F32) by (destruct t; try reflexivity; congruence). rewrite C. unfold l. rewrite plain_kept. cbn [b_plain construct].
  assert (W : forall x, holds F32 x -> holds F64 x) by (intros x; apply holds_wider; cbn; lia).
  assert (K : holds F64 (v i) -> b_vals (moves supported (construct v) ms) i = v i \/ b_vals (moves supported (construct v) ms) i = rnd F32 (v i)).
  { apply (vals_inv supported (fun x y => holds F64 x -> y = x \/ y = rnd F32 x) ms (construct v) v). intros j _. now left.
    intros u x y I H Hx. destruct (H Hx) as [-> | ->]; destruct (Hm u I) as [-> | ->]; auto.
    - left. now apply rnd_id.
    - right. apply rnd_id, rnd_holds.
    - right. apply rnd_id, W, rnd_holds. }
  destruct (K (Hv i)) as [-> | ->]; auto. apply rnd_id, rnd_holds.
Qed.
Print Assumptions C81_float_double.

(** half() or bfloat16() and back: the buffers keep the error of the narrow type, at most 2^-11 or 2^-8 of each normal value. *)
Theorem C81_half : forall supported v t u, let l := moves supported (construct v) [ToType t; ToType u] in
  (fraction_bits t <= fraction_bits u)%Z -> (exponent_bits t <= exponent_bits u)%Z ->
  forall i, b_vals l i = rnd t (v i) /\ (bpow radix2 (normal t) <= Rabs (v i) -> Rabs (b_vals l i - v i) <= bpow radix2 (- (fraction_bits t + 1)) * Rabs (v i)).
Proof.
  intros supported v t u l Hp He i. assert (E : b_vals l i = rnd t (v i)). { cbn. apply rnd_id. apply (holds_wider t); [destruct t, u; cbn in *; lia | destruct t, u; cbn in *; lia | apply rnd_holds]. } split; auto. rewrite E. apply rnd_error.
Qed.
Print Assumptions C81_half.

Lemma not_half : ~ holds F16 (1 + bpow radix2 (-20)).
Proof.
  intros (m & e & E & Hm & He). cbn in Hm, He. assert (P : forall a b, bpow radix2 (a + b) = bpow radix2 a * bpow radix2 b) by (intros; apply bpow_plus).
  destruct (Z_le_gt_dec e (-11)) as [L|G].
  - assert (A : Rabs (IZR m * bpow radix2 e) < 1).
    { rewrite Rabs_mult, (Rabs_pos_eq (bpow radix2 e)) by apply bpow_ge_0. apply Rlt_le_trans with (bpow radix2 11 * bpow radix2 e). apply Rmult_lt_compat_r. apply bpow_gt_0. rewrite <- abs_IZR. change (bpow radix2 11) with (IZR (2 ^ 11)). now apply IZR_lt.
      rewrite <- P. change 1 with (bpow radix2 0). apply bpow_le. lia. }
    rewrite <- E in A. rewrite Rabs_pos_eq in A; pose proof (bpow_gt_0 radix2 (-20)); lra.
  - (* multiply by 2^20: an odd integer equals an even one *)
    assert (Q : IZR (2 ^ 20 + 1) = IZR (m * 2 ^ (e + 20))).
    { rewrite mult_IZR. rewrite (IZR_Zpower radix2) by lia. rewrite plus_IZR. change (IZR (2 ^ 20)) with (bpow radix2 20). rewrite P, <- Rmult_assoc, <- E, Rmult_plus_distr_r, <- P. cbn [Z.add Z.pos_sub bpow]. rewrite Rmult_1_l. change (bpow radix2 (-20 + 20)) with 1. reflexivity. }
    apply eq_IZR in Q. replace (e + 20)%Z with (Z.succ (e + 19)) in Q by lia. rewrite Z.pow_succ_r in Q by lia. assert (R : ((2 ^ 20 + 1) mod 2 = (m * (2 * 2 ^ (e + 19))) mod 2)%Z) by now rewrite Q. replace (m * (2 * 2 ^ (e + 19)))%Z with (m * 2 ^ (e + 19) * 2)%Z in R by ring. rewrite Z.mod_mul in R by lia. discriminate.
Qed.
(** So converting to half precision and back does not give the layer back, while the reference path, whose filter is a plain attribute, keeps it:
    the two paths then compute with different filters. *)
Theorem C81_half_refuted : forall supported, exists v, (forall i, holds F32 (v i)) /\
  let l := moves supported (construct v) [ToType F16; ToType F32] in
  exists f g, filter_buffer l None F32 = Some f /\ filter_plain l None F32 = Some g /\ (forall i, g i = v i) /\ forall i, f i <> g i.
Proof.
  intros supported. exists (fun _ => 1 + bpow radix2 (-20)). assert (H : holds F32 (1 + bpow radix2 (-20))).
  { exists (2 ^ 20 + 1)%Z, (-20)%Z. split; [|cbn; lia]. rewrite plus_IZR, Rmult_plus_distr_r, Rmult_1_l. f_equal. change (IZR (2 ^ 20)) with (bpow radix2 20). rewrite <- bpow_plus. reflexivity. }
  split; auto. do 2 eexists. split; [reflexivity|]. split; [reflexivity|]. assert (G : rnd F32 (1 + bpow radix2 (-20)) = 1 + bpow radix2 (-20)) by now apply rnd_id.
  split; intros i; cbn [compute_dtype is_half b_plain]. exact G. intros Q. cbv beta in Q.
  assert (W : forall x, holds F16 x -> holds F32 x) by (intros x; apply holds_wider; cbn; lia).
  change (rnd F32 (rnd F32 (rnd F16 (1 + bpow radix2 (-20)))) = rnd F32 (1 + bpow radix2 (-20))) in Q. rewrite G in Q.
  assert (E : rnd F32 (rnd F16 (1 + bpow radix2 (-20))) = rnd F16 (1 + bpow radix2 (-20))) by (apply rnd_id, W, rnd_holds). rewrite !E in Q. apply not_half. rewrite <- Q. apply rnd_holds.
Qed.
Print Assumptions C81_half_refuted.

Example C81_case : let v := fun i : nat => IZR 3 * bpow radix2 (-4) in
  (forall u i, In (ToType u) [ToDevice (Some 1%nat); ToType F16; ToType F64] -> holds u (v i)) /\ b_dev (moves (fun k => Nat.eqb k 1) (construct v) [ToDevice (Some 1%nat); ToType F16; ToType F64]) = Some 1%nat.
Proof. split; [|reflexivity]. intros u i _. exists 3%Z, (-4)%Z. split; auto. destruct u; cbn; lia. Qed.
