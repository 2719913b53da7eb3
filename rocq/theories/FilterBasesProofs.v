(** The harmonic, Zernike and Fourier-Bessel bases. *)
From Coq Require Import List Arith ZArith Lia Bool Reals Lra Permutation.
From Verif Require Import TensorModel BigSum ResampleModel ResampleProofs FilterModel FilterSpec AttnGradProofs AttnUpProofs AttnOpValProofs AttnPropProofs FilterProofs FilterPLProofs FilterPLTotal.
Import ListNotations.
Local Open Scope R_scope.

(** ** Harmonic *)
Lemma hm_wave_spec : forall n x, hm_wave n x = wave n x.
Proof.
  intros n x. unfold hm_wave, wave. rewrite Nat.div2_div. destruct (Nat.Even_or_Odd n) as [(m & ->)|(m & ->)].
  - replace ((2 * m) mod 2)%nat with 0%nat by (rewrite Nat.mul_comm, Nat.mod_mul; lia). replace (Nat.even (2 * m)) with true by (symmetry; apply Nat.even_spec; exists m; auto). cbn [Nat.eqb].
    replace ((2 * m + 1) / 2)%nat with m by (apply Nat.div_unique with 1%nat; lia). replace (2 * m / 2)%nat with m by (apply Nat.div_unique with 0%nat; lia). f_equal. field.
  - replace ((2 * m + 1) mod 2)%nat with 1%nat by (apply Nat.mod_unique with m; lia). replace (Nat.even (2 * m + 1)) with false by (symmetry; apply not_true_is_false; intros E; apply Nat.even_spec in E; destruct E as (q & E); lia). cbn [Nat.eqb].
    replace ((2 * m + 1 + 1) / 2)%nat with (S m) by (apply Nat.div_unique with 0%nat; lia). replace ((2 * m + 1) / 2)%nat with m by (apply Nat.div_unique with 1%nat; lia). f_equal. field.
Qed.
Lemma pairs_length : forall a b, length (pairs a b) = (a * b)%nat.
Proof. intros. unfold pairs. rewrite (length_blocks _ _ _ b); [rewrite seq_length; auto|]. intros. rewrite map_length, seq_length. auto. Qed.
Lemma pairs_nth : forall a b k, (k < a * b)%nat -> nth k (pairs a b) (0, 0)%nat = (k / b, k mod b)%nat.
Proof.
  intros a b k Hk. unfold pairs. rewrite (nth_blocks _ _ _ b 0%nat); [|intros; rewrite map_length, seq_length; auto|rewrite seq_length; auto].
  assert (b <> 0)%nat by lia. pose proof (Nat.mod_upper_bound k b H). assert (k / b < a)%nat by (apply Nat.div_lt_upper_bound; lia). rewrite nth_map_seq, seq_nth by auto. reflexivity.
Qed.
Lemma pairs_NoDup : forall a b, NoDup (pairs a b).
Proof.
  intros. unfold pairs. apply NoDup_flat_map; [apply seq_NoDup| |].
  - intros x _. apply NoDup_map_inj; [intros p q E; injection E; auto|apply seq_NoDup].
  - intros x y p _ _ I I'. apply in_map_iff in I. apply in_map_iff in I'. destruct I as (u & <- & _). destruct I' as (v & E & _). injection E. auto.
Qed.
Lemma in_pairs : forall a b m n, In (m, n) (pairs a b) <-> (m < a /\ n < b)%nat.
Proof.
  intros. unfold pairs. rewrite in_flat_map. split.
  - intros (x & Ix & I). apply in_map_iff in I. destruct I as (y & E & Iy). injection E as -> ->. apply in_seq in Ix. apply in_seq in Iy. lia.
  - intros (A & B). exists m. split; [apply in_seq; lia|]. apply in_map_iff. exists n. split; [auto|apply in_seq; lia].
Qed.
Definition scaled (norms : option (nat -> R)) (k : nat) (v : R) : R := match norms with None => v | Some nm => v / Rmax (nm k) (/ 10 ^ 12) end.
Lemma hm_ok : forall k0 k1 norms H W r phi rc, 0 < rc ->
  represents (hm_support k0 k1 norms H W r phi rc) (length (pairs k0 k1)) H W r phi rc (fun k r phi => scaled norms k (harmonic rc (nth k (pairs k0 k1) (0, 0)%nat) r phi)).
Proof.
  intros k0 k1 norms H W r phi rc Hrc. rewrite pairs_length. unfold hm_support, hm_size. apply table_represents; intros k i j Hk Hi Hj C.
  - split; [apply Rleb_true; auto|]. rewrite pairs_nth by auto. unfold harmonic, hann. cbn [fst snd]. rewrite !hm_wave_spec. unfold scaled.
    replace (0.5 * PI * (r i j / rc) / 1) with (PI / 2 * (r i j / rc)) by lra. destruct norms; rewrite Rmult_assoc; reflexivity.
  - intros R. apply (proj2 (Rleb_true _ _)) in R. congruence.
Qed.
Lemma wave_bound : forall n x, Rabs (wave n x) <= 1.
Proof. intros. unfold wave. apply Rabs_le. destruct (Nat.even n); [pose proof (COS_bound (INR (Nat.div2 n) * PI * x))|pose proof (SIN_bound (INR (S (Nat.div2 n)) * PI * x))]; lra. Qed.
Theorem harmonic_bound : forall rc mn r phi, Rabs (harmonic rc mn r phi) <= 1.
Proof.
  intros. unfold harmonic. set (c := cos _). rewrite !Rabs_mult. pose proof (wave_bound (snd mn) (r / rc * sin phi)). pose proof (wave_bound (fst mn) (r / rc * cos phi)).
  assert (Rabs (c ^ 2) <= 1). { rewrite Rabs_pos_eq by (apply pow2_ge_0). assert (-1 <= c <= 1) by (apply COS_bound). assert (c * c <= 1 * 1); [|simpl; lra]. destruct (Rle_lt_dec 0 c); [apply Rmult_le_compat; lra|replace (c * c) with ((- c) * (- c)) by ring; apply Rmult_le_compat; lra]. }
  replace 1 with (1 * 1 * 1) by ring. apply Rmult_le_compat; [apply Rmult_le_pos; apply Rabs_pos|apply Rabs_pos| |auto]. apply Rmult_le_compat; auto; apply Rabs_pos.
Qed.
Theorem harmonic_edge : forall rc mn phi, 0 < rc -> harmonic rc mn rc phi = 0.
Proof. intros. unfold harmonic. replace (PI / 2 * (rc / rc)) with (PI / 2) by (field; lra). rewrite cos_PI2. ring. Qed.
(** only the first function is isotropic *)
Lemma wave_even : forall a x, wave (2 * a) x = cos (INR a * PI * x).
Proof. intros. unfold wave. replace (Nat.even (2 * a)) with true by (symmetry; apply Nat.even_spec; exists a; auto). rewrite Nat.div2_double. reflexivity. Qed.
Lemma wave_odd : forall a x, wave (2 * a + 1) x = sin (INR (S a) * PI * x).
Proof. intros. unfold wave. replace (Nat.even (2 * a + 1)) with false by (symmetry; apply not_true_is_false; intros E; apply Nat.even_spec in E; destruct E as (q & E); lia).
  replace (Nat.div2 (2 * a + 1)) with a by (rewrite Nat.div2_div; apply Nat.div_unique with 1%nat; lia). reflexivity. Qed.
Lemma hann_pos : forall u, 0 <= u < 1 -> 0 < cos (PI / 2 * u) ^ 2.
Proof. intros u Hu. apply pow_lt. pose proof PI_RGT_0. apply cos_gt_0; [assert (0 <= PI / 2 * u) by (apply Rmult_le_pos; lra); lra|]. assert (PI / 2 * u < PI / 2 * 1) by (apply Rmult_lt_compat_l; lra). lra. Qed.
Lemma harmonic_axes : forall mn u, harmonic 1 mn u 0 = cos (PI / 2 * u) ^ 2 * wave (snd mn) 0 * wave (fst mn) u /\ harmonic 1 mn u (PI / 2) = cos (PI / 2 * u) ^ 2 * wave (snd mn) u * wave (fst mn) 0.
Proof. intros. unfold harmonic. rewrite sin_0, cos_0, sin_PI2, cos_PI2, !Rmult_0_r, !Rmult_1_r. replace (u / 1) with u by field. auto. Qed.
Lemma freq_range : forall a b, (1 <= b)%nat -> (a <= b)%nat -> 0 <= INR a * PI * (1 / (2 * INR b)) <= PI / 2.
Proof.
  intros a b Hb Hab. pose proof PI_RGT_0. assert (B : 0 < INR b) by (apply lt_0_INR; lia). assert (A : INR a <= INR b) by (apply le_INR; auto). pose proof (pos_INR a).
  replace (INR a * PI * (1 / (2 * INR b))) with (PI / 2 * (INR a / INR b)) by (field; lra).
  assert (0 <= INR a / INR b) by (apply Rmult_le_pos; [lra|left; apply Rinv_0_lt_compat; auto]). assert (INR a / INR b <= 1) by (apply div_le; lra). split; [apply Rmult_le_pos; lra|]. rewrite <- (Rmult_1_r (PI / 2)) at 2. apply Rmult_le_compat_l; lra.
Qed.
Lemma freq_top : forall b, (1 <= b)%nat -> INR b * PI * (1 / (2 * INR b)) = PI / 2.
Proof. intros. field. apply not_0_INR. lia. Qed.
Lemma freq_lt : forall a b, (a < b)%nat -> INR a * PI * (1 / (2 * INR b)) < PI / 2.
Proof.
  intros a b H. pose proof PI_RGT_0. assert (B : 0 < INR b) by (apply lt_0_INR; lia). assert (A : INR a < INR b) by (apply lt_INR; auto).
  replace (INR a * PI * (1 / (2 * INR b))) with (PI / 2 * (INR a / INR b)) by (field; lra). rewrite <- (Rmult_1_r (PI / 2)) at 2. apply Rmult_lt_compat_l; [lra|].
  apply Rmult_lt_reg_r with (INR b); auto. unfold Rdiv. rewrite Rmult_assoc, Rinv_l by lra. lra.
Qed.
Lemma half_freq : forall b, (1 <= b)%nat -> 0 <= 1 / (2 * INR b) < 1.
Proof. intros b Hb. assert (1 <= INR b) by (replace 1 with (INR 1) by reflexivity; apply le_INR; auto). split; [apply Rmult_le_pos; [lra|left; apply Rinv_0_lt_compat; lra]|]. apply Rmult_lt_reg_r with (2 * INR b); [lra|]. unfold Rdiv. rewrite Rmult_assoc, Rinv_l by lra. lra. Qed.
Lemma cos_zero_arg : forall a, cos (INR a * PI * 0) = 1.
Proof. intros. rewrite Rmult_0_r. apply cos_0. Qed.
Lemma sin_zero_arg : forall a, sin (INR a * PI * 0) = 0.
Proof. intros. rewrite Rmult_0_r. apply sin_0. Qed.
Lemma harmonic_diag : forall mn u, harmonic 1 mn u (PI / 4) = cos (PI / 2 * u) ^ 2 * wave (snd mn) (u * (1 / sqrt 2)) * wave (fst mn) (u * (1 / sqrt 2)).
Proof. intros. unfold harmonic. rewrite sin_PI4, cos_PI4. replace (u / 1) with u by field. auto. Qed.
Lemma inv_sqrt2 : 0 < 1 / sqrt 2 < 1.
Proof.
  assert (S : 0 < sqrt 2) by (apply sqrt_lt_R0; lra). assert (1 < sqrt 2). { rewrite <- sqrt_1 at 1. apply sqrt_lt_1; lra. }
  split; [apply Rdiv_lt_0_compat; lra|]. apply Rmult_lt_reg_r with (sqrt 2); auto. unfold Rdiv. rewrite Rmult_assoc, Rinv_l by lra. lra.
Qed.
Lemma anisotropic_mn : forall m n, (m, n) <> (0, 0)%nat -> exists u p q, 0 <= u < 1 /\ harmonic 1 (m, n) u p <> harmonic 1 (m, n) u q.
Proof.
  intros m n N. pose proof PI_RGT_0. pose proof inv_sqrt2 as (S0 & S1).
  destruct (Nat.Even_or_Odd n) as [(a & ->)|(a & ->)]; destruct (Nat.Even_or_Odd m) as [(b & ->)|(b & ->)].
  - destruct (Nat.lt_trichotomy a b) as [L|[E|L]].
    + exists (1 / (2 * INR b)), 0, (PI / 2). pose proof (half_freq b ltac:(lia)) as U. split; auto. destruct (harmonic_axes ((2 * b)%nat, (2 * a)%nat) (1 / (2 * INR b))) as (-> & ->). cbn [fst snd].
      rewrite !wave_even, !cos_zero_arg, freq_top by lia. rewrite cos_PI2. assert (0 < cos (INR a * PI * (1 / (2 * INR b)))). { pose proof (freq_range a b ltac:(lia) ltac:(lia)). pose proof (freq_lt a b L). apply cos_gt_0; lra. }
      pose proof (hann_pos _ U). set (x := cos _ ^ 2) in *. set (y := cos _) in *. intros E. assert (0 < x * y * 1) by (rewrite Rmult_1_r; apply Rmult_lt_0_compat; auto). lra.
    + subst b. assert (Ha : (1 <= a)%nat) by (destruct a; [exfalso; apply N; reflexivity|lia]). exists (1 / (2 * INR a)), 0, (PI / 4). pose proof (half_freq a Ha) as U. split; auto. rewrite harmonic_diag, (proj1 (harmonic_axes _ _)). cbn [fst snd].
      rewrite !wave_even, !cos_zero_arg, freq_top by auto. rewrite cos_PI2. replace (INR a * PI * (1 / (2 * INR a) * (1 / sqrt 2))) with (PI / 2 * (1 / sqrt 2)). 2:{ rewrite <- (freq_top a Ha). ring. }
      assert (0 < PI / 2 * (1 / sqrt 2)) by (apply Rmult_lt_0_compat; lra). assert (PI / 2 * (1 / sqrt 2) < PI / 2 * 1) by (apply Rmult_lt_compat_l; lra). assert (0 < cos (PI / 2 * (1 / sqrt 2))) by (apply cos_gt_0; lra).
      pose proof (hann_pos _ U). set (x := cos (PI / 2 * (1 / (2 * _))) ^ 2) in *. set (y := cos _) in *. intros E. assert (0 < x * y * y) by (apply Rmult_lt_0_compat; auto; apply Rmult_lt_0_compat; auto). lra.
    + exists (1 / (2 * INR a)), 0, (PI / 2). pose proof (half_freq a ltac:(lia)) as U. split; auto. destruct (harmonic_axes ((2 * b)%nat, (2 * a)%nat) (1 / (2 * INR a))) as (-> & ->). cbn [fst snd].
      rewrite !wave_even, !cos_zero_arg, freq_top by lia. rewrite cos_PI2. assert (0 < cos (INR b * PI * (1 / (2 * INR a)))). { pose proof (freq_range b a ltac:(lia) ltac:(lia)). pose proof (freq_lt b a L). apply cos_gt_0; lra. }
      pose proof (hann_pos _ U). set (x := cos _ ^ 2) in *. set (y := cos _) in *. intros E. assert (0 < x * 1 * y) by (rewrite Rmult_1_r; apply Rmult_lt_0_compat; auto). lra.
  - exists (1 / (2 * INR (S b))), 0, (PI / 2). pose proof (half_freq (S b) ltac:(lia)) as U. split; auto. destruct (harmonic_axes ((2 * b + 1)%nat, (2 * a)%nat) (1 / (2 * INR (S b)))) as (-> & ->). cbn [fst snd].
    rewrite !wave_even, !wave_odd, cos_zero_arg, sin_zero_arg, freq_top, sin_PI2 by lia. pose proof (hann_pos _ U). lra.
  - exists (1 / (2 * INR (S a))), 0, (PI / 2). pose proof (half_freq (S a) ltac:(lia)) as U. split; auto. destruct (harmonic_axes ((2 * b)%nat, (2 * a + 1)%nat) (1 / (2 * INR (S a)))) as (-> & ->). cbn [fst snd].
    rewrite !wave_even, !wave_odd, cos_zero_arg, sin_zero_arg, freq_top, sin_PI2 by lia. pose proof (hann_pos _ U). lra.
  - set (c := Nat.max (S a) (S b)). exists (1 / (2 * INR c)), 0, (PI / 4). pose proof (half_freq c ltac:(lia)) as U. split; auto. rewrite harmonic_diag, (proj1 (harmonic_axes _ _)). cbn [fst snd].
    rewrite !wave_odd, sin_zero_arg. assert (G : forall x, (1 <= x)%nat -> (x <= c)%nat -> 0 < sin (INR x * PI * (1 / (2 * INR c) * (1 / sqrt 2)))).
    { intros x Hx Hxc. pose proof (freq_range x c ltac:(lia) Hxc) as F. assert (P : 0 < INR x * PI * (1 / (2 * INR c))). { apply Rmult_lt_0_compat; [apply Rmult_lt_0_compat; [apply lt_0_INR; lia|lra]|]. apply Rdiv_lt_0_compat; [lra|]. assert (0 < INR c) by (apply lt_0_INR; lia). lra. }
      replace (INR x * PI * (1 / (2 * INR c) * (1 / sqrt 2))) with (INR x * PI * (1 / (2 * INR c)) * (1 / sqrt 2)) by ring. set (y := INR x * PI * _) in *. assert (0 < y * (1 / sqrt 2)) by (apply Rmult_lt_0_compat; lra). assert (y * (1 / sqrt 2) < y * 1) by (apply Rmult_lt_compat_l; lra). apply sin_gt_0; lra. }
    pose proof (G (S a) ltac:(lia) ltac:(lia)) as Ga. pose proof (G (S b) ltac:(lia) ltac:(lia)) as Gb. pose proof (hann_pos _ U) as Hh. rewrite Rmult_0_r, Rmult_0_l. apply Rlt_not_eq.
    apply Rmult_lt_0_compat; [apply Rmult_lt_0_compat|]; auto.
Qed.
Lemma harmonic_scale : forall rc mn u p, 0 < rc -> harmonic rc mn (u * rc) p = harmonic 1 mn u p.
Proof. intros. unfold harmonic. replace (u * rc / rc) with u by (field; lra). replace (u / 1) with u by field. reflexivity. Qed.
Theorem hm_mask_spec : forall k0 k1 rc m, hm_mask k0 k1 = Some m -> 0 < rc ->
  length m = length (pairs k0 k1) /\ forall k, (k < length (pairs k0 k1))%nat -> (nth k m false = true <-> forall r p q, 0 <= r <= rc -> harmonic rc (nth k (pairs k0 k1) (0, 0)%nat) r p = harmonic rc (nth k (pairs k0 k1) (0, 0)%nat) r q).
Proof.
  intros k0 k1 rc m E Hrc. unfold hm_mask, hm_size in E. destruct (1 <=? k0 * k1)%nat eqn:G; cbn [guard bindo] in E; [|discriminate]. injection E as <-. rewrite map_length, seq_length, pairs_length. split; [auto|].
  intros k Hk. rewrite nth_map_seq by auto. destruct (Nat.eqb_spec k 0) as [->|Nk].
  - split; [|auto]. intros _ r p q _. rewrite pairs_nth by auto. assert (k1 <> 0)%nat by lia. rewrite Nat.div_0_l, Nat.mod_0_l by auto. unfold harmonic, wave. cbn [fst snd Nat.even Nat.div2 INR]. rewrite !Rmult_0_l. reflexivity.
  - split; [discriminate|]. intros A. exfalso. rewrite pairs_nth in A by auto.
    assert (N0 : (k / k1, k mod k1)%nat <> (0, 0)%nat). { intros Q. injection Q as Q1 Q2. pose proof (Nat.div_mod k k1 ltac:(lia)). rewrite Q1, Q2 in H. lia. }
    destruct (anisotropic_mn _ _ N0) as (u & p & q & Hu & D). apply D. rewrite <- !(harmonic_scale rc) by auto. apply A. split; [apply Rmult_le_pos; lra|]. rewrite <- (Rmult_1_l rc) at 2. apply Rmult_le_compat_r; lra.
Qed.
