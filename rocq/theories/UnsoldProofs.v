(** The squares of all harmonics of one degree add up to a constant. *)
From Coq Require Import List Arith Lia Bool Reals Lra.
From Coquelicot Require Import Coquelicot.
From Verif Require Import BigSum LegendreModel LegSpec QuadModel QuadSpec PolyProofs CCProofs QuadProofs LegProofs LegTableProofs VLegProofs.
Import ListNotations.
Local Open Scope R_scope.

(** W_m = K_m (1-x^2)^m Q_m Q_{m+1} and T_m = (1-x^2)^m Q_m^2 *)
Definition uW (l m : nat) (x : R) : R := Kc l m * (wpow m x * (Q l m x * Q l (S m) x)).
Definition uT (l m : nat) (x : R) : R := Kc l m * (wpow m x * (Q l m x * Q l m x)).
Lemma uT_0 : forall l x, is_derive (uT l 0) x (2 * uW l 0 x).
Proof.
  intros l x. unfold uT, uW. pose proof (Q_derive l 0 x) as D.
  evar_last. apply is_derive_scal. apply (is_derive_extR (fun t => Q l 0 t * Q l 0 t)); [intros; unfold wpow; cbn [pow]; ring|]. apply is_derive_prod; exact D.
  unfold wpow. cbn [pow]. ring.
Qed.
Lemma uT_S : forall l m x, (m < l)%nat -> is_derive (uT l (S m)) x (uW l (S m) x - uW l m x).
Proof.
  intros l m x H. unfold uT, uW. pose proof (Q_derive l (S m) x) as D. pose proof (wpow_derive m x) as Dw.
  evar_last. apply is_derive_scal. apply is_derive_prod; [exact Dw|]. apply is_derive_prod; exact D.
  rewrite (Kc_S l m H). pose proof (Q_lower l m x) as QL. rewrite !wpow_S.
  replace (Kc l (S m) * (-2 * (INR m + 1) * x * wpow m x * (Q l (S m) x * Q l (S m) x) + (1 - x * x) * wpow m x * (Q l (S (S m)) x * Q l (S m) x + Q l (S m) x * Q l (S (S m)) x)))
    with (Kc l (S m) * wpow m x * Q l (S m) x * (2 * ((1 - x * x) * Q l (S (S m)) x) - 2 * (INR m + 1) * x * Q l (S m) x)) by ring.
  rewrite <- QL. ring.
Qed.
Lemma tele : forall N (g : nat -> R), rsum N (fun m => g (S m) - g m) = g N - g 0%nat.
Proof. induction N; intros; cbn [bsum_]; [ring|]. rewrite IHN. ring. Qed.
Definition uS (l : nat) (x : R) : R := uT l 0 x + rsum l (fun m => 2 * uT l (S m) x).
Lemma uS_derive : forall l x, is_derive (uS l) x 0.
Proof.
  intros l x. unfold uS. evar_last.
  apply (is_derive_plus (K := R_AbsRing) (V := R_NormedModule) (uT l 0) (fun x => rsum l (fun m => 2 * uT l (S m) x))).
  apply uT_0. apply (rsum_is_derive l (fun m x => 2 * uT l (S m) x) (fun m x => 2 * (uW l (S m) x - uW l m x))). intros k Hk. apply is_derive_scal. now apply uT_S.
  cbv beta. rewrite (bsum_scal_l RT), (tele l (fun m => uW l m x)). unfold plus; cbn. unfold uW at 2. rewrite (Q_high l (S l)) by lia. ring.
Qed.
Lemma uS_value : forall l x, uS l x = (2 * INR l + 1) / (4 * PI).
Proof.
  intros l x. transitivity (uS l 1).
  - destruct (MVT_gen (uS l) x 1 (fun _ => 0)) as (c & _ & E). intros; apply uS_derive. intros y _. apply continuity_pt_filterlim. apply (ex_derive_continuous (uS l)). exists 0. apply uS_derive. lra.
  - unfold uS, uT. rewrite (bsum_zero' RT). 2:{ intros i _. rewrite wpow_end by ring. ring. }
    rewrite Q_0, legP_1. unfold Kc, wpow. rewrite Nat.sub_0_r, Nat.add_0_r. cbn [pow]. pose proof PI_RGT_0. pose proof (fact_nz l). field. split; lra.
Qed.
Theorem unsold : forall l x, -1 <= x <= 1 -> alf l 0 x ^ 2 + rsum l (fun m => 2 * alf l (S m) x ^ 2) = (2 * INR l + 1) / (4 * PI).
Proof.
  intros l x Hx. rewrite <- (uS_value l x). unfold uS, uT.
  assert (E : forall m, (m <= l)%nat -> alf l m x ^ 2 = Kc l m * (wpow m x * (Q l m x * Q l m x))).
  { intros m Hm. cbn [pow]. rewrite Rmult_1_r, alf_prod by auto. unfold alf2. rewrite ylm_sq. ring. }
  rewrite E by lia. f_equal. apply bsum_ext. intros m Hm. rewrite E by lia. ring.
Qed.
Lemma alf0_legendre : forall l x, alf l 0 x ^ 2 = (2 * INR l + 1) / (4 * PI) * legendre l x ^ 2.
Proof.
  intros. rewrite alf_Q by lia. cbn [pow]. rewrite Q_0, legP_legendre. replace (ylm_const l 0 * (1 * legendre l x) * (ylm_const l 0 * (1 * legendre l x) * 1)) with (ylm_const l 0 * ylm_const l 0 * (legendre l x * (legendre l x * 1))) by ring.
  rewrite ylm_sq. unfold Kc. rewrite Nat.sub_0_r, Nat.add_0_r. field. split. pose proof PI_RGT_0; lra. apply fact_nz.
Qed.
Lemma legendre_bound : forall l x, -1 <= x <= 1 -> 0 <= legendre l x ^ 2 <= 1.
Proof.
  intros l x Hx. pose proof (unsold l x Hx) as U. rewrite alf0_legendre in U. pose proof PI_RGT_0. pose proof (pos_INR l).
  assert (0 < (2 * INR l + 1) / (4 * PI)) by (apply Rdiv_lt_0_compat; lra).
  assert (0 <= rsum l (fun m => 2 * alf l (S m) x ^ 2)).
  { apply Rle_trans with (rsum l (fun _ => 0)); [right; symmetry; apply (bsum_zero RT)|]. apply rsum_le. intros. pose proof (pow2_ge_0 (alf l (S k) x)). lra. }
  split. apply pow2_ge_0. apply (Rmult_le_reg_l ((2 * INR l + 1) / (4 * PI))); auto. lra.
Qed.
