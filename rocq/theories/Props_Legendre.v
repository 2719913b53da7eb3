(** C24: the associated Legendre tables. *)
From Coq Require Import List Arith Lia Bool Reals Lra.
From Coquelicot Require Import Coquelicot.
From Verif Require Import LegendreModel LegSpec LegProofs LegTableProofs.
Local Open Scope R_scope.

(** Every entry of the table is the Rodrigues closed form times the documented
    normalisation and phase. *)
Theorem C24_closed_form : forall mmax lmax x nm inverse csphase m l, -1 <= x <= 1 -> (m < mmax)%nat -> (l < lmax)%nat ->
  legpoly mmax lmax x nm inverse csphase m l = norm_spec nm inverse l * phase_spec csphase m * alf l m x.
Proof. intros. apply legpoly_value; auto. lia. Qed.
Theorem C24_precompute : forall mmax lmax t nm inverse csphase m l, (m < mmax)%nat -> (l < lmax)%nat ->
  precompute_legpoly mmax lmax t nm inverse csphase m l = norm_spec nm inverse l * phase_spec csphase m * alf l m (cos t).
Proof. intros. unfold precompute_legpoly. apply legpoly_value. apply COS_bound. lia. Qed.
(** Orders above the degree vanish. *)
Theorem C24_vanishes : forall mmax lmax x nm inverse csphase m l, -1 <= x <= 1 -> (l < m)%nat -> (m < mmax)%nat -> (l < lmax)%nat ->
  legpoly mmax lmax x nm inverse csphase m l = 0.
Proof. intros. rewrite legpoly_value by (auto; lia). rewrite alf_above by auto. ring. Qed.
(** Parity (-1)^(l+m). *)
Theorem C24_parity : forall mmax lmax x nm inverse csphase m l, -1 <= x <= 1 -> (m < mmax)%nat -> (l < lmax)%nat ->
  legpoly mmax lmax (- x) nm inverse csphase m l = (-1) ^ (l + m) * legpoly mmax lmax x nm inverse csphase m l.
Proof. intros. rewrite !legpoly_value by (auto; try lia; lra). rewrite alf_parity. ring. Qed.
(** Orthogonality on [-1,1], with squared norm 1/(2 pi) times the square of the
    normalisation factor; [is_RInt] is the Riemann integral. *)
Theorem C24_orthonormal : forall mmax lmax nm inverse csphase m l k, (m < mmax)%nat -> (l < lmax)%nat -> (k < lmax)%nat -> (m <= l)%nat -> (m <= k)%nat ->
  is_RInt (fun x => legpoly mmax lmax x nm inverse csphase m l * legpoly mmax lmax x nm inverse csphase m k) (-1) 1
    (if (l =? k)%nat then norm_spec nm inverse l ^ 2 / (2 * PI) else 0).
Proof. exact legpoly_orthonormal. Qed.
(** The forward and the inverse normalisation are reciprocal. *)
Theorem C24_forward_inverse : forall mmax lmax nm csphase m l k, (m < mmax)%nat -> (l < lmax)%nat -> (k < lmax)%nat -> (m <= l)%nat -> (m <= k)%nat ->
  is_RInt (fun x => legpoly mmax lmax x nm false csphase m l * legpoly mmax lmax x nm true csphase m k) (-1) 1
    (if (l =? k)%nat then / (2 * PI) else 0).
Proof. exact legpoly_biorthonormal. Qed.
(** The table does not depend on the sizes requested. *)
Theorem C24_size_independent : forall mmax lmax mmax' lmax' x nm inverse csphase m l, -1 <= x <= 1 ->
  (m < mmax)%nat -> (l < lmax)%nat -> (m < mmax')%nat -> (l < lmax')%nat ->
  legpoly mmax lmax x nm inverse csphase m l = legpoly mmax' lmax' x nm inverse csphase m l.
Proof. intros. rewrite !legpoly_value by (auto; lia). auto. Qed.

Example C24_ex : legpoly 2 3 (/ 2) Ortho false true 1%nat 2%nat = - (sqrt (5 / (4 * PI) * (/ 6)) * (3 / 2 * sqrt (3 / 4))) /\ (1 < 2)%nat /\ (2 < 3)%nat /\ -1 <= / 2 <= 1.
Proof.
  split; [|repeat split; lra || lia]. rewrite legpoly_value by (lra || simpl; lia). unfold norm_spec, phase_spec. rewrite alf_Q by lia.
  rewrite (Q_subdiag 1). cbn [pow]. rewrite Rmult_1_r. unfold ylm_const. cbn [Nat.sub Nat.add fact Nat.mul]. cbn [INR].
  replace (1 - / 2 * / 2) with (3 / 4) by lra. replace ((2 * (1 + 1) + 1) / (4 * PI) * (1 / (1 + 1 + 1 + 1 + 1 + 1))) with (5 / (4 * PI) * (/ 6)) by (pose proof PI_RGT_0; field; lra).
  rewrite Q_diag, Q_0. unfold QuadModel.legP, QuadModel.leg_pair. cbn [fst INR]. lra.
Qed.

Print Assumptions C24_closed_form.
Print Assumptions C24_precompute.
Print Assumptions C24_vanishes.
Print Assumptions C24_parity.
Print Assumptions C24_orthonormal.
Print Assumptions C24_forward_inverse.
Print Assumptions C24_size_independent.
