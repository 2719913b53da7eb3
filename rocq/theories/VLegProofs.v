(** The derivative tables of the vector transforms. *)
From Coq Require Import List Arith Lia Bool Reals Lra.
From Coquelicot Require Import Coquelicot.
From Verif Require Import BigSum LegendreModel LegSpec QuadModel QuadSpec PolyProofs CCProofs QuadProofs LegProofs LegTableProofs.
Import ListNotations.
Local Open Scope R_scope.

Definition sq (x : R) : R := sqrt (1 - x * x).
(** A = m x Q^m - (1 - x^2) Q^(m+1) *)
Definition Ap (l m : nat) (x : R) : R := INR m * x * Q l m x - (1 - x * x) * Q l (S m) x.
Definition dA (l m : nat) (x : R) : R := match m with O => - (sq x * Q l 1 x) | S n => sq x ^ n * Ap l m x end.
Definition eA (l m : nat) (x : R) : R := match m with O => 0 | S n => INR m * (sq x ^ n * Q l m x) end.
Definition dalf (l m : nat) (x : R) : R := if (m <=? l)%nat then ylm_const l m * dA l m x else 0.
Definition ealf (l m : nat) (x : R) : R := if (m <=? l)%nat then ylm_const l m * eA l m x else 0.

Lemma sq_sq : forall x, -1 <= x <= 1 -> sq x * sq x = 1 - x * x.
Proof. intros. unfold sq. apply sqrt_sqrt. nra. Qed.

(** ** Ratios of the normalisation constants *)
Lemma fact_sub : forall l m, (m < l)%nat -> INR (fact (l - m)) = (INR l - INR m) * INR (fact (l - S m)).
Proof. intros. replace (l - m)%nat with (S (l - S m)) by lia. rewrite fact_S. rewrite minus_INR by lia. rewrite S_INR. ring. Qed.
Lemma fact_add : forall l m, INR (fact (l + S m)) = (INR l + INR m + 1) * INR (fact (l + m)).
Proof. intros. replace (l + S m)%nat with (S (l + m)) by lia. rewrite fact_S, plus_INR. ring. Qed.
Lemma Kc_S : forall l m, (m < l)%nat -> Kc l m = (INR l - INR m) * (INR l + INR m + 1) * Kc l (S m).
Proof.
  intros l m H. unfold Kc. rewrite fact_sub, fact_add by auto. pose proof PI_RGT_0. pose proof (pos_INR l). pose proof (pos_INR m).
  pose proof (fact_nz (l + m)). field. repeat split; auto; lra.
Qed.
Lemma ylm_down : forall l m, (m < l)%nat -> sqrt ((INR l - INR m) * (INR l + INR m + 1)) * ylm_const l (S m) = ylm_const l m.
Proof.
  intros l m H. assert (INR m + 1 <= INR l). { rewrite <- S_INR. apply le_INR. lia. } pose proof (pos_INR m). rewrite !ylm_Kc.
  rewrite (sqrt_ratio _ _ 1 (Kc l m)); try lra. apply Rmult_le_pos; lra. rewrite (Kc_S l m) by auto. ring.
Qed.
Lemma ylm_up : forall l m, (m < l)%nat -> sqrt ((INR l - INR m) * (INR l + INR m + 1)) * ylm_const l m = (INR l - INR m) * (INR l + INR m + 1) * ylm_const l (S m).
Proof.
  intros l m H. assert (INR m + 1 <= INR l). { rewrite <- S_INR. apply le_INR. lia. } pose proof (pos_INR m). rewrite !ylm_Kc.
  apply sqrt_ratio. apply Rmult_le_pos; lra. apply Rmult_le_pos; lra. rewrite (Kc_S l m) by auto. ring.
Qed.
(** Degree l+1 against degree l. *)
Lemma Kc_l1 : forall l n, (S n <= l)%nat -> (2 * INR l + 1) / (2 * INR l + 3) * Kc (S l) n = (INR l - INR n) * (INR l - INR n + 1) * Kc l (S n).
Proof.
  intros l n H. unfold Kc. rewrite !S_INR. pose proof PI_RGT_0. pose proof (pos_INR l).
  replace (S l - n)%nat with (S (S (l - S n))) by lia. rewrite !fact_S, !S_INR. rewrite minus_INR by lia. rewrite S_INR.
  replace (S l + n)%nat with (l + S n)%nat by lia. pose proof (fact_nz (l + S n)). field. repeat split; auto; lra.
Qed.
Lemma Kc_l2 : forall l m, (m <= l)%nat -> (2 * INR l + 1) / (2 * INR l + 3) * Kc (S l) (S m) * ((INR l + INR m + 1) * (INR l + INR m + 2)) = Kc l m.
Proof.
  intros l m H. unfold Kc. rewrite !S_INR. pose proof PI_RGT_0. pose proof (pos_INR l). pose proof (pos_INR m). replace (S l - S m)%nat with (l - m)%nat by lia.
  replace (S l + S m)%nat with (S (S (l + m))) by lia. rewrite !fact_S, !S_INR, !plus_INR. pose proof (fact_nz (l + m)). field. repeat split; auto; lra.
Qed.
Lemma ylm_l1 : forall l n, (S n <= l)%nat ->
  sqrt ((2 * INR l + 1) / (2 * INR l + 3)) * (sqrt ((INR l - INR n) * (INR l - INR n + 1)) * ylm_const (S l) n) = (INR l - INR n) * (INR l - INR n + 1) * ylm_const l (S n).
Proof.
  intros l n H. assert (INR n + 1 <= INR l). { rewrite <- S_INR. apply le_INR. lia. } pose proof (pos_INR n). rewrite !ylm_Kc.
  rewrite <- (sqrt_mult_alt ((INR l - INR n) * (INR l - INR n + 1))) by (apply Rmult_le_pos; lra). apply sqrt_ratio. apply div_nn; lra. apply Rmult_le_pos; lra.
  transitivity ((INR l - INR n) * (INR l - INR n + 1) * ((2 * INR l + 1) / (2 * INR l + 3) * Kc (S l) n)). ring. rewrite Kc_l1 by auto. ring.
Qed.
Lemma ylm_l2 : forall l m, (m <= l)%nat ->
  sqrt ((2 * INR l + 1) / (2 * INR l + 3)) * (sqrt ((INR l + INR m + 1) * (INR l + INR m + 2)) * ylm_const (S l) (S m)) = ylm_const l m.
Proof.
  intros l m H. pose proof (pos_INR l). pose proof (pos_INR m). rewrite !ylm_Kc.
  rewrite <- (sqrt_mult_alt ((INR l + INR m + 1) * (INR l + INR m + 2))) by (apply Rmult_le_pos; lra). rewrite (sqrt_ratio _ _ 1 (Kc l m)); try lra. apply div_nn; lra.
  rewrite <- (Kc_l2 l m) by auto. ring.
Qed.
(** ** Closed forms of the two tables on the unnormalised array *)
Lemma Q_lower : forall l n x, (1 - x * x) * Q l (S (S n)) x + (INR l - INR n) * (INR l + INR n + 1) * Q l n x = 2 * (INR n + 1) * x * Q l (S n) x.
Proof. intros. rewrite Q_ode. ring. Qed.
Lemma Q_mid : forall l n x, (INR l - INR n) * (INR l - INR n + 1) * Q (S l) n x + (1 - x * x) * Q (S l) (S (S n)) x = 2 * (INR n + 1) * Q l (S n) x.
Proof.
  intros. rewrite Q_ode. pose proof (Q_up l n x). rewrite S_INR. replace (Q l (S n) x) with (x * Q (S l) (S n) x - (INR l + 1 - INR n) * Q (S l) n x) by lra. ring.
Qed.
Section Tab.
Variables (x : R) (nf : nat -> R) (pct : arr) (N : nat).
Hypotheses (Hx : -1 <= x <= 1) (HP : forall m l, (l < N)%nat -> pct m l = nf l * alf l m x).

Lemma clamp_pos : forall a, 0 <= a -> clamp0 a = a.
Proof. intros. unfold clamp0. now apply Rmax_right. Qed.
Lemma dleg0_value : forall m l, (l < N)%nat -> dleg0 pct m l = nf l * dalf l m x.
Proof.
  intros m l Hl. pose proof (sq_sq x Hx) as SS. unfold dleg0, dalf. destruct m as [|n].
  - cbn [Nat.eqb Nat.leb]. rewrite HP by auto. destruct l as [|l].
    + rewrite alf_above by auto. unfold dA. rewrite Q_high by auto. ring.
    + rewrite alf_Q by lia. unfold dA. rewrite <- (ylm_down (S l) 0) by lia. change (sqrt (1 - x * x)) with (sq x). simpl (INR 0). rewrite pow_1. rewrite Rminus_0_r, Rplus_0_r. ring.
  - cbn [Nat.eqb]. unfold dleg_mask. destruct (Nat.leb_spec (S n) l). 2:{ rewrite andb_false_r. ring. }
    cbn [Nat.leb andb]. replace (S n - 1)%nat with n by lia. replace (S n + 1)%nat with (S (S n)) by lia. rewrite !HP by auto.
    assert (INR n + 1 <= INR l). { rewrite <- S_INR. apply le_INR. lia. } pose proof (pos_INR n).
    rewrite S_INR. rewrite (alf_Q l n) by lia.
    replace ((INR l + (INR n + 1)) * (INR l - (INR n + 1) + 1)) with ((INR l - INR n) * (INR l + INR n + 1)) by ring. rewrite clamp_pos by (apply Rmult_le_pos; lra).
    assert (E2 : sqrt (clamp0 ((INR l - (INR n + 1)) * (INR l + (INR n + 1) + 1))) * (nf l * alf l (S (S n)) x) = nf l * (ylm_const l (S n) * (sq x ^ S (S n) * Q l (S (S n)) x))).
    { destruct (le_lt_dec (S (S n)) l).
      - rewrite clamp_pos by (apply Rmult_le_pos; lra). rewrite alf_Q by auto. rewrite <- (ylm_down l (S n)) by lia. rewrite S_INR. change (sqrt (1 - x * x)) with (sq x). ring.
      - rewrite alf_above, Q_high by lia. ring. }
    rewrite E2. change (sqrt (1 - x * x)) with (sq x).
    transitivity (nf l * (0.5 * (sqrt ((INR l - INR n) * (INR l + INR n + 1)) * ylm_const l n * (sq x ^ n * Q l n x) - ylm_const l (S n) * (sq x ^ S (S n) * Q l (S (S n)) x)))). ring.
    rewrite ylm_up by lia. unfold dA, Ap. cbn [pow]. rewrite S_INR.
    transitivity (nf l * (ylm_const l (S n) * (sq x ^ n * (0.5 * ((INR l - INR n) * (INR l + INR n + 1) * Q l n x - (sq x * sq x) * Q l (S (S n)) x))))). ring.
    rewrite SS. pose proof (Q_lower l n x) as QL. f_equal. f_equal. f_equal. lra.
Qed.
Lemma dleg1_value : forall m l, (S l < N)%nat -> dleg1 pct m l = nf (S l) * ealf l m x.
Proof.
  intros m l Hl. pose proof (sq_sq x Hx) as SS. unfold dleg1, ealf, dleg_mask. destruct m as [|n].
  - cbn [Nat.leb andb]. unfold eA. ring.
  - destruct (Nat.leb_spec (S n) l). 2:{ rewrite andb_false_r. ring. }
    cbn [Nat.leb andb]. replace (S n - 1)%nat with n by lia. replace (S n + 1)%nat with (S (S n)) by lia. replace (l + 1)%nat with (S l) by lia. rewrite !HP by auto.
    assert (INR n + 1 <= INR l). { rewrite <- S_INR. apply le_INR. lia. } pose proof (pos_INR n). pose proof (pos_INR l).
    rewrite (alf_Q (S l) n), (alf_Q (S l) (S (S n))) by lia. change (sqrt (1 - x * x)) with (sq x).
    replace (clamp0 _) with ((INR l - INR n) * (INR l - INR n + 1)) by (rewrite S_INR, clamp_pos; [ring|apply Rmult_le_pos; lra]).
    transitivity (nf (S l) * (0.5 * ((sqrt ((2 * INR l + 1) / (2 * INR l + 3)) * (sqrt ((INR l - INR n) * (INR l - INR n + 1)) * ylm_const (S l) n)) * (sq x ^ n * Q (S l) n x)
       + (sqrt ((2 * INR l + 1) / (2 * INR l + 3)) * (sqrt ((INR l + INR (S n) + 1) * (INR l + INR (S n) + 2)) * ylm_const (S l) (S (S n)))) * (sq x ^ S (S n) * Q (S l) (S (S n)) x)))). ring.
    rewrite ylm_l1, ylm_l2 by lia. unfold eA. cbn [pow]. rewrite S_INR.
    transitivity (nf (S l) * (ylm_const l (S n) * (sq x ^ n * (0.5 * ((INR l - INR n) * (INR l - INR n + 1) * Q (S l) n x + (sq x * sq x) * Q (S l) (S (S n)) x))))). ring.
    rewrite SS. pose proof (Q_mid l n x) as QM. f_equal. transitivity (ylm_const l (S n) * (sq x ^ n * ((INR n + 1) * Q l (S n) x))); [|ring]. f_equal. f_equal. lra.
Qed.
End Tab.

Lemma schmidt_norm : forall nm inverse l, norm_spec nm inverse (S l) * schmidt_corr nm inverse l = norm_spec nm inverse l.
Proof.
  intros nm inverse l. unfold norm_spec, schmidt_corr. destruct nm; try ring. pose proof (pos_INR l). pose proof PI_RGT_0. rewrite S_INR.
  assert (A : sqrt (2 * INR l + 1) <> 0) by (apply Rgt_not_eq, sqrt_lt_R0; lra). assert (B : sqrt (2 * INR l + 3) <> 0) by (apply Rgt_not_eq, sqrt_lt_R0; lra).
  assert (P : sqrt (4 * PI) <> 0) by (apply Rgt_not_eq, sqrt_lt_R0; lra).
  replace (2 * (INR l + 1) + 1) with (2 * INR l + 3) by ring. destruct inverse; rewrite sqrt_div by lra; field; auto.
Qed.
Definition comp (d : nat) (l m : nat) (x : R) : R := if (d =? 0)%nat then dalf l m x else ealf l m x.
Lemma dlegpoly_value : forall mmax lmax t nm inverse cs d m l, (l < lmax)%nat ->
  precompute_dlegpoly mmax lmax t nm inverse cs d m l = norm_spec nm inverse l * phase_spec cs m * comp d l m (cos t).
Proof.
  intros mmax lmax t nm inverse cs d m l Hl. unfold precompute_dlegpoly. set (pct := precompute_legpoly _ _ _ _ _ _).
  assert (HP : forall m l, (l < S lmax)%nat -> pct m l = norm_spec nm inverse l * alf l m (cos t)).
  { intros. unfold pct, precompute_legpoly. rewrite legpoly_value by (try apply COS_bound; lia). unfold phase_spec. ring. }
  pose proof (COS_bound t) as CB.
  assert (E : (if (d =? 0)%nat then dleg0 pct m l else dleg1 pct m l * schmidt_corr nm inverse l) = norm_spec nm inverse l * comp d l m (cos t)).
  { unfold comp. destruct (d =? 0)%nat. exact (dleg0_value (cos t) _ pct (S lmax) CB HP m l ltac:(lia)).
    rewrite (dleg1_value (cos t) _ pct (S lmax) CB HP m l ltac:(lia)). rewrite <- (schmidt_norm nm inverse l). ring. }
  rewrite E. unfold phase_spec. destruct cs; cbn [andb]; [rewrite odd_pow; destruct (Nat.odd m)|]; ring.
Qed.

(** ** Gram integrals *)
Lemma Ap_poly : forall l m, (m <= l)%nat -> is_poly (l - m + 1) (Ap l m).
Proof.
  intros l m H. unfold Ap. apply is_poly_minus.
  - apply is_poly_ext with (fun x => INR m * (x * Q l m x)). intros; ring. replace (l - m + 1)%nat with (S (l - m)) by lia. apply is_poly_scal, is_poly_x, Q_poly.
  - destruct (le_lt_dec l m).
    + apply is_poly_ext with (fun _ => 0). intros; rewrite Q_high by lia; ring. apply is_poly_le with 0%nat; [apply is_poly_const|lia].
    + apply is_poly_le with (1 * 2 + (l - S m))%nat; [|lia]. apply is_poly_ext with (fun x => wpow 1 x * Q l (S m) x). intros; unfold wpow; ring. apply is_poly_mult. apply wpow_poly. apply Q_poly.
Qed.
Definition grad2 (m l k : nat) (x : R) : R :=
  match m with
  | O => wpow 1 x * (Q l 1 x * Q k 1 x)
  | S n => wpow n x * (Ap l m x * Ap k m x + INR m * INR m * (Q l m x * Q k m x))
  end.
Definition cross2 (m l k : nat) (x : R) : R :=
  match m with O => 0 | S n => INR m * (wpow n x * (Ap l m x * Q k m x + Q l m x * Ap k m x)) end.
Lemma grad2_poly : forall m l k, (m <= l)%nat -> (m <= k)%nat -> is_poly (l + k) (grad2 m l k).
Proof.
  intros m l k Hl Hk. destruct m as [|n]; unfold grad2.
  - destruct (le_lt_dec l 0). { apply is_poly_ext with (fun _ => 0). intros; rewrite (Q_high l) by lia; ring. apply is_poly_le with 0%nat; [apply is_poly_const|lia]. }
    destruct (le_lt_dec k 0). { apply is_poly_ext with (fun _ => 0). intros; rewrite (Q_high k) by lia; ring. apply is_poly_le with 0%nat; [apply is_poly_const|lia]. }
    apply is_poly_le with (1 * 2 + ((l - 1) + (k - 1)))%nat; [|lia]. apply ip_poly.
  - apply is_poly_le with (n * 2 + ((l - S n + 1) + (k - S n + 1)))%nat; [|lia]. apply is_poly_mult. apply wpow_poly. apply is_poly_plus.
    apply is_poly_mult; apply Ap_poly; auto. apply is_poly_scal. apply is_poly_le with ((l - S n) + (k - S n))%nat; [|lia]. apply is_poly_mult; apply Q_poly.
Qed.
Lemma cross2_poly : forall m l k, (m <= l)%nat -> (m <= k)%nat -> is_poly (l + k) (cross2 m l k).
Proof.
  intros m l k Hl Hk. destruct m as [|n]; unfold cross2. apply is_poly_le with 0%nat; [apply is_poly_const|lia].
  apply is_poly_scal. apply is_poly_le with (n * 2 + ((l - S n + 1) + (k - S n + 1)))%nat; [|lia]. apply is_poly_mult. apply wpow_poly. apply is_poly_plus.
  - apply is_poly_mult. now apply Ap_poly. apply is_poly_le with (k - S n)%nat; [apply Q_poly|lia].
  - apply is_poly_mult. apply is_poly_le with (l - S n)%nat; [apply Q_poly|lia]. now apply Ap_poly.
Qed.
Lemma comp_grad : forall m l k x, (m <= l)%nat -> (m <= k)%nat -> -1 <= x <= 1 ->
  dalf l m x * dalf k m x + ealf l m x * ealf k m x = ylm_const l m * ylm_const k m * grad2 m l k x.
Proof.
  intros m l k x Hl Hk Hx. unfold dalf, ealf. rewrite (proj2 (Nat.leb_le m l)), (proj2 (Nat.leb_le m k)) by auto. pose proof (sq_sq x Hx) as SS.
  destruct m as [|n]; unfold dA, eA, grad2.
  - unfold wpow. rewrite pow_1, <- SS. ring.
  - rewrite <- (sx_pow n) by auto. change (sqrt (1 - x * x)) with (sq x). ring.
Qed.
Lemma comp_cross : forall m l k x, (m <= l)%nat -> (m <= k)%nat -> -1 <= x <= 1 ->
  dalf l m x * ealf k m x + ealf l m x * dalf k m x = ylm_const l m * ylm_const k m * cross2 m l k x.
Proof.
  intros m l k x Hl Hk Hx. unfold dalf, ealf. rewrite (proj2 (Nat.leb_le m l)), (proj2 (Nat.leb_le m k)) by auto.
  destruct m as [|n]; unfold dA, eA, cross2. ring. rewrite <- (sx_pow n) by auto. change (sqrt (1 - x * x)) with (sq x). ring.
Qed.
Lemma Ap_derive : forall l m x, is_derive (Ap l m) x ((INR l * (INR l + 1) - INR m * INR m) * Q l m x - INR m * x * Q l (S m) x).
Proof.
  intros l m x.
  assert (D1 : is_derive (fun t => INR m * t) x (INR m)) by (auto_derive; auto; ring).
  assert (D2 : is_derive (fun t => 1 - t * t) x (- 2 * x)) by (auto_derive; auto; ring).
  pose proof (is_derive_prod _ _ x _ _ D1 (Q_derive l m x)) as E1. pose proof (is_derive_prod _ _ x _ _ D2 (Q_derive l (S m) x)) as E2.
  pose proof (is_derive_minus _ _ x _ _ E1 E2) as E. unfold Ap. cbv beta in E.
  replace ((INR l * (INR l + 1) - INR m * INR m) * Q l m x - INR m * x * Q l (S m) x) with
    (INR m * Q l m x + INR m * x * Q l (S m) x - (- 2 * x * Q l (S m) x + (1 - x * x) * Q l (S (S m)) x)). exact E.
  rewrite Q_ode. ring.
Qed.
Lemma wpow_S : forall n x, wpow (S n) x = (1 - x * x) * wpow n x. Proof. reflexivity. Qed.
Lemma cross2_int : forall m l k, (m <= l)%nat -> (m <= k)%nat -> @eq R (RInt (cross2 m l k) (-1) 1) 0.
Proof.
  intros m l k Hl Hk. pose proof (cross2_poly m l k Hl Hk) as PC. destruct m as [|n].
  - unfold cross2. rewrite (RInt_derive (fun _ => 0)). ring. intros. auto_derive; auto. intros; apply continuous_const.
  - transitivity ((- INR (S n)) * (wpow (S n) 1 * (Q l (S n) 1 * Q k (S n) 1)) - (- INR (S n)) * (wpow (S n) (-1) * (Q l (S n) (-1) * Q k (S n) (-1)))).
    2:{ rewrite !wpow_end by ring. ring. }
    apply (RInt_derive (fun t => (- INR (S n)) * (wpow (S n) t * (Q l (S n) t * Q k (S n) t)))).
    + intros x. pose proof (is_derive_prod _ _ x _ _ (Q_derive l (S n) x) (Q_derive k (S n) x)) as D1. pose proof (is_derive_prod _ _ x _ _ (wpow_derive n x) D1) as D2.
      cbv beta in D2. apply (is_derive_scal _ x (- INR (S n))) in D2.
      assert (E : cross2 (S n) l k x = - INR (S n) * (- 2 * (INR n + 1) * x * wpow n x * (Q l (S n) x * Q k (S n) x) + wpow (S n) x * (Q l (S (S n)) x * Q k (S n) x + Q l (S n) x * Q k (S (S n)) x))).
      { unfold cross2, Ap. rewrite wpow_S, S_INR. ring. }
      rewrite E. exact D2.
    + intros x. eapply is_poly_continuous, PC.
Qed.
Lemma grad2_int : forall m l k, (m <= l)%nat -> (m <= k)%nat -> @eq R (RInt (grad2 m l k) (-1) 1) (INR l * (INR l + 1) * ip m l k).
Proof.
  intros m l k Hl Hk. pose proof (grad2_poly m l k Hl Hk) as PG. destruct m as [|n].
  - unfold grad2. fold (ip 1 l k). rewrite ip_step. simpl (INR 0). ring.
  - set (c := INR l * (INR l + 1)).
    assert (D : forall x, is_derive (fun t => - (wpow (S n) t * (Ap l (S n) t * Q k (S n) t))) x (1 * grad2 (S n) l k x + (- c) * (wpow (S n) x * (Q l (S n) x * Q k (S n) x)))).
    { intros x. pose proof (is_derive_prod _ _ x _ _ (Ap_derive l (S n) x) (Q_derive k (S n) x)) as D1. pose proof (is_derive_prod _ _ x _ _ (wpow_derive n x) D1) as D2.
      cbv beta in D2. apply (is_derive_opp _ x) in D2.
      assert (E : 1 * grad2 (S n) l k x + (- c) * (wpow (S n) x * (Q l (S n) x * Q k (S n) x)) =
        - (- 2 * (INR n + 1) * x * wpow n x * (Ap l (S n) x * Q k (S n) x) + wpow (S n) x * (((INR l * (INR l + 1) - INR (S n) * INR (S n)) * Q l (S n) x - INR (S n) * x * Q l (S (S n)) x) * Q k (S n) x + Ap l (S n) x * Q k (S (S n)) x))).
      { unfold grad2, Ap, c. rewrite wpow_S, S_INR. ring. }
      rewrite E. exact D2. }
    assert (I : @eq R (RInt (fun x => 1 * grad2 (S n) l k x + (- c) * (wpow (S n) x * (Q l (S n) x * Q k (S n) x))) (-1) 1) 0).
    { transitivity (- (wpow (S n) 1 * (Ap l (S n) 1 * Q k (S n) 1)) - - (wpow (S n) (-1) * (Ap l (S n) (-1) * Q k (S n) (-1)))).
      2:{ rewrite !wpow_end by ring. ring. }
      apply (RInt_derive (fun t => - (wpow (S n) t * (Ap l (S n) t * Q k (S n) t)))). exact D.
      intros x. apply (continuous_plus (V := R_NormedModule)); apply (continuous_scal_r (V := R_NormedModule)); eapply is_poly_continuous; [exact PG|apply ip_poly]. }
    rewrite (RInt_lin (grad2 (S n) l k) (fun x => wpow (S n) x * (Q l (S n) x * Q k (S n) x))) in I; [|eapply is_poly_integrable, PG|apply ip_int].
    fold (ip (S n) l k) in I. change (@eq R (RInt (grad2 (S n) l k) (-1) 1) (c * ip (S n) l k)). lra.
Qed.
Lemma ip_delta : forall m l k, (m <= l)%nat -> (m <= k)%nat -> ylm_const l m * ylm_const k m * ip m l k = if (l =? k)%nat then / (2 * PI) else 0.
Proof.
  intros m l k Hl Hk. destruct (Nat.eqb_spec l k) as [->|]. 2:{ rewrite ip_orth by auto. ring. }
  rewrite ylm_sq, ip_norm by auto. unfold Kc. pose proof PI_RGT_0. pose proof (pos_INR k). field. repeat split; try apply fact_nz; lra.
Qed.

(** ** The tables are the derivative and the quotient *)
Lemma sq_cos : forall t, 0 <= t <= PI -> sq (cos t) = sin t.
Proof.
  intros t H. unfold sq. pose proof (sin2_cos2 t) as S. unfold Rsqr in S. replace (1 - cos t * cos t) with (sin t * sin t) by lra.
  apply sqrt_square. apply sin_ge_0; lra.
Qed.
Lemma alf_cos_derive : forall l m t, 0 < t < PI -> is_derive (fun u => alf l m (cos u)) t (dalf l m (cos t)).
Proof.
  intros l m t H. unfold dalf. destruct (Nat.leb_spec m l) as [L|L].
  2:{ apply (is_derive_ext (fun _ => 0)). intros; symmetry; now apply alf_above. apply (is_derive_const (V := R_NormedModule)). }
  assert (LOC : locally t (fun u => ylm_const l m * (sin u ^ m * Q l m (cos u)) = alf l m (cos u))).
  { apply (locally_interval _ t 0 PI); simpl; try lra. intros u U1 U2. simpl in U1, U2. rewrite alf_Q by auto.
    change (sqrt (1 - cos u * cos u)) with (sq (cos u)). rewrite sq_cos by lra. auto. }
  apply (is_derive_ext_loc _ _ _ _ LOC). unfold dA.
  assert (DC : is_derive (fun u => Q l m (cos u)) t (- sin t * Q l (S m) (cos t))).
  { apply (is_derive_comp (Q l m) cos t). apply Q_derive. auto_derive; auto. ring. }
  assert (DS : is_derive sin t (cos t)) by (auto_derive; auto; ring).
  pose proof (sin2_cos2 t) as S2. unfold Rsqr in S2. pose proof (sq_cos t ltac:(lra)) as SC. destruct m as [|n].
  - rewrite SC. replace (ylm_const l 0 * - (sin t * Q l 1 (cos t))) with (ylm_const l 0 * (0 * Q l 0 (cos t) + 1 * (- sin t * Q l 1 (cos t)))) by ring.
    apply (is_derive_scal (fun u => sin u ^ 0 * Q l 0 (cos u))). apply (is_derive_prod (fun u => sin u ^ 0) (fun u => Q l 0 (cos u))); auto. cbn [pow]. auto_derive; auto.
  - rewrite SC. pose proof (is_derive_pow sin (S n) t (cos t) DS) as DP. cbn [pred] in DP.
    pose proof (is_derive_prod _ _ t _ _ DP DC) as D. apply (is_derive_scal _ t (ylm_const l (S n))) in D.
    replace (ylm_const l (S n) * (sin t ^ n * Ap l (S n) (cos t))) with (ylm_const l (S n) * (INR (S n) * cos t * sin t ^ n * Q l (S n) (cos t) + sin t ^ S n * (- sin t * Q l (S (S n)) (cos t)))). exact D.
    unfold Ap. cbn [pow]. replace (1 - cos t * cos t) with (sin t * sin t) by lra. ring.
Qed.
Lemma dalf_is_derivative : forall l m t, 0 < t < PI -> dalf l m (cos t) = dalf_theta l m t.
Proof. intros. symmetry. unfold dalf_theta. apply is_derive_unique. now apply alf_cos_derive. Qed.
Lemma ealf_is_quotient : forall l m t, 0 < t < PI -> ealf l m (cos t) = malf_sin l m t.
Proof.
  intros l m t H. assert (sin t <> 0) by (apply Rgt_not_eq, sin_gt_0; lra). unfold malf_sin, ealf. destruct (Nat.leb_spec m l) as [L|L].
  2:{ rewrite alf_above by auto. field; auto. }
  rewrite alf_Q by auto. change (sqrt (1 - cos t * cos t)) with (sq (cos t)). rewrite sq_cos by lra. unfold eA. destruct m as [|n].
  - simpl (INR 0). field; auto. - rewrite sq_cos by lra. cbn [pow]. field; auto.
Qed.
