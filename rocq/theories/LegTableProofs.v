(** The Legendre tables computed by legpoly equal the closed form. *)
From Coq Require Import List Arith Lia Bool Reals Lra.
From Coquelicot Require Import Coquelicot.
From Verif Require Import BigSum LegendreModel LegSpec QuadModel QuadSpec PolyProofs CCProofs QuadProofs LegProofs.
Import ListNotations.
Local Open Scope R_scope.

Definition Kc (l m : nat) : R := (2 * INR l + 1) / (4 * PI) * (INR (fact (l - m)) / INR (fact (l + m))).
Lemma fact_pos : forall l, 0 < INR (fact l). Proof. intros. apply lt_0_INR, lt_O_fact. Qed.
Lemma Kc_pos : forall l m, 0 < Kc l m.
Proof.
  intros. unfold Kc. pose proof PI_RGT_0. pose proof (pos_INR l). apply Rmult_lt_0_compat; apply Rdiv_lt_0_compat; try lra; apply fact_pos.
Qed.
Lemma ylm_Kc : forall l m, ylm_const l m = sqrt (Kc l m). Proof. reflexivity. Qed.
Lemma ylm_pos : forall l m, 0 < ylm_const l m. Proof. intros. rewrite ylm_Kc. apply sqrt_lt_R0, Kc_pos. Qed.
Lemma ylm_sq : forall l m, ylm_const l m * ylm_const l m = Kc l m.
Proof. intros. rewrite ylm_Kc. apply sqrt_sqrt. left. apply Kc_pos. Qed.
(** sqrt a * sqrt b = k * sqrt c when a b = k^2 c *)
Lemma sqrt_ratio : forall a b k c, 0 <= a -> 0 <= k -> a * b = k * k * c -> sqrt a * sqrt b = k * sqrt c.
Proof.
  intros a b k c Ha Hk E. rewrite <- (sqrt_mult_alt a b) by auto. rewrite E, sqrt_mult_alt by (now apply Rmult_le_pos). rewrite sqrt_square by auto. auto.
Qed.

Lemma div_nn : forall a b, 0 <= a -> 0 < b -> 0 <= a / b.
Proof. intros. apply Rmult_le_pos; auto. left. now apply Rinv_0_lt_compat. Qed.

Section V.
Variable x : R.
Definition sx := sqrt (1 - x * x).
Definition V (m l : nat) : R := if (m <=? l)%nat then ylm_const l m * (sx ^ m * Q l m x) else 0.
Lemma V_le : forall m l, (m <= l)%nat -> V m l = ylm_const l m * (sx ^ m * Q l m x).
Proof. intros. unfold V. rewrite (proj2 (Nat.leb_le m l)); auto. Qed.
Lemma V_gt : forall m l, (l < m)%nat -> V m l = 0.
Proof. intros. unfold V. rewrite (proj2 (Nat.leb_gt m l)); auto. Qed.
Lemma V_00 : V 0 0 = 1 / sqrt (4 * PI).
Proof.
  rewrite V_le by auto. pose proof PI_RGT_0. unfold ylm_const. simpl (fact _). rewrite Q_0. unfold legP; simpl.
  replace ((2 * 0 + 1) / (4 * PI) * (1 / 1)) with (/ (4 * PI)) by (field; lra). rewrite sqrt_inv. unfold Rdiv. ring.
Qed.
Lemma V_diag : forall k, sqrt ((2 * INR (S k) + 1) * (1 + x) * (1 - x) / 2 / INR (S k)) * V k k = V (S k) (S k).
Proof.
  intros k. rewrite !V_le by auto. pose proof (pos_INR k).
  assert (E : sqrt ((2 * INR (S k) + 1) * (1 + x) * (1 - x) / 2 / INR (S k)) = sqrt ((2 * INR (S k) + 1) / 2 / INR (S k)) * sx).
  { unfold sx. rewrite <- sqrt_mult_alt. f_equal. rewrite S_INR. field. lra. rewrite S_INR. apply Rlt_le. apply Rdiv_lt_0_compat; lra. }
  rewrite E, Q_diag. cbn [pow].
  assert (C : sqrt ((2 * INR (S k) + 1) / 2 / INR (S k)) * ylm_const k k = (2 * INR k + 1) * ylm_const (S k) (S k)).
  { rewrite !ylm_Kc. apply sqrt_ratio. rewrite S_INR. apply Rlt_le, Rdiv_lt_0_compat; lra. lra.
    unfold Kc. rewrite !Nat.sub_diag. simpl (fact 0). replace (S k + S k)%nat with (S (S (k + k))) by lia. rewrite !fact_S, !S_INR, !plus_INR. pose proof PI_RGT_0.
    simpl (INR 0). pose proof (fact_nz (k + k)). simpl (INR 1). field. repeat split; auto; lra. }
  transitivity ((sqrt ((2 * INR (S k) + 1) / 2 / INR (S k)) * ylm_const k k) * (sx * sx ^ k * Q k k x)). ring. rewrite C. ring.
Qed.
Lemma V_sub : forall k, sqrt (2 * INR (S k) + 1) * x * V k k = V k (S k).
Proof.
  intros k. rewrite !V_le by auto. rewrite Q_subdiag. pose proof (pos_INR k).
  assert (C : sqrt (2 * INR (S k) + 1) * ylm_const k k = (2 * INR k + 1) * ylm_const (S k) k).
  { rewrite !ylm_Kc. apply sqrt_ratio. rewrite S_INR; lra. lra. unfold Kc. rewrite Nat.sub_diag. replace (S k - k)%nat with 1%nat by lia. simpl (fact 0). simpl (fact 1).
    replace (S k + k)%nat with (S (k + k)) by lia. rewrite fact_S, S_INR, !plus_INR. pose proof PI_RGT_0. pose proof (fact_nz (k + k)). simpl (INR 1). field. repeat split; auto; lra. }
  transitivity ((sqrt (2 * INR (S k) + 1) * ylm_const k k) * (x * sx ^ k * Q k k x)). ring. rewrite C. ring.
Qed.
Lemma V_rec : forall k m, (m < S k)%nat -> a_lm (S (S k)) m * x * V m (S k) - b_lm (S (S k)) m * V m k = V m (S (S k)).
Proof.
  intros k m H. rewrite !V_le by lia. pose proof (pos_INR m) as Pm. pose proof PI_RGT_0 as Pp. assert (Hm : INR m <= INR k) by (apply le_INR; lia).
  assert (CA : a_lm (S (S k)) m * ylm_const (S k) m = (2 * INR k + 3) / (INR k + 2 - INR m) * ylm_const (S (S k)) m).
  { unfold a_lm. rewrite !ylm_Kc. apply sqrt_ratio. rewrite !S_INR. repeat (apply div_nn || apply Rmult_le_pos); lra.
    apply Rlt_le, Rdiv_lt_0_compat; lra. unfold Kc. replace (S (S k) - m)%nat with (S (S k - m)) by lia. replace (S (S k) + m)%nat with (S (S k + m)) by lia.
    rewrite !fact_S, !minus_INR, !plus_INR, !S_INR by lia. pose proof (fact_nz (S k - m)). pose proof (fact_nz (S k + m)). field. repeat split; auto; lra. }
  assert (CB : b_lm (S (S k)) m * ylm_const k m = (INR k + 1 + INR m) / (INR k + 2 - INR m) * ylm_const (S (S k)) m).
  { unfold b_lm. rewrite !ylm_Kc. apply sqrt_ratio. rewrite !S_INR. repeat (apply div_nn || apply Rmult_le_pos); lra.
    apply Rlt_le, Rdiv_lt_0_compat; lra. unfold Kc. replace (S (S k) - m)%nat with (S (S (k - m))) by lia. replace (S (S k) + m)%nat with (S (S (k + m))) by lia.
    rewrite !fact_S, !S_INR, !minus_INR, !plus_INR by lia. pose proof (fact_nz (k - m)). pose proof (fact_nz (k + m)). field. repeat split; auto; lra. }
  pose proof (Q_rec k m x) as R.
  transitivity ((a_lm (S (S k)) m * ylm_const (S k) m) * x * (sx ^ m * Q (S k) m x) - (b_lm (S (S k)) m * ylm_const k m) * (sx ^ m * Q k m x)). ring.
  rewrite CA, CB.
  transitivity (ylm_const (S (S k)) m * (sx ^ m * (((2 * INR k + 3) * x * Q (S k) m x - (INR k + 1 + INR m) * Q k m x) / (INR k + 2 - INR m)))). field; lra.
  rewrite <- R. field. lra.
Qed.

(** The loops *)
Variable nf : R.
Definition v0 : arr := set2 (fun _ _ => 0) 0 0 (nf / sqrt (4 * PI)).
Lemma set2_get : forall v m l c m' l', set2 v m l c m' l' = if ((m' =? m) && (l' =? l))%nat%bool then c else v m' l'.
Proof. reflexivity. Qed.
Lemma diag_loop : forall k m l, fold_left (vdm_diag_step x) (seq 1 k) v0 m l =
  if ((l <=? k) && ((m =? l) || (S m =? l)))%nat%bool then nf * V m l else 0.
Proof.
  induction k; intros m l.
  - cbn [seq fold_left]. unfold v0. rewrite set2_get. destruct (Nat.eqb_spec m 0), (Nat.eqb_spec l 0), (Nat.leb_spec l 0), (Nat.eqb_spec m l), (Nat.eqb_spec (S m) l); try (exfalso; lia); cbn [andb orb]; auto.
    subst. rewrite V_00. unfold Rdiv. ring.
  - rewrite seq_S, fold_left_app. cbn [fold_left]. change (1 + k)%nat with (S k). unfold vdm_diag_step. replace (S k - 1)%nat with k by lia.
    rewrite !set2_get, !IHk. rewrite Nat.leb_refl, Nat.eqb_refl, (proj2 (Nat.eqb_neq k (S k))) by lia. rewrite andb_false_r. cbn [andb orb].
    destruct (Nat.eqb_spec m (S k)) as [->|]; destruct (Nat.eqb_spec l (S k)) as [->|]; cbn [andb].
    + rewrite Nat.leb_refl, Nat.eqb_refl. cbn [andb orb]. rewrite <- V_diag. ring.
    + destruct (Nat.eqb_spec (S k) k); [lia|]. cbn [andb]. destruct (Nat.leb_spec l k), (Nat.leb_spec l (S k)), (Nat.eqb_spec (S k) l), (Nat.eqb_spec (S (S k)) l); try (exfalso; lia); auto.
    + rewrite Nat.leb_refl. destruct (Nat.eqb_spec m k) as [->|]; cbn [andb].
      * rewrite Nat.eqb_refl, orb_true_r. cbn [andb]. rewrite <- V_sub. ring.
      * destruct (Nat.leb_spec (S k) k); [lia|]. destruct (Nat.eqb_spec m (S k)), (Nat.eqb_spec (S m) (S k)); try (exfalso; lia). auto.
    + rewrite andb_false_r. destruct (Nat.leb_spec l k), (Nat.leb_spec l (S k)); try (exfalso; lia); auto.
Qed.
Lemma rec_loop : forall n j m l, (j <= n - 2)%nat -> (l < n)%nat ->
  fold_left (vdm_rec_step x) (seq 2 j) (fold_left (vdm_diag_step x) (seq 1 (n - 1)) v0) m l =
  if (l <=? j + 1)%nat then nf * V m l else if ((m =? l) || (S m =? l))%nat%bool then nf * V m l else 0.
Proof.
  intros n j. induction j; intros m l Hj Hl.
  - cbn [seq fold_left]. rewrite diag_loop. destruct (Nat.leb_spec l (n - 1)); [|lia]. cbn [andb]. destruct (Nat.leb_spec l (0 + 1)); auto.
    destruct (Nat.eqb_spec m l), (Nat.eqb_spec (S m) l); cbn [orb]; auto. rewrite V_gt by lia. ring.
  - rewrite seq_S, fold_left_app. cbn [fold_left]. replace (2 + j)%nat with (S (S j)) by lia. unfold vdm_rec_step at 1. unfold set_col_prefix.
    replace (S (S j) - 1)%nat with (S j) by lia. replace (S (S j) - 2)%nat with j by lia.
    rewrite (IHj m l), (IHj m (S j)), (IHj m j) by lia.
    destruct (Nat.ltb_spec m (S j)); destruct (Nat.eqb_spec l (S (S j))) as [->|]; cbn [andb].
    + rewrite !(proj2 (Nat.leb_le _ _)) by lia. rewrite <- V_rec by lia. ring.
    + destruct (Nat.leb_spec l (j + 1)), (Nat.leb_spec l (S j + 1)); try (exfalso; lia); auto.
    + rewrite (proj2 (Nat.leb_gt _ _)), (proj2 (Nat.leb_le (S (S j)) _)) by lia. destruct (Nat.eqb_spec m (S (S j))), (Nat.eqb_spec (S m) (S (S j))); cbn [orb]; auto.
      rewrite V_gt by lia. ring.
    + destruct (Nat.leb_spec l (j + 1)), (Nat.leb_spec l (S j + 1)); try (exfalso; lia); auto.
Qed.
Lemma both_loops : forall n m l, (l < n)%nat ->
  fold_left (vdm_rec_step x) (seq 2 (n - 2)) (fold_left (vdm_diag_step x) (seq 1 (n - 1)) v0) m l = nf * V m l.
Proof.
  intros n m l Hl. rewrite rec_loop by lia. destruct (Nat.leb_spec l (n - 2 + 1)); auto.
  destruct (Nat.eqb_spec m l), (Nat.eqb_spec (S m) l); cbn [orb]; auto. assert (n = 1 /\ l = 0)%nat as [-> ->] by lia. rewrite V_gt by lia. ring.
Qed.
End V.

Lemma V_alf : forall x m l, V x m l = alf l m x.
Proof.
  intros. unfold V, alf. destruct (m <=? l)%nat; auto. f_equal. unfold rodrigues. change (Derive_n (fun t => (t * t - 1) ^ l) (l + m) x) with (Rd l (l + m) x).
  rewrite rodrigues_Q. unfold sx. field. split. apply fact_nz. apply pow2_nz.
Qed.
Lemma odd_pow : forall m, (-1) ^ m = if Nat.odd m then -1 else 1.
Proof.
  induction m. reflexivity. cbn [pow]. rewrite IHm, Nat.odd_succ, <- Nat.negb_odd. destruct (Nat.odd m); cbn [negb]; ring.
Qed.
Lemma legpoly_value : forall mmax lmax x nm inverse csphase m l, -1 <= x <= 1 -> (l < Nat.max mmax lmax)%nat ->
  legpoly mmax lmax x nm inverse csphase m l = norm_spec nm inverse l * phase_spec csphase m * alf l m x.
Proof.
  intros mmax lmax x nm inverse csphase m l Hx Hl.
  assert (E : legpoly_vdm nm inverse (Nat.max mmax lmax) x m l = leg_norm_factor nm inverse * alf l m x).
  { rewrite <- V_alf. unfold legpoly_vdm. apply (both_loops x (leg_norm_factor nm inverse)); auto. }
  assert (S4 : sqrt (4 * PI) <> 0). { apply Rgt_not_eq, sqrt_lt_R0. pose proof PI_RGT_0. lra. }
  assert (SL : sqrt (2 * INR l + 1) <> 0). { apply Rgt_not_eq, sqrt_lt_R0. pose proof (pos_INR l). lra. }
  set (w := match nm with Schmidt => if inverse then sqrt (2 * INR l + 1) else / sqrt (2 * INR l + 1) | _ => 1 end).
  assert (W : leg_norm_factor nm inverse * w = norm_spec nm inverse l).
  { unfold leg_norm_factor, norm_spec, w. destruct nm, inverse; field; auto. }
  assert (G : (match nm with
           | Schmidt => fun m l => if inverse then legpoly_vdm nm inverse (Nat.max mmax lmax) x m l * sqrt (2 * INR l + 1) else legpoly_vdm nm inverse (Nat.max mmax lmax) x m l / sqrt (2 * INR l + 1)
           | _ => legpoly_vdm nm inverse (Nat.max mmax lmax) x
           end) m l = norm_spec nm inverse l * alf l m x).
  { rewrite <- W. unfold w. destruct nm; try (rewrite E; ring). destruct inverse; rewrite E; unfold Rdiv; ring. }
  unfold legpoly. cbv zeta. unfold phase_spec. destruct csphase.
  - rewrite odd_pow. destruct (Nat.odd m); rewrite G; ring.
  - rewrite G. ring.
Qed.
Lemma alf_above : forall l m x, (l < m)%nat -> alf l m x = 0.
Proof. intros. unfold alf. rewrite (proj2 (Nat.leb_gt m l)); auto. Qed.
Lemma alf_Q : forall l m x, (m <= l)%nat -> alf l m x = ylm_const l m * (sqrt (1 - x * x) ^ m * Q l m x).
Proof. intros. rewrite <- V_alf. now apply V_le. Qed.
Lemma alf_parity : forall l m x, alf l m (- x) = (-1) ^ (l + m) * alf l m x.
Proof.
  intros. destruct (le_lt_dec m l). rewrite !alf_Q, Q_parity by auto. replace (- x * - x) with (x * x) by ring. ring. rewrite !alf_above by auto. ring.
Qed.
(** Product of two functions of the same order: a polynomial on [-1,1]. *)
Definition alf2 (m l k : nat) (x : R) : R := ylm_const l m * ylm_const k m * (wpow m x * (Q l m x * Q k m x)).
Lemma sx_pow : forall m x, -1 <= x <= 1 -> sqrt (1 - x * x) ^ m * sqrt (1 - x * x) ^ m = wpow m x.
Proof. intros m x H. unfold wpow. rewrite <- Rpow_mult_distr, sqrt_sqrt by nra. auto. Qed.
Lemma alf_prod : forall m l k x, (m <= l)%nat -> (m <= k)%nat -> -1 <= x <= 1 -> alf l m x * alf k m x = alf2 m l k x.
Proof. intros. rewrite !alf_Q by auto. unfold alf2. rewrite <- sx_pow by auto. ring. Qed.
Lemma alf2_poly : forall m l k, (m <= l)%nat -> (m <= k)%nat -> is_poly (l + k) (alf2 m l k).
Proof.
  intros. unfold alf2. apply is_poly_le with (m * 2 + ((l - m) + (k - m)))%nat; [|lia]. apply is_poly_scal. apply ip_poly.
Qed.
Lemma alf2_int : forall m l k, (m <= l)%nat -> (m <= k)%nat -> @eq R (RInt (alf2 m l k) (-1) 1) (if (l =? k)%nat then / (2 * PI) else 0).
Proof.
  intros m l k Hl Hk. unfold alf2. rewrite (RInt_scal' (fun x => wpow m x * (Q l m x * Q k m x))) by apply ip_int. fold (ip m l k).
  destruct (Nat.eqb_spec l k) as [->|]. 2:{ rewrite ip_orth by auto. ring. }
  rewrite ylm_sq, ip_norm by auto. unfold Kc. pose proof PI_RGT_0. pose proof (pos_INR k). field. repeat split; try apply fact_nz; lra.
Qed.
Lemma alf_orthonormal : forall m l k, (m <= l)%nat -> (m <= k)%nat ->
  is_RInt (fun x => alf l m x * alf k m x) (-1) 1 (if (l =? k)%nat then / (2 * PI) else 0).
Proof.
  intros m l k Hl Hk.
  assert (C : is_RInt (alf2 m l k) (-1) 1 (RInt (alf2 m l k) (-1) 1)).
  { apply (RInt_correct (V := R_CompleteNormedModule)). eapply is_poly_integrable, alf2_poly; eauto. }
  rewrite (alf2_int m l k Hl Hk) in C. eapply is_RInt_ext; [|exact C].
  intros x Hx. rewrite Rmin_left, Rmax_right in Hx by lra. symmetry. apply alf_prod; auto; lra.
Qed.

Lemma legpoly_gram : forall mmax lmax nm i1 i2 csphase m l k, (m < mmax)%nat -> (l < lmax)%nat -> (k < lmax)%nat -> (m <= l)%nat -> (m <= k)%nat ->
  is_RInt (fun x => legpoly mmax lmax x nm i1 csphase m l * legpoly mmax lmax x nm i2 csphase m k) (-1) 1
    (norm_spec nm i1 l * norm_spec nm i2 k * (if (l =? k)%nat then / (2 * PI) else 0)).
Proof.
  intros mmax lmax nm i1 i2 cs m l k Hm Hl Hk Hml Hmk. pose proof (alf_orthonormal m l k Hml Hmk) as O.
  apply (is_RInt_scal _ _ _ (norm_spec nm i1 l * norm_spec nm i2 k)) in O. eapply is_RInt_ext; [|exact O].
  intros x Hx. rewrite Rmin_left, Rmax_right in Hx by lra. rewrite !legpoly_value by (lra || lia).
  change (norm_spec nm i1 l * norm_spec nm i2 k * (alf l m x * alf k m x) = norm_spec nm i1 l * phase_spec cs m * alf l m x * (norm_spec nm i2 k * phase_spec cs m * alf k m x)).
  assert (P : phase_spec cs m * phase_spec cs m = 1). { unfold phase_spec. destruct cs; [|ring]. rewrite odd_pow. destruct (Nat.odd m); ring. }
  transitivity (norm_spec nm i1 l * norm_spec nm i2 k * (alf l m x * alf k m x) * (phase_spec cs m * phase_spec cs m)); [rewrite P|]; ring.
Qed.
Lemma is_RInt_eq : forall (f : R -> R) a b (u v : R), u = v -> is_RInt f a b u -> is_RInt f a b v.
Proof. intros. now subst. Qed.
Lemma legpoly_orthonormal : forall mmax lmax nm inverse csphase m l k, (m < mmax)%nat -> (l < lmax)%nat -> (k < lmax)%nat -> (m <= l)%nat -> (m <= k)%nat ->
  is_RInt (fun x => legpoly mmax lmax x nm inverse csphase m l * legpoly mmax lmax x nm inverse csphase m k) (-1) 1
    (if (l =? k)%nat then norm_spec nm inverse l ^ 2 / (2 * PI) else 0).
Proof.
  intros. apply (is_RInt_eq _ _ _ (norm_spec nm inverse l * norm_spec nm inverse k * (if (l =? k)%nat then / (2 * PI) else 0))).
  2: now apply legpoly_gram. destruct (Nat.eqb_spec l k); [subst; unfold Rdiv|]; ring.
Qed.
Lemma norm_spec_inv : forall nm l, norm_spec nm false l * norm_spec nm true l = 1.
Proof.
  intros. unfold norm_spec. apply Rinv_r. pose proof PI_RGT_0. pose proof (pos_INR l).
  assert (sqrt (4 * PI) <> 0) by (apply Rgt_not_eq, sqrt_lt_R0; lra).
  destruct nm; try lra; auto. apply Rmult_integral_contrapositive. split; auto. apply Rinv_neq_0_compat, Rgt_not_eq, sqrt_lt_R0. lra.
Qed.
Lemma legpoly_biorthonormal : forall mmax lmax nm csphase m l k, (m < mmax)%nat -> (l < lmax)%nat -> (k < lmax)%nat -> (m <= l)%nat -> (m <= k)%nat ->
  is_RInt (fun x => legpoly mmax lmax x nm false csphase m l * legpoly mmax lmax x nm true csphase m k) (-1) 1
    (if (l =? k)%nat then / (2 * PI) else 0).
Proof.
  intros. apply (is_RInt_eq _ _ _ (norm_spec nm false l * norm_spec nm true k * (if (l =? k)%nat then / (2 * PI) else 0))).
  2: now apply legpoly_gram. destruct (Nat.eqb_spec l k); [subst; rewrite norm_spec_inv|]; ring.
Qed.
