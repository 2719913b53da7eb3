(** Legendre polynomials: derivatives, differential equation, orthogonality. *)
From Coq Require Import List Arith Lia Bool Reals Lra.
From Coquelicot Require Import Coquelicot.
From Verif Require Import BigSum TruncModel QuadModel QuadSpec PolyProofs CCProofs QuadProofs.
Local Open Scope R_scope.

Lemma is_derive_extR : forall (f g : R -> R) (x d : R), (forall t : R, f t = g t) -> is_derive f x d -> is_derive g x d.
Proof. intros f g x d H D. exact (is_derive_ext f g x d H D). Qed.
Lemma RInt_extR : forall (f g : R -> R) (a b : R), (forall x : R, f x = g x) -> RInt f a b = RInt g a b.
Proof. intros f g a b H. apply RInt_ext. intros; apply H. Qed.

(** ** Derivatives of polynomial functions *)
Lemma pow_is_derive : forall k x, is_derive (fun x => x ^ S k) x (INR (S k) * x ^ k).
Proof.
  intros. pose proof (is_derive_pow (fun x => x) (S k) x 1 (is_derive_id (K := R_AbsRing) x)) as H. cbn [Nat.pred] in H.
  rewrite Rmult_1_r in H. exact H.
Qed.
Lemma rsum_is_derive : forall n (f df : nat -> R -> R) x, (forall k, (k < n)%nat -> is_derive (f k) x (df k x)) ->
  is_derive (fun x => rsum n (fun k => f k x)) x (rsum n (fun k => df k x)).
Proof.
  induction n; intros f df x H; cbn [bsum_]. apply (is_derive_const (V := R_NormedModule) 0).
  apply (is_derive_plus (V := R_NormedModule) (fun x => rsum n (fun k => f k x)) (f n)); auto.
Qed.
Lemma is_poly_derive : forall d f, is_poly d f -> is_poly (d - 1) (Derive f) /\ (forall x, is_derive f x (Derive f x)).
Proof.
  intros d f (c & E).
  set (g := fun x => rsum d (fun k => (INR (S k) * c (S k)) * x ^ k)).
  assert (D : forall x, is_derive f x (g x)).
  { intros x. assert (FE : forall t, c 0%nat + rsum d (fun k => c (S k) * t ^ S k) = f t) by (intros t; rewrite E, (bsum_S_l RT); simpl (t ^ 0); ring).
    apply (is_derive_extR (fun x => c 0%nat + rsum d (fun k => c (S k) * x ^ S k)) f x (g x) FE).
    replace (g x) with (0 + g x) by ring.
    apply (is_derive_plus (V := R_NormedModule) (fun _ => c 0%nat) (fun x => rsum d (fun k => c (S k) * x ^ S k)) x 0 (g x)).
    apply (is_derive_const (V := R_NormedModule)). unfold g. apply (rsum_is_derive d (fun k x => c (S k) * x ^ S k) (fun k x => INR (S k) * c (S k) * x ^ k)).
    intros k _. replace (INR (S k) * c (S k) * x ^ k) with (c (S k) * (INR (S k) * x ^ k)) by ring.
    apply (is_derive_scal (fun x => x ^ S k)). apply pow_is_derive. }
  assert (U : forall x, Derive f x = g x) by (intros; now apply is_derive_unique). split.
  - destruct d as [|d].
    + exists (fun _ => 0). intros x. rewrite U. unfold g. cbn [bsum_ Nat.sub]. ring.
    + exists (fun k => INR (S k) * c (S k)). intros x. rewrite U. unfold g. replace (S (S d - 1)) with (S d) by lia. auto.
  - intros x. rewrite U. auto.
Qed.
Lemma poly_Dn : forall d f m, is_poly d f -> is_poly (d - m) (Derive_n f m) /\ (forall x, is_derive (Derive_n f m) x (Derive_n f (S m) x)).
Proof.
  intros d f m Pf. assert (P : is_poly (d - m) (Derive_n f m)).
  { induction m. rewrite Nat.sub_0_r. exact Pf. replace (d - S m)%nat with (d - m - 1)%nat by lia. exact (proj1 (is_poly_derive _ _ IHm)). }
  split; auto. intros x. exact (proj2 (is_poly_derive _ _ P) x).
Qed.
Lemma poly_Dn_high : forall d f m x, is_poly d f -> (d < m)%nat -> Derive_n f m x = 0.
Proof.
  intros d f m x Pf H. revert x. induction m; [lia|]. intros x. cbn [Derive_n]. destruct (Nat.eq_dec d m) as [->|].
  - destruct (poly_Dn m f m Pf) as [(c & E) _]. rewrite Nat.sub_diag in E. rewrite (Derive_ext _ (fun _ => c 0%nat)). apply Derive_const.
    intros t. rewrite E. cbn [bsum_ pow]. ring.
  - rewrite (Derive_ext _ (fun _ => 0)). apply Derive_const. intros. apply IHm. lia.
Qed.
Lemma Dn_lin : forall d f g a b m x, is_poly d f -> is_poly d g -> Derive_n (fun x => a * f x + b * g x) m x = a * Derive_n f m x + b * Derive_n g m x.
Proof.
  intros d f g a b m x Pf Pg. revert x. induction m; intros x. reflexivity. cbn [Derive_n]. rewrite (Derive_ext _ _ _ IHm).
  apply is_derive_unique.
  apply (is_derive_plus (V := R_NormedModule) (fun x => a * Derive_n f m x) (fun x => b * Derive_n g m x)).
  apply (is_derive_scal (Derive_n f m)). apply (proj2 (poly_Dn _ _ m Pf)). apply (is_derive_scal (Derive_n g m)). apply (proj2 (poly_Dn _ _ m Pg)).
Qed.
Lemma Dn_x : forall d f m x, is_poly d f -> Derive_n (fun x => x * f x) m x = x * Derive_n f m x + INR m * Derive_n f (m - 1) x.
Proof.
  intros d f m x Pf. revert x. induction m; intros x. simpl. ring.
  cbn [Derive_n]. rewrite (Derive_ext _ _ _ IHm). apply is_derive_unique.
  assert (A : is_derive (fun x => x * Derive_n f m x) x (Derive_n f m x + x * Derive_n f (S m) x)).
  { replace (Derive_n f m x + x * Derive_n f (S m) x) with (1 * Derive_n f m x + x * Derive_n f (S m) x) by ring.
    apply (is_derive_mult (fun x => x) (Derive_n f m) x 1 (Derive_n f (S m) x)). apply (is_derive_id (K := R_AbsRing)). apply (proj2 (poly_Dn _ _ m Pf)). intros; apply Rmult_comm. }
  replace (S m - 1)%nat with m by lia.
  change (Derive (Derive_n f m) x) with (Derive_n f (S m) x). rewrite S_INR.
  destruct m as [|m].
  - replace (x * Derive_n f 1 x + (INR 0 + 1) * Derive_n f 0 x) with (Derive_n f 0 x + x * Derive_n f 1 x) by (simpl (INR 0); ring).
    eapply is_derive_extR; [|exact A]. intros t. simpl (INR 0). cbv beta. ring.
  - replace (S m - 1)%nat with m by lia.
    replace (x * Derive_n f (S (S m)) x + (INR (S m) + 1) * Derive_n f (S m) x) with ((Derive_n f (S m) x + x * Derive_n f (S (S m)) x) + INR (S m) * Derive_n f (S m) x) by ring.
    apply (is_derive_plus (V := R_NormedModule) (fun x => x * Derive_n f (S m) x) (fun x => INR (S m) * Derive_n f m x)); auto.
    apply (is_derive_scal (Derive_n f m)). apply (proj2 (poly_Dn _ _ m Pf)).
Qed.

(** ** Legendre polynomials and their derivatives *)
Lemma legP_poly : forall k, is_poly k (legP k).
Proof.
  apply nat_ind2. apply is_poly_ext with (fun _ => 1). reflexivity. apply is_poly_const.
  apply is_poly_ext with (fun x => x). reflexivity. apply is_poly_id.
  intros k A B. apply is_poly_ext with (fun t => ((2 * INR k + 3) / (INR k + 2)) * (t * legP (S k) t) - ((INR k + 1) / (INR k + 2)) * legP k t).
  { intros t. rewrite legP_SS. pose proof (pos_INR k). field. lra. }
  apply is_poly_minus. apply is_poly_scal. now apply is_poly_x. apply is_poly_scal. apply is_poly_mono with k; auto.
Qed.
Definition Q (l m : nat) (x : R) : R := Derive_n (legP l) m x.
Lemma Q_poly : forall l m, is_poly (l - m) (Q l m).
Proof. intros. exact (proj1 (poly_Dn _ _ m (legP_poly l))). Qed.
Lemma Q_derive : forall l m x, is_derive (Q l m) x (Q l (S m) x).
Proof. intros. exact (proj2 (poly_Dn _ _ m (legP_poly l)) x). Qed.
Lemma Q_high : forall l m x, (l < m)%nat -> Q l m x = 0.
Proof. intros. eapply poly_Dn_high; eauto. apply legP_poly. Qed.
Lemma Q_0 : forall l x, Q l 0 x = legP l x. Proof. reflexivity. Qed.
Lemma Q_1 : forall l x, Q l 1 x = legD l x.
Proof. intros. unfold Q. simpl. apply is_derive_unique, legD_derive. Qed.
Lemma Q_shift : forall l m x, Q l (S m) x = Derive_n (legD l) m x.
Proof.
  intros l m x. unfold Q. rewrite <- Nat.add_1_r. rewrite <- (Derive_n_comp (legP l) m 1). apply Derive_n_ext. intros t. apply Q_1.
Qed.
Lemma legD_poly : forall l, is_poly (l - 1) (legD l).
Proof. intros l. apply is_poly_ext with (Q l 1). apply Q_1. apply Q_poly. Qed.
Lemma is_poly_le : forall d e f, is_poly d f -> (d <= e)%nat -> is_poly e f. Proof. intros; now apply is_poly_mono with d. Qed.
(** xP_{l+1}' - P_l' = (l+1) P_{l+1}, differentiated m times *)
Lemma legD_up : forall j t, t * legD (S j) t - legD j t = (INR j + 1) * legP (S j) t.
Proof.
  intros j t. change (legD (S j) t) with ((INR j + 1) * legP j t + t * legD j t).
  replace (t * ((INR j + 1) * legP j t + t * legD j t) - legD j t) with ((INR j + 1) * (t * legP j t) + (t * t - 1) * legD j t) by ring. rewrite legP_rel.
  destruct j. unfold legP; simpl; ring. replace (S j - 1)%nat with j by lia. rewrite legP_SS, S_INR. pose proof (pos_INR j). field. lra.
Qed.
Lemma legD_SS : forall k t, legD (S (S k)) t = (2 * INR k + 3) * legP (S k) t + legD k t.
Proof.
  intros k t. change (legD (S (S k)) t) with ((INR (S k) + 1) * legP (S k) t + t * legD (S k) t).
  pose proof (legD_up k t) as U. replace (t * legD (S k) t) with ((INR k + 1) * legP (S k) t + legD k t) by lra. rewrite S_INR. ring.
Qed.
Lemma Q_SS : forall k m x, Q (S (S k)) (S m) x = (2 * INR k + 3) * Q (S k) m x + Q k (S m) x.
Proof.
  intros k m x. rewrite !Q_shift. unfold Q.
  rewrite (Derive_n_ext _ (fun t => (2 * INR k + 3) * legP (S k) t + 1 * legD k t)) by (intros; rewrite legD_SS; ring).
  rewrite (Dn_lin (S k)). ring. apply legP_poly. apply is_poly_le with (k - 1)%nat. apply legD_poly. lia.
Qed.
Lemma Q_up : forall j m x, x * Q (S j) (S m) x - Q j (S m) x = (INR j + 1 - INR m) * Q (S j) m x.
Proof.
  intros j m x.
  assert (E : Derive_n (fun t => t * legD (S j) t) m x = (INR j + 1) * Q (S j) m x + Q j (S m) x).
  { rewrite (Derive_n_ext _ (fun t => (INR j + 1) * legP (S j) t + 1 * legD j t)) by (intros; pose proof (legD_up j t); lra).
    rewrite (Dn_lin (S j)), <- Q_shift. unfold Q. ring. apply legP_poly. apply is_poly_le with (j - 1)%nat. apply legD_poly. lia. }
  rewrite (Dn_x (S j - 1)) in E by apply legD_poly. rewrite <- Q_shift in E. destruct m as [|m].
  - simpl (INR 0) in *. rewrite Rmult_0_l in E. lra.
  - replace (S m - 1)%nat with m in E by lia. rewrite <- Q_shift in E. rewrite S_INR in *. lra.
Qed.
(** Three-term recurrence in the degree *)
Lemma Q_rec : forall k m x, (INR k + 2 - INR m) * Q (S (S k)) m x = (2 * INR k + 3) * x * Q (S k) m x - (INR k + 1 + INR m) * Q k m x.
Proof.
  intros k m x. destruct m as [|m].
  - rewrite !Q_0, legP_SS. simpl (INR 0). pose proof (pos_INR k). field. lra.
  - (* x Q_{k+1}^{m+1} - Q_k^{m+1} = (k+1-m) Q_{k+1}^m and Q_{k+2}^{m+1} = (2k+3) Q_{k+1}^m + Q_k^{m+1} *)
    pose proof (Q_up k m x) as U. pose proof (Q_SS k m x) as S2. pose proof (Q_up (S k) m x) as U2. rewrite !S_INR in *.
    rewrite S2. transitivity ((2 * INR k + 3) * (((INR k + 1 - INR m) * Q (S k) m x + Q k (S m) x)) - (INR k + 1 + (INR m + 1)) * Q k (S m) x). ring. rewrite <- U. ring.
Qed.
(** Differential equation *)
Lemma Q_ode : forall l m x, (1 - x * x) * Q l (S (S m)) x = 2 * (INR m + 1) * x * Q l (S m) x - (INR l * (INR l + 1) - INR m * (INR m + 1)) * Q l m x.
Proof.
  intros l m. induction m; intros x.
  - (* derivative of (x^2-1) P' = l (x P - P_{l-1}) *)
    rewrite Q_0, Q_1. simpl (INR 0).
    assert (D1 : is_derive (fun t => (t * t - 1) * legD l t) x (2 * x * legD l x + (x * x - 1) * Q l 2 x)).
    { assert (DL : is_derive (legD l) x (Q l 2 x)). { apply (is_derive_extR (Q l 1)). apply Q_1. apply Q_derive. }
      apply (is_derive_mult (fun t => t * t - 1) (legD l) x (2 * x) (Q l 2 x)). auto_derive; auto; ring. auto. intros; apply Rmult_comm. }
    assert (D2 : is_derive (fun t => (t * t - 1) * legD l t) x (INR l * (legP l x + x * legD l x - legD (l - 1) x))).
    { apply (is_derive_extR (fun t => INR l * (t * legP l t - legP (l - 1) t))). intros; now rewrite legP_rel.
      apply (is_derive_scal (fun t => t * legP l t - legP (l - 1) t)).
      apply (is_derive_minus (V := R_NormedModule) (fun t => t * legP l t) (legP (l - 1))).
      - replace (legP l x + x * legD l x) with (1 * legP l x + x * legD l x) by ring.
        apply (is_derive_mult (fun x => x) (legP l) x 1 (legD l x)). apply (is_derive_id (K := R_AbsRing)). apply legD_derive. intros; apply Rmult_comm.
      - apply legD_derive. }
    assert (E : 2 * x * legD l x + (x * x - 1) * Q l 2 x = INR l * (legP l x + x * legD l x - legD (l - 1) x)) by (rewrite <- (is_derive_unique _ _ _ D1); now apply is_derive_unique).
    destruct l as [|j]. { rewrite (Q_high 0 2) in * by lia. simpl in *. lra. }
    replace (S j - 1)%nat with j in E by lia. pose proof (legD_up j x) as U. rewrite S_INR in *.
    transitivity (2 * x * legD (S j) x - (2 * x * legD (S j) x + (x * x - 1) * Q (S j) 2 x)). ring. rewrite E.
    replace (legP (S j) x + x * legD (S j) x - legD j x) with (legP (S j) x + (x * legD (S j) x - legD j x)) by ring. rewrite U. ring.
  - assert (D1 : is_derive (fun t => (1 - t * t) * Q l (S (S m)) t) x (- 2 * x * Q l (S (S m)) x + (1 - x * x) * Q l (S (S (S m))) x)).
    { apply (is_derive_mult (fun t => 1 - t * t) (Q l (S (S m))) x (-2 * x) (Q l (S (S (S m))) x)). auto_derive; auto; ring. apply Q_derive. intros; apply Rmult_comm. }
    assert (D2 : is_derive (fun t => (1 - t * t) * Q l (S (S m)) t) x
       (2 * (INR m + 1) * (Q l (S m) x + x * Q l (S (S m)) x) - (INR l * (INR l + 1) - INR m * (INR m + 1)) * Q l (S m) x)).
    { apply (is_derive_extR (fun t => 2 * (INR m + 1) * (t * Q l (S m) t) - (INR l * (INR l + 1) - INR m * (INR m + 1)) * Q l m t)). intros; rewrite IHm; ring.
      apply (is_derive_minus (V := R_NormedModule) (fun t => 2 * (INR m + 1) * (t * Q l (S m) t)) (fun t => (INR l * (INR l + 1) - INR m * (INR m + 1)) * Q l m t)).
      - apply (is_derive_scal (fun t => t * Q l (S m) t)). replace (Q l (S m) x + x * Q l (S (S m)) x) with (1 * Q l (S m) x + x * Q l (S (S m)) x) by ring.
        apply (is_derive_mult (fun x => x) (Q l (S m)) x 1 (Q l (S (S m)) x)). apply (is_derive_id (K := R_AbsRing)). apply Q_derive. intros; apply Rmult_comm.
      - apply (is_derive_scal (Q l m)). apply Q_derive. }
    assert (E := eq_trans (eq_sym (is_derive_unique _ _ _ D1)) (is_derive_unique _ _ _ D2)). rewrite S_INR.
    transitivity ((- 2 * x * Q l (S (S m)) x + (1 - x * x) * Q l (S (S (S m))) x) + 2 * x * Q l (S (S m)) x). ring. rewrite E. ring.
Qed.
(** Diagonal and parity *)
Lemma Q_diag : forall l x, Q (S l) (S l) x = (2 * INR l + 1) * Q l l x.
Proof.
  intros l x. destruct l as [|l]. rewrite Q_1, Q_0. unfold legD, legP; simpl; ring.
  rewrite Q_SS, (Q_high l) by lia. rewrite S_INR. ring.
Qed.
Lemma Q_subdiag : forall l x, Q (S l) l x = (2 * INR l + 1) * x * Q l l x.
Proof.
  intros l x. destruct l as [|l]. rewrite !Q_0. unfold legP; simpl; ring.
  pose proof (Q_rec l (S l) x) as R. rewrite (Q_high l) in R by lia. rewrite S_INR in *.
  replace (INR l + 2 - (INR l + 1)) with 1 in R by ring. rewrite Rmult_1_l in R. rewrite R. ring.
Qed.
Lemma Q_parity : forall l m x, Q l m (- x) = (-1) ^ (l + m) * Q l m x.
Proof.
  intros l m. induction m; intros x. rewrite !Q_0, Nat.add_0_r. apply legP_parity.
  assert (D1 : is_derive (fun t => Q l m (- t)) x (- Q l (S m) (- x))).
  { replace (- Q l (S m) (- x)) with (-1 * Q l (S m) (- x)) by ring.
    apply (is_derive_comp (V := R_NormedModule) (Q l m) (fun t => - t)). apply Q_derive. auto_derive; auto. }
  assert (D2 : is_derive (fun t => Q l m (- t)) x ((-1) ^ (l + m) * Q l (S m) x)).
  { apply (is_derive_extR (fun t => (-1) ^ (l + m) * Q l m t)). intros; now rewrite IHm. apply (is_derive_scal (Q l m)). apply Q_derive. }
  assert (E := eq_trans (eq_sym (is_derive_unique _ _ _ D1)) (is_derive_unique _ _ _ D2)).
  rewrite Nat.add_succ_r. cbn [pow]. lra.
Qed.

(** ** Rodrigues' formula *)
Definition ubase (l : nat) (t : R) : R := (t * t - 1) ^ l.
Lemma ubase_poly : forall l, is_poly (l * 2) (ubase l).
Proof.
  intros l. apply is_poly_npow. apply is_poly_minus. apply (is_poly_mult 1 1); apply is_poly_id. apply is_poly_le with 0%nat; [apply is_poly_const|lia].
Qed.
Lemma ubase_derive : forall l x, Derive (ubase (S l)) x = 2 * (INR l + 1) * (x * ubase l x).
Proof.
  intros. apply is_derive_unique. unfold ubase.
  assert (B : is_derive (fun t => t * t - 1) x (2 * x)) by (auto_derive; auto; ring).
  pose proof (is_derive_pow (fun t => t * t - 1) (S l) x (2 * x) B) as H. cbn [Nat.pred] in H. rewrite S_INR in H.
  replace (2 * (INR l + 1) * (x * (x * x - 1) ^ l)) with ((INR l + 1) * (2 * x) * (x * x - 1) ^ l) by ring. exact H.
Qed.
Definition Rd (l k : nat) (x : R) : R := Derive_n (ubase l) k x.
Lemma Rd_S : forall l k x, Rd (S l) (S k) x = 2 * (INR l + 1) * (x * Rd l k x + INR k * Rd l (k - 1) x).
Proof.
  intros l k x. unfold Rd. rewrite <- (Nat.add_1_r k), <- (Derive_n_comp _ k 1).
  rewrite (Derive_n_ext _ (fun t => 2 * (INR l + 1) * (t * ubase l t) + 0 * 0)) by (intros t; cbn [Derive_n]; change (Derive (fun x0 => ubase (S l) x0) t) with (Derive (ubase (S l)) t); rewrite ubase_derive; ring).
  rewrite (Dn_lin (S (l * 2)) (fun t => t * ubase l t) (fun _ => 0)).
  rewrite (Dn_x (l * 2)) by apply ubase_poly. ring. apply is_poly_x, ubase_poly. apply is_poly_le with 0%nat; [apply is_poly_const|lia].
Qed.
Lemma Rd_prod : forall l k x, Rd (S l) k x = (x * x - 1) * Rd l k x + 2 * INR k * x * Rd l (k - 1) x + INR k * (INR k - 1) * Rd l (k - 2) x.
Proof.
  intros l k x. unfold Rd.
  rewrite (Derive_n_ext _ (fun t => 1 * (t * (t * ubase l t)) + (-1) * ubase l t)) by (intros t; unfold ubase; cbn [pow]; ring).
  rewrite (Dn_lin (S (S (l * 2))) (fun t => t * (t * ubase l t)) (ubase l)).
  2:{ apply is_poly_x, is_poly_x, ubase_poly. } 2:{ apply is_poly_le with (l * 2)%nat; [apply ubase_poly|lia]. }
  rewrite (Dn_x (S (l * 2)) (fun t => t * ubase l t)) by apply is_poly_x, ubase_poly.
  rewrite !(Dn_x (l * 2) (ubase l)) by apply ubase_poly. destruct k. simpl; ring.
  replace (S k - 1 - 1)%nat with (S k - 2)%nat by lia. replace (S k - 1)%nat with k by lia. rewrite S_INR. ring.
Qed.
Lemma fact_S : forall l, INR (fact (S l)) = (INR l + 1) * INR (fact l).
Proof. intros. rewrite fact_simpl, mult_INR, S_INR. auto. Qed.
Lemma fact_nz : forall l, INR (fact l) <> 0. Proof. intros. apply not_0_INR. pose proof (lt_O_fact l). lia. Qed.
Lemma pow2_nz : forall l, 2 ^ l <> 0. Proof. intros. apply pow_nonzero. lra. Qed.
Lemma rodrigues_legP : forall l x, Rd l l x = 2 ^ l * INR (fact l) * legP l x /\ Rd l (S l) x = 2 ^ l * INR (fact l) * legD l x.
Proof.
  induction l as [|l IH]; intros x.
  - unfold Rd. cbn [Derive_n]. rewrite (Derive_ext _ (fun _ => 1)) by (intros; unfold ubase; reflexivity). rewrite Derive_const. unfold ubase, legP; simpl. split; ring.
  - destruct (IH x) as [IH1 IH2]. assert (A : Rd (S l) (S l) x = 2 ^ S l * INR (fact (S l)) * legP (S l) x).
    { pose proof (Rd_S l l x) as E1. pose proof (Rd_prod l (S l) x) as E2. rewrite IH1 in E1.
      replace (S l - 1)%nat with l in E2 by lia. replace (S l - 2)%nat with (l - 1)%nat in E2 by lia. rewrite IH1, IH2, S_INR in E2.
      (* eliminate the (l-1)-th derivative *)
      assert (E3 : Rd (S l) (S l) x * 1 = 2 * ((x * x - 1) * (2 ^ l * INR (fact l) * legD l x) + 2 * (INR l + 1) * x * (2 ^ l * INR (fact l) * legP l x)) - 2 * (INR l + 1) * (x * (2 ^ l * INR (fact l) * legP l x))).
      { set (z := Rd l (l - 1) x) in *. set (r := Rd (S l) (S l) x) in *. lra. }
      rewrite Rmult_1_r in E3. rewrite E3, fact_S. cbn [pow].
      replace ((x * x - 1) * (2 ^ l * INR (fact l) * legD l x)) with (2 ^ l * INR (fact l) * ((x * x - 1) * legD l x)) by ring. rewrite legP_rel.
      destruct l as [|j]. unfold legP; simpl; ring. replace (S j - 1)%nat with j by lia. rewrite legP_SS, S_INR. pose proof (pos_INR j). field. lra. }
    split; auto. rewrite Rd_S. replace (S l - 1)%nat with l by lia. rewrite IH1, IH2, fact_S. cbn [pow legD]. rewrite S_INR. ring.
Qed.
Lemma rodrigues_Q : forall l m x, Rd l (l + m) x = 2 ^ l * INR (fact l) * Q l m x.
Proof.
  intros l m x. unfold Rd. rewrite Nat.add_comm, <- (Derive_n_comp (ubase l) m l).
  rewrite (Derive_n_ext _ (fun t => (2 ^ l * INR (fact l)) * legP l t + 0 * legP l t)).
  rewrite (Dn_lin l) by apply legP_poly. unfold Q. ring.
  intros t. pose proof (proj1 (rodrigues_legP l t)) as E. unfold Rd in E. rewrite E. ring.
Qed.

(** ** Orthogonality *)
Definition wpow (m : nat) (x : R) : R := (1 - x * x) ^ m.
Lemma wpow_poly : forall m, is_poly (m * 2) (wpow m).
Proof. intros m. apply is_poly_npow. apply is_poly_minus. apply is_poly_le with 0%nat; [apply is_poly_const|lia]. apply (is_poly_mult 1 1); apply is_poly_id. Qed.
Definition ip (m l k : nat) : R := RInt (fun x => wpow m x * (Q l m x * Q k m x)) (-1) 1.
Lemma ip_poly : forall m l k, is_poly (m * 2 + ((l - m) + (k - m))) (fun x => wpow m x * (Q l m x * Q k m x)).
Proof. intros. apply is_poly_mult. apply wpow_poly. apply is_poly_mult; apply Q_poly. Qed.
Lemma is_derive_prod : forall (f g : R -> R) x df dg, is_derive f x df -> is_derive g x dg -> is_derive (fun t => f t * g t) x (df * g x + f x * dg).
Proof. intros. apply (is_derive_mult f g); auto. intros; apply Rmult_comm. Qed.
Lemma wpow_derive : forall m x, is_derive (wpow (S m)) x (- 2 * (INR m + 1) * x * wpow m x).
Proof.
  intros. unfold wpow. assert (B : is_derive (fun t => 1 - t * t) x (- 2 * x)) by (auto_derive; auto; ring).
  pose proof (is_derive_pow (fun t => 1 - t * t) (S m) x (- 2 * x) B) as H. cbn [Nat.pred] in H. rewrite S_INR in H.
  replace (- 2 * (INR m + 1) * x * (1 - x * x) ^ m) with ((INR m + 1) * (- 2 * x) * (1 - x * x) ^ m) by ring. exact H.
Qed.
(** (1-x^2)^{m+1} Q_l^{m+1} has derivative -(l(l+1)-m(m+1)) (1-x^2)^m Q_l^m *)
Lemma sturm : forall l m x, is_derive (fun t => wpow (S m) t * Q l (S m) t) x (- (INR l * (INR l + 1) - INR m * (INR m + 1)) * (wpow m x * Q l m x)).
Proof.
  intros l m x. pose proof (is_derive_prod _ _ x _ _ (wpow_derive m x) (Q_derive l (S m) x)) as D.
  replace (- (INR l * (INR l + 1) - INR m * (INR m + 1)) * (wpow m x * Q l m x)) with (- 2 * (INR m + 1) * x * wpow m x * Q l (S m) x + wpow (S m) x * Q l (S (S m)) x); auto.
  pose proof (Q_ode l m x) as O. unfold wpow. cbn [pow]. fold (wpow m x).
  replace ((1 - x * x) * wpow m x * Q l (S (S m)) x) with (wpow m x * ((1 - x * x) * Q l (S (S m)) x)) by ring. rewrite O. ring.
Qed.
Lemma wpow_end : forall m x, x * x = 1 -> wpow (S m) x = 0.
Proof. intros. unfold wpow. cbn [pow]. rewrite H. ring. Qed.
Lemma ip_int : forall m l k, ex_RInt (fun x => wpow m x * (Q l m x * Q k m x)) (-1) 1.
Proof. intros. eapply is_poly_integrable, ip_poly. Qed.
Lemma ip_step : forall m l k, ip (S m) l k = (INR l * (INR l + 1) - INR m * (INR m + 1)) * ip m l k.
Proof.
  intros m l k. set (c := INR l * (INR l + 1) - INR m * (INR m + 1)).
  assert (D : forall x, is_derive (fun t => wpow (S m) t * Q l (S m) t * Q k m t) x (- c * (wpow m x * (Q l m x * Q k m x)) + 1 * (wpow (S m) x * (Q l (S m) x * Q k (S m) x)))).
  { intros x. pose proof (is_derive_prod _ _ x _ _ (sturm l m x) (Q_derive k m x)) as D. cbv beta in D. fold c in D.
    replace (- c * (wpow m x * (Q l m x * Q k m x)) + 1 * (wpow (S m) x * (Q l (S m) x * Q k (S m) x))) with (- c * (wpow m x * Q l m x) * Q k m x + wpow (S m) x * Q l (S m) x * Q k (S m) x) by ring. exact D. }
  assert (I : @eq R (RInt (fun x => - c * (wpow m x * (Q l m x * Q k m x)) + 1 * (wpow (S m) x * (Q l (S m) x * Q k (S m) x))) (-1) 1) 0).
  { transitivity (wpow (S m) 1 * Q l (S m) 1 * Q k m 1 - wpow (S m) (-1) * Q l (S m) (-1) * Q k m (-1)).
    2:{ rewrite !wpow_end by ring. ring. }
    apply (RInt_derive (fun t => wpow (S m) t * Q l (S m) t * Q k m t)). exact D.
    intros x. apply (continuous_plus (V := R_NormedModule)); apply (continuous_scal_r (V := R_NormedModule)); eapply is_poly_continuous, ip_poly. }
  rewrite RInt_lin in I by apply ip_int. fold (ip m l k) in I. fold (ip (S m) l k) in I. lra.
Qed.
Lemma ip_sym : forall m l k, ip m l k = ip m k l.
Proof. intros. unfold ip. apply RInt_ext. intros. rewrite (Rmult_comm (Q l m x)). auto. Qed.
Lemma ip0_orth : forall l k, l <> k -> ip 0 l k = 0.
Proof.
  intros l k H. pose proof (ip_step 0 l k) as A. pose proof (ip_step 0 k l) as B. rewrite (ip_sym 1 k l), (ip_sym 0 k l) in B. rewrite A in B.
  simpl (INR 0) in B. assert (Z : (INR l - INR k) * (INR l + INR k + 1) * ip 0 l k = 0) by lra.
  apply Rmult_integral in Z. destruct Z as [Z|Z]; auto. apply Rmult_integral in Z. destruct Z as [Z|Z].
  - exfalso. apply H. apply INR_eq. lra.
  - pose proof (pos_INR l). pose proof (pos_INR k). lra.
Qed.
Lemma ip0_eq : forall l k, ip 0 l k = RInt (fun x => legP l x * legP k x) (-1) 1.
Proof. intros. unfold ip. apply RInt_ext. intros. unfold wpow. cbn [pow]. rewrite !Q_0. apply Rmult_1_l. Qed.
Lemma legP2_int : forall l k, ex_RInt (fun x => legP l x * legP k x) (-1) 1.
Proof. intros. eapply is_poly_integrable. apply is_poly_mult; apply legP_poly. Qed.
Lemma legPx_int : forall l k, ex_RInt (fun x => x * (legP l x * legP k x)) (-1) 1.
Proof. intros. eapply is_poly_integrable. apply is_poly_x. apply is_poly_mult; apply legP_poly. Qed.
Lemma ip0_norm : forall l, ip 0 l l = 2 / (2 * INR l + 1).
Proof.
  assert (G : forall l, (2 * INR l + 3) * ip 0 (S l) (S l) = (2 * INR l + 1) * ip 0 l l).
  { intros l. pose proof (pos_INR l) as Hl.
    set (X := RInt (fun x => x * (legP l x * legP (S l) x)) (-1) 1).
    assert (E1 : (INR l + 1) * ip 0 (S l) (S l) = (2 * INR l + 1) * X).
    { destruct l as [|j].
      - unfold X. rewrite ip0_eq. rewrite (RInt_ext (fun x => x * (legP 0 x * legP 1 x)) (fun x => legP 1 x * legP 1 x)). simpl (INR 0). lra. intros. unfold legP; simpl. ring.
      - unfold X. rewrite S_INR. rewrite ip0_eq. 
        assert (O : RInt (fun x => legP j x * legP (S (S j)) x) (-1) 1 = 0) by (rewrite <- ip0_eq; apply ip0_orth; lia).
        rewrite (RInt_ext (fun x => legP (S (S j)) x * legP (S (S j)) x) (fun x => ((2 * INR j + 3) / (INR j + 2)) * (x * (legP (S j) x * legP (S (S j)) x)) + (- (INR j + 1) / (INR j + 2)) * (legP j x * legP (S (S j)) x))).
        2:{ intros x _. rewrite legP_SS at 1. pose proof (pos_INR j). change (((2 * INR j + 3) * x * legP (S j) x - (INR j + 1) * legP j x) / (INR j + 2) * legP (S (S j)) x =
               (2 * INR j + 3) / (INR j + 2) * (x * (legP (S j) x * legP (S (S j)) x)) + - (INR j + 1) / (INR j + 2) * (legP j x * legP (S (S j)) x)). field. lra. }
        rewrite (RInt_lin (fun x => x * (legP (S j) x * legP (S (S j)) x)) (fun x => legP j x * legP (S (S j)) x)); [|apply legPx_int|apply legP2_int]. rewrite O. pose proof (pos_INR j). field. lra. }
    assert (E2 : (2 * INR l + 3) * X = (INR l + 1) * ip 0 l l).
    { assert (O : RInt (fun x => legP (S (S l)) x * legP l x) (-1) 1 = 0) by (rewrite <- ip0_eq; apply ip0_orth; lia).
      rewrite (RInt_ext _ (fun x => ((2 * INR l + 3) / (INR l + 2)) * (x * (legP l x * legP (S l) x)) + (- (INR l + 1) / (INR l + 2)) * (legP l x * legP l x))) in O.
      2:{ intros x _. rewrite legP_SS. change (((2 * INR l + 3) * x * legP (S l) x - (INR l + 1) * legP l x) / (INR l + 2) * legP l x =
              (2 * INR l + 3) / (INR l + 2) * (x * (legP l x * legP (S l) x)) + - (INR l + 1) / (INR l + 2) * (legP l x * legP l x)). field. lra. }
      rewrite (RInt_lin (fun x => x * (legP l x * legP (S l) x)) (fun x => legP l x * legP l x)) in O; [|apply legPx_int|apply legP2_int]. fold X in O. rewrite <- ip0_eq in O.
      apply (Rmult_eq_compat_l (INR l + 2)) in O. rewrite Rmult_0_r in O.
      replace ((INR l + 2) * ((2 * INR l + 3) / (INR l + 2) * X + - (INR l + 1) / (INR l + 2) * ip 0 l l)) with ((2 * INR l + 3) * X - (INR l + 1) * ip 0 l l) in O by (field; lra). lra. }
    apply Rmult_eq_reg_l with (INR l + 1); [|lra].
    transitivity ((2 * INR l + 3) * ((INR l + 1) * ip 0 (S l) (S l))). ring. rewrite E1.
    transitivity ((2 * INR l + 1) * ((2 * INR l + 3) * X)). ring. rewrite E2. ring. }
  induction l.
  - rewrite ip0_eq. rewrite (RInt_ext _ (fun _ => 1)) by (intros; unfold legP; simpl; apply Rmult_1_l).
    rewrite (RInt_const (V := R_CompleteNormedModule)). unfold scal; simpl; unfold mult; simpl. field.
  - pose proof (G l) as E. rewrite IHl in E. pose proof (pos_INR l). rewrite S_INR. apply Rmult_eq_reg_l with (2 * INR l + 3); [|lra]. rewrite E. field. split; lra.
Qed.
(** Weighted orthogonality for every order *)
Lemma ip_orth : forall m l k, l <> k -> ip m l k = 0.
Proof. induction m; intros. now apply ip0_orth. rewrite ip_step, IHm by auto. ring. Qed.
Lemma ip_norm : forall m l, (m <= l)%nat -> ip m l l = 2 / (2 * INR l + 1) * (INR (fact (l + m)) / INR (fact (l - m))).
Proof.
  induction m; intros l H.
  - rewrite ip0_norm, Nat.add_0_r, Nat.sub_0_r. pose proof (pos_INR l). field. split. apply fact_nz. lra.
  - rewrite ip_step, IHm by lia. replace (l + S m)%nat with (S (l + m)) by lia. rewrite fact_S. replace (l - m)%nat with (S (l - S m)) by lia. rewrite fact_S.
    rewrite minus_INR, plus_INR, S_INR by lia. pose proof (pos_INR l). assert (INR m + 1 <= INR l) by (rewrite <- S_INR; now apply le_INR). field. split; [apply fact_nz|]. lra.
Qed.
