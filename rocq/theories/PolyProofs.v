(** Polynomial functions on the reals and their integrals. *)
From Coq Require Import List Arith Lia Bool Reals Lra.
From Coquelicot Require Import Coquelicot.
From Verif Require Import BigSum QuadModel QuadSpec.
Local Open Scope R_scope.

Lemma is_poly_ext : forall d f g, (forall x, f x = g x) -> is_poly d f -> is_poly d g.
Proof. intros d f g E (c & H). exists c. intros. now rewrite <- E. Qed.
Lemma is_poly_const : forall a, is_poly 0 (fun _ => a).
Proof. intros a. exists (fun _ => a). intros. simpl. ring. Qed.
Lemma is_poly_mono : forall d e f, (d <= e)%nat -> is_poly d f -> is_poly e f.
Proof.
  intros d e f H (c & E). exists (fun k => if (k <=? d)%nat then c k else 0). intros x. rewrite E.
  replace (S e) with (S d + (e - d))%nat by lia. rewrite (bsum_split RT).
  rewrite (bsum_zero' RT (e - d)). 2:{ intros. destruct (Nat.leb_spec (S d + i) d); [lia|]. ring. }
  rewrite Rplus_0_r. apply bsum_ext. intros. destruct (Nat.leb_spec i d); [auto|lia].
Qed.
Lemma is_poly_plus : forall d f g, is_poly d f -> is_poly d g -> is_poly d (fun x => f x + g x).
Proof.
  intros d f g (c & E) (b & F). exists (fun k => c k + b k). intros x. rewrite E, F, <- (bsum_plus RT). apply bsum_ext. intros. ring.
Qed.
Lemma is_poly_scal : forall d a f, is_poly d f -> is_poly d (fun x => a * f x).
Proof. intros d a f (c & E). exists (fun k => a * c k). intros x. rewrite E, <- (bsum_scal_l RT). apply bsum_ext. intros. ring. Qed.
Lemma is_poly_opp : forall d f, is_poly d f -> is_poly d (fun x => - f x).
Proof. intros. apply is_poly_ext with (fun x => -1 * f x). intros; ring. now apply is_poly_scal. Qed.
Lemma is_poly_minus : forall d f g, is_poly d f -> is_poly d g -> is_poly d (fun x => f x - g x).
Proof. intros. unfold Rminus. apply is_poly_plus; auto. now apply is_poly_opp. Qed.
Lemma is_poly_x : forall d f, is_poly d f -> is_poly (S d) (fun x => x * f x).
Proof.
  intros d f (c & E). exists (fun k => match k with O => 0 | S j => c j end). intros x. rewrite E, (bsum_S_l RT (S d)).
  rewrite <- (bsum_scal_l RT). rewrite Rmult_0_l, Rplus_0_l. apply bsum_ext. intros. simpl. ring.
Qed.
Lemma is_poly_sum : forall n d f, (forall k, (k < n)%nat -> is_poly d (f k)) -> is_poly d (fun x => rsum n (fun k => f k x)).
Proof.
  induction n; intros d f H. simpl. apply is_poly_mono with 0%nat; [lia|]. apply is_poly_const.
  simpl. apply is_poly_plus; auto.
Qed.
Lemma is_poly_pow : forall k d f, is_poly d f -> is_poly (k + d) (fun x => x ^ k * f x).
Proof.
  induction k; intros d f H. simpl. apply is_poly_ext with f; auto. intros; ring.
  apply is_poly_ext with (fun x => x * (x ^ k * f x)). intros; simpl; ring. apply is_poly_x. auto.
Qed.
Lemma is_poly_mult : forall d e f g, is_poly d f -> is_poly e g -> is_poly (d + e) (fun x => f x * g x).
Proof.
  intros d e f g (c & E) G. apply is_poly_ext with (fun x => rsum (S d) (fun k => c k * (x ^ k * g x))).
  { intros x. rewrite E, <- (bsum_scal_r RT). apply bsum_ext. intros. ring. }
  apply is_poly_sum. intros k Hk. apply is_poly_scal. apply is_poly_mono with (k + e)%nat; [lia|]. now apply is_poly_pow.
Qed.
Lemma is_poly_id : is_poly 1 (fun x => x).
Proof. apply is_poly_ext with (fun x => x * 1). intros; ring. apply is_poly_x, is_poly_const. Qed.
Lemma is_poly_npow : forall n d f, is_poly d f -> is_poly (n * d) (fun x => f x ^ n).
Proof.
  induction n; intros. simpl. apply is_poly_const. simpl. apply is_poly_mult; auto.
Qed.
Lemma is_poly_affine : forall d f a b, is_poly d f -> is_poly d (fun x => f (a * x + b)).
Proof.
  intros d f a b (c & E). apply is_poly_ext with (fun x => rsum (S d) (fun k => c k * (a * x + b) ^ k)). intros. now rewrite E.
  apply is_poly_sum. intros k Hk. apply is_poly_scal. apply is_poly_mono with (k * 1)%nat; [lia|]. apply is_poly_npow.
  apply is_poly_plus. apply is_poly_scal. apply is_poly_id. apply is_poly_mono with 0%nat; [lia|]. apply is_poly_const.
Qed.

Lemma rsum_continuous : forall n (f : nat -> R -> R) x, (forall k, (k < n)%nat -> continuous (f k) x) -> continuous (fun x => rsum n (fun k => f k x)) x.
Proof.
  induction n; intros f x H; simpl. apply continuous_const.
  apply (continuous_plus (fun x => rsum n (fun k => f k x)) (f n)); auto.
Qed.
Lemma pow_continuous : forall k x, continuous (fun x => x ^ k) x.
Proof.
  induction k; intros; simpl. apply continuous_const. apply (continuous_mult (fun x => x) (fun x => x ^ k)); auto. apply continuous_id.
Qed.
Lemma is_poly_continuous : forall d f x, is_poly d f -> continuous f x.
Proof.
  intros d f x (c & E). apply continuous_ext with (fun x => rsum (S d) (fun k => c k * x ^ k)). intros; symmetry; apply E.
  apply (rsum_continuous (S d) (fun k x => c k * x ^ k)). intros k _. apply (continuous_mult (fun _ => c k) (fun x => x ^ k)). apply continuous_const. apply pow_continuous.
Qed.
Lemma is_poly_integrable : forall d f a b, is_poly d f -> ex_RInt f a b.
Proof. intros. apply (ex_RInt_continuous (V := R_CompleteNormedModule)). intros. eapply is_poly_continuous; eauto. Qed.

Lemma rsum_RInt : forall n (f : nat -> R -> R) a b, (forall k, (k < n)%nat -> ex_RInt (f k) a b) ->
  is_RInt (fun x => rsum n (fun k => f k x)) a b (rsum n (fun k => RInt (f k) a b)).
Proof.
  induction n; intros f a b H; simpl.
  - replace 0 with (scal (b - a) 0) at 1 by (unfold scal; simpl; unfold mult; simpl; ring). apply @is_RInt_const.
  - apply (is_RInt_plus (V := R_NormedModule)). apply IHn; auto. apply (RInt_correct (V := R_CompleteNormedModule)). auto.
Qed.
Lemma RInt_lin : forall (f g : R -> R) a b u v, ex_RInt f a b -> ex_RInt g a b -> RInt (fun x => u * f x + v * g x) a b = u * RInt f a b + v * RInt g a b.
Proof.
  intros. apply (is_RInt_unique (V := R_CompleteNormedModule)).
  apply (is_RInt_plus (V := R_NormedModule) (fun x => u * f x) (fun x => v * g x)).
  - apply (is_RInt_scal (V := R_NormedModule) f). now apply (RInt_correct (V := R_CompleteNormedModule)).
  - apply (is_RInt_scal (V := R_NormedModule) g). now apply (RInt_correct (V := R_CompleteNormedModule)).
Qed.
Lemma RInt_scal' : forall (f : R -> R) a b u, ex_RInt f a b -> RInt (fun x => u * f x) a b = u * RInt f a b.
Proof. intros. apply (RInt_scal (V := R_CompleteNormedModule) f). auto. Qed.
Lemma RInt_derive : forall (f df : R -> R) a b, (forall x, is_derive f x (df x)) -> (forall x, continuous df x) -> RInt df a b = f b - f a.
Proof. intros. apply (is_RInt_unique (V := R_CompleteNormedModule)). apply (is_RInt_derive (V := R_CompleteNormedModule) f df); auto. Qed.
