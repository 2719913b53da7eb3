(** Finite sums over [0 <= i < n] in a commutative ring. *)
From Coq Require Import List Arith Lia Bool Ring_theory Ring Setoid Permutation.
Import ListNotations.

Section BigSum.
Context {A : Type} {r0 r1 : A} {add mul sub : A -> A -> A} {opp : A -> A}.
Variable RT : ring_theory r0 r1 add mul sub opp (@eq A).
Add Ring ARing : RT.

Fixpoint bsum_ (z : A) (p : A -> A -> A) (n : nat) (f : nat -> A) : A :=
  match n with 0 => z | S k => p (bsum_ z p k f) (f k) end.
Notation bsum := (bsum_ r0 add).

Lemma bsum_ext : forall n f g, (forall i, i < n -> f i = g i) -> bsum n f = bsum n g.
Proof. induction n; simpl; intros; auto. rewrite (IHn f g), H; auto. Qed.

Lemma bsum_zero : forall n, bsum n (fun _ => r0) = r0.
Proof. induction n; simpl; auto. rewrite IHn. ring. Qed.

Lemma bsum_zero' : forall n f, (forall i, i < n -> f i = r0) -> bsum n f = r0.
Proof. intros. rewrite (bsum_ext n f (fun _ => r0)); auto using bsum_zero. Qed.

Lemma bsum_plus : forall n f g, bsum n (fun i => add (f i) (g i)) = add (bsum n f) (bsum n g).
Proof. induction n; simpl; intros. ring. rewrite IHn. ring. Qed.

Lemma bsum_sub : forall n f g, bsum n (fun i => sub (f i) (g i)) = sub (bsum n f) (bsum n g).
Proof. induction n; simpl; intros. ring. rewrite IHn. ring. Qed.

Lemma bsum_opp : forall n f, bsum n (fun i => opp (f i)) = opp (bsum n f).
Proof. induction n; simpl; intros. ring. rewrite IHn. ring. Qed.

Lemma bsum_scal_l : forall n c f, bsum n (fun i => mul c (f i)) = mul c (bsum n f).
Proof. induction n; simpl; intros. ring. rewrite IHn. ring. Qed.

Lemma bsum_scal_r : forall n c f, bsum n (fun i => mul (f i) c) = mul (bsum n f) c.
Proof. induction n; simpl; intros. ring. rewrite IHn. ring. Qed.

Lemma bsum_swap : forall n m f, bsum n (fun i => bsum m (fun j => f i j)) = bsum m (fun j => bsum n (fun i => f i j)).
Proof.
  induction n; simpl; intros. now rewrite bsum_zero.
  rewrite IHn, <- bsum_plus. auto.
Qed.

Lemma bsum_split : forall n m f, bsum (n + m) f = add (bsum n f) (bsum m (fun i => f (n + i))).
Proof.
  induction m; simpl; intros. rewrite Nat.add_0_r. ring.
  rewrite Nat.add_succ_r. simpl. rewrite IHm. ring.
Qed.

Lemma bsum_S_l : forall n f, bsum (S n) f = add (f 0) (bsum n (fun i => f (S i))).
Proof. induction n; intros. simpl; ring. simpl in *. rewrite IHn. ring. Qed.

Lemma bsum_delta : forall n k c, k < n -> bsum n (fun i => if i =? k then c else r0) = c.
Proof.
  induction n; simpl; intros k c Hk. lia.
  destruct (Nat.eqb_spec n k).
  - subst. rewrite bsum_zero'. ring. intros i Hi. destruct (Nat.eqb_spec i k); auto; lia.
  - rewrite IHn by lia. ring.
Qed.

Lemma bsum_delta_f : forall n k f, k < n -> bsum n (fun i => if i =? k then f i else r0) = f k.
Proof.
  intros. rewrite (bsum_ext _ _ (fun i => if i =? k then f k else r0)).
  now rewrite bsum_delta. intros i Hi. destruct (Nat.eqb_spec i k); subst; auto.
Qed.

Lemma bsum_delta_out : forall n k f, n <= k -> bsum n (fun i => if i =? k then f i else r0) = r0.
Proof. intros. apply bsum_zero'. intros i Hi. destruct (Nat.eqb_spec i k); auto; lia. Qed.

Lemma bsum_rev : forall n f, bsum n f = bsum n (fun i => f (n - 1 - i)).
Proof.
  induction n; intros; auto.
  rewrite bsum_S_l.
  change (bsum (S n) (fun i => f (S n - 1 - i))) with (add (bsum n (fun i => f (S n - 1 - i))) (f (S n - 1 - n))).
  rewrite (IHn (fun i => f (S i))).
  replace (S n - 1 - n) with 0 by lia.
  rewrite (bsum_ext n (fun i => f (S (n - 1 - i))) (fun i => f (S n - 1 - i))). ring.
  intros i Hi. f_equal. lia.
Qed.

(** Re-indexing by a rotation modulo [n]. *)
Lemma bsum_rot : forall n k f, bsum n (fun i => f ((i + k) mod n)) = bsum n f.
Proof.
  intros n k f. destruct (Nat.eq_dec n 0) as [->|Hn]; auto.
  assert (E : bsum n (fun i => f ((i + k) mod n)) = bsum n (fun i => f ((i + k mod n) mod n))).
  { apply bsum_ext. intros. now rewrite Nat.add_mod_idemp_r. }
  rewrite E. clear E. assert (Hr : k mod n < n) by (apply Nat.mod_upper_bound; auto).
  generalize dependent (k mod n). intros r Hr.
  transitivity (bsum ((n - r) + r) (fun i => f ((i + r) mod n))). f_equal; lia.
  transitivity (bsum (r + (n - r)) f). 2: f_equal; lia.
  rewrite !bsum_split.
  rewrite (bsum_ext (n - r) (fun i => f ((i + r) mod n)) (fun i => f (r + i))).
  2:{ intros i Hi. rewrite Nat.mod_small by lia. f_equal; lia. }
  rewrite (bsum_ext r (fun i => f ((n - r + i + r) mod n)) f).
  2:{ intros i Hi. f_equal. replace (n - r + i + r) with (i + 1 * n) by lia.
      rewrite Nat.mod_add by auto. apply Nat.mod_small; lia. }
  ring.
Qed.

(** Summation over a product range. *)
Lemma bsum_mul_range : forall n m f, bsum (n * m) f = bsum n (fun i => bsum m (fun j => f (i * m + j))).
Proof.
  induction n; simpl; intros; auto.
  rewrite Nat.add_comm, bsum_split, IHn. auto.
Qed.

(** Lists. *)
Definition lsum_ {B} (z : A) (p : A -> A -> A) (f : B -> A) (l : list B) : A := fold_right (fun b acc => p (f b) acc) z l.
Notation lsum := (lsum_ r0 add).

Lemma lsum_app : forall B (f : B -> A) l l', lsum f (l ++ l') = add (lsum f l) (lsum f l').
Proof. induction l; simpl; intros. ring. rewrite IHl. ring. Qed.
Lemma lsum_map : forall B C (g : C -> B) (f : B -> A) l, lsum f (map g l) = lsum (fun c => f (g c)) l.
Proof. induction l; simpl; intros; auto. now rewrite IHl. Qed.
Lemma lsum_ext : forall B (f g : B -> A) l, (forall b, In b l -> f b = g b) -> lsum f l = lsum g l.
Proof. induction l; simpl; intros; auto. rewrite H, IHl; auto. Qed.
Lemma lsum_zero : forall B (l : list B), lsum (fun _ => r0) l = r0.
Proof. induction l; simpl; auto. rewrite IHl; ring. Qed.
Lemma lsum_plus : forall B (f g : B -> A) l, lsum (fun b => add (f b) (g b)) l = add (lsum f l) (lsum g l).
Proof. induction l; simpl. ring. rewrite IHl; ring. Qed.
Lemma lsum_scal_l : forall B c (f : B -> A) l, lsum (fun b => mul c (f b)) l = mul c (lsum f l).
Proof. induction l; simpl. ring. rewrite IHl; ring. Qed.
Lemma lsum_scal_r : forall B c (f : B -> A) l, lsum (fun b => mul (f b) c) l = mul (lsum f l) c.
Proof. induction l; simpl. ring. rewrite IHl; ring. Qed.
Lemma lsum_perm : forall B (f : B -> A) l l', Permutation.Permutation l l' -> lsum f l = lsum f l'.
Proof. induction 1; simpl; auto. now rewrite IHPermutation. ring. congruence. Qed.
Lemma lsum_seq : forall n f, lsum f (seq 0 n) = bsum n f.
Proof.
  induction n; intros; auto. rewrite seq_S, lsum_app, IHn. simpl. ring.
Qed.
Lemma lsum_bsum_swap : forall B n (f : B -> nat -> A) l,
  lsum (fun b => bsum n (f b)) l = bsum n (fun i => lsum (fun b => f b i) l).
Proof.
  induction l; simpl. now rewrite bsum_zero.
  rewrite IHl, <- bsum_plus. auto.
Qed.
Lemma lsum_filter : forall B (p : B -> bool) (f : B -> A) l,
  lsum f (filter p l) = lsum (fun b => if p b then f b else r0) l.
Proof. induction l; simpl; auto. destruct (p a); simpl; rewrite IHl; ring. Qed.
Lemma lsum_flat_map : forall B C (g : C -> list B) (f : B -> A) l,
  lsum f (flat_map g l) = lsum (fun c => lsum f (g c)) l.
Proof. induction l; simpl; auto. rewrite lsum_app, IHl. auto. Qed.
End BigSum.

(** Specialisations. *)
From Coq Require Import Reals.
From Coquelicot Require Import Coquelicot.
Notation rsum := (bsum_ 0%R Rplus).
Notation rlsum := (lsum_ 0%R Rplus).
Notation csum := (bsum_ (RtoC 0) Cplus).
Notation clsum := (lsum_ (RtoC 0) Cplus).
Definition RT : ring_theory 0%R 1%R Rplus Rmult Rminus Ropp (@eq R) := RTheory.
Definition CT : ring_theory (RtoC 0) (RtoC 1) Cplus Cmult Cminus Copp (@eq C).
Proof. constructor; intros; try ring. Defined.
