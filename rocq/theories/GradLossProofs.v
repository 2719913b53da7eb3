(** The one-dimensional Fourier derivative. *)
From Coq Require Import List Arith Lia Bool Reals Lra.
From Coquelicot Require Import Coquelicot.
From Verif Require Import BigSum FFTModel FFTProofs SHTSpec SHTValueProofs GradLossSpec.
Import ListNotations.
Local Open Scope R_scope.

(** the frequency of bin q *)
Definition sf (n q : nat) : R := if (q <? (n + 1) / 2)%nat then INR q else INR q - INR n.
Definition hat (n : nat) (z : nat -> C) (q : nat) : C := csum n (fun l => Cmult (z l) (cis (- (2 * PI * INR l * INR q / INR n)))).
Definition Dc (n : nat) (k : nat -> R) (z : nat -> C) (j : nat) : C :=
  Cmult (RtoC (/ INR n)) (csum n (fun q => Cmult (Cmult (Cmult Ci (RtoC (k q))) (hat n z q)) (cis (2 * PI * INR j * INR q / INR n)))).
Definition rd (n : nat) (f : nat -> R) (j : nat) : R := Re (Dc n (sf n) (fun l => RtoC (f l)) j).

Lemma half : forall n m, (m < (n + 1) / 2)%nat <-> (2 * m < n)%nat.
Proof. intros n m. pose proof (Nat.div_mod (n + 1) 2 ltac:(lia)). pose proof (Nat.mod_upper_bound (n + 1) 2 ltac:(lia)). lia. Qed.
Lemma sf_low : forall n m, (2 * m < n)%nat -> sf n m = INR m.
Proof. intros n m H. unfold sf. rewrite (proj2 (Nat.ltb_lt _ _)); auto. now apply half. Qed.
Lemma sf_high : forall n m, (n <= 2 * m)%nat -> sf n m = INR m - INR n.
Proof. intros n m H. unfold sf. rewrite (proj2 (Nat.ltb_ge _ _)); auto. pose proof (half n m). lia. Qed.

Lemma hat_ext : forall n z y q, (forall l, (l < n)%nat -> z l = y l) -> hat n z q = hat n y q.
Proof. intros. unfold hat. apply bsum_ext. intros l Hl. now rewrite H. Qed.
Lemma hat_lin : forall n a b z y q, hat n (fun l => Cplus (Cmult a (z l)) (Cmult b (y l))) q = Cplus (Cmult a (hat n z q)) (Cmult b (hat n y q)).
Proof. intros. unfold hat. rewrite <- !(bsum_scal_l CT), <- (bsum_plus CT). apply bsum_ext. intros l Hl. ring. Qed.
Lemma Dc_ext : forall n k z y j, (forall l, (l < n)%nat -> z l = y l) -> Dc n k z j = Dc n k y j.
Proof. intros. unfold Dc. f_equal. apply bsum_ext. intros q Hq. now rewrite (hat_ext n z y). Qed.
Lemma Dc_lin : forall n k a b z y j, Dc n k (fun l => Cplus (Cmult a (z l)) (Cmult b (y l))) j = Cplus (Cmult a (Dc n k z j)) (Cmult b (Dc n k y j)).
Proof.
  intros. unfold Dc. transitivity (Cmult (RtoC (/ INR n)) (Cplus (Cmult a (csum n (fun q => Cmult (Cmult (Cmult Ci (RtoC (k q))) (hat n z q)) (cis (2 * PI * INR j * INR q / INR n)))))
    (Cmult b (csum n (fun q => Cmult (Cmult (Cmult Ci (RtoC (k q))) (hat n y q)) (cis (2 * PI * INR j * INR q / INR n))))))); [|ring].
  f_equal. rewrite <- !(bsum_scal_l CT), <- (bsum_plus CT). apply bsum_ext. intros q Hq. rewrite hat_lin. ring.
Qed.
Lemma hat_char : forall n m q, (m < n)%nat -> (q < n)%nat -> hat n (fun l => cis (2 * PI * INR l * INR m / INR n)) q = if (m =? q)%nat then RtoC (INR n) else RtoC 0.
Proof. intros. unfold hat. now apply dft_orth. Qed.
Lemma Dc_char : forall n k m j, (m < n)%nat -> Dc n k (fun l => cis (2 * PI * INR l * INR m / INR n)) j = Cmult (Cmult Ci (RtoC (k m))) (cis (2 * PI * INR j * INR m / INR n)).
Proof.
  intros n k m j Hm. assert (N : INR n <> 0) by (apply not_0_INR; lia). unfold Dc.
  rewrite (bsum_ext n _ (fun q => if (q =? m)%nat then Cmult (Cmult (Cmult Ci (RtoC (k q))) (RtoC (INR n))) (cis (2 * PI * INR j * INR q / INR n)) else RtoC 0)).
  2:{ intros q Hq. rewrite hat_char by auto. rewrite (Nat.eqb_sym m q). destruct (q =? m)%nat; ring. }
  rewrite (bsum_delta_f CT n m) by auto. rewrite RtoC_inv by auto. field. intros K. apply N. injection K. auto.
Qed.

Lemma rd_ext : forall n f g j, (forall l, (l < n)%nat -> f l = g l) -> rd n f j = rd n g j.
Proof. intros. unfold rd. f_equal. apply Dc_ext. intros l Hl. now rewrite H. Qed.
Lemma rd_lin : forall n a b f g j, rd n (fun l => a * f l + b * g l) j = a * rd n f j + b * rd n g j.
Proof.
  intros. unfold rd. rewrite (Dc_ext n _ _ (fun l => Cplus (Cmult (RtoC a) (RtoC (f l))) (Cmult (RtoC b) (RtoC (g l))))). 2:{ intros. now rewrite RtoC_plus, !RtoC_mult. }
  rewrite Dc_lin. cbn. ring.
Qed.
Lemma rd_zero : forall n j, rd n (fun _ => 0) j = 0.
Proof. intros. rewrite (rd_ext n _ (fun l => 0 * 0 + 0 * 0)) by (intros; ring). rewrite (rd_lin n 0 0 (fun _ => 0) (fun _ => 0)). ring. Qed.
Lemma rd_sum : forall n M (F : nat -> nat -> R) j, rd n (fun l => rsum M (fun m => F m l)) j = rsum M (fun m => rd n (F m) j).
Proof.
  induction M; intros. apply rd_zero. cbn [bsum_]. rewrite <- IHM. rewrite (rd_ext n _ (fun l => 1 * rsum M (fun m => F m l) + 1 * F M l)) by (intros; ring). rewrite rd_lin. ring.
Qed.
Lemma cis_refl : forall n m l, (1 <= m <= n)%nat -> cis (2 * PI * INR l * INR (n - m) / INR n) = Cconj (cis (2 * PI * INR l * INR m / INR n)).
Proof.
  intros n m l H. assert (N : INR n <> 0) by (apply not_0_INR; lia). rewrite cis_conj, <- (cis_period (- _) l). f_equal. rewrite minus_INR by lia. field; auto.
Qed.
Lemma Ccos_split : forall t, RtoC (cos t) = Cplus (Cmult (RtoC (/ 2)) (cis t)) (Cmult (RtoC (/ 2)) (Cconj (cis t))).
Proof. intros. unfold cis, Cconj, Cmult, Cplus, RtoC. cbn. f_equal; field. Qed.
Lemma Csin_split : forall t, RtoC (sin t) = Cplus (Cmult (Cmult (RtoC (- / 2)) Ci) (cis t)) (Cmult (Cmult (RtoC (/ 2)) Ci) (Cconj (cis t))).
Proof. intros. unfold cis, Cconj, Cmult, Cplus, RtoC, Ci. cbn. f_equal; field. Qed.
Lemma arg : forall n m l, (1 <= n)%nat -> INR m * (2 * PI * INR l / INR n) = 2 * PI * INR l * INR m / INR n.
Proof. intros. unfold Rdiv. ring. Qed.
Lemma rd_const : forall n c j, (1 <= n)%nat -> rd n (fun _ => c) j = 0.
Proof.
  intros n c j H. unfold rd. rewrite (Dc_ext n _ _ (fun l => Cplus (Cmult (RtoC c) (cis (2 * PI * INR l * INR 0 / INR n))) (Cmult (RtoC 0) (RtoC 0)))).
  2:{ intros. cbn [INR]. replace (2 * PI * INR l * 0 / INR n) with 0 by (unfold Rdiv; ring). rewrite cis_0. ring. }
  rewrite Dc_lin, Dc_char by lia. rewrite sf_low by lia. cbn. ring.
Qed.
Lemma rd_cos : forall n m j, (2 * m < n)%nat -> rd n (fun l => cos (INR m * (2 * PI * INR l / INR n))) j = - INR m * sin (INR m * (2 * PI * INR j / INR n)).
Proof.
  intros n m j H. destruct (Nat.eq_dec m 0) as [->|Hm]. { rewrite (rd_ext n _ (fun _ => 1)). rewrite rd_const by lia. cbn. ring. intros. cbn [INR]. rewrite Rmult_0_l. apply cos_0. }
  unfold rd. rewrite (Dc_ext n _ _ (fun l => Cplus (Cmult (RtoC (/ 2)) (cis (2 * PI * INR l * INR m / INR n))) (Cmult (RtoC (/ 2)) (cis (2 * PI * INR l * INR (n - m) / INR n))))).
  2:{ intros l Hl. rewrite cis_refl by lia. rewrite arg by lia. apply Ccos_split. }
  rewrite Dc_lin, !Dc_char by lia. rewrite cis_refl by lia. rewrite sf_low, sf_high by lia. rewrite arg, minus_INR by lia. cbn. field.
Qed.
Lemma rd_sin : forall n m j, (2 * m < n)%nat -> rd n (fun l => sin (INR m * (2 * PI * INR l / INR n))) j = INR m * cos (INR m * (2 * PI * INR j / INR n)).
Proof.
  intros n m j H. destruct (Nat.eq_dec m 0) as [->|Hm]. { rewrite (rd_ext n _ (fun _ => 0)). rewrite rd_const by lia. cbn. ring. intros. cbn [INR]. rewrite Rmult_0_l. apply sin_0. }
  unfold rd. rewrite (Dc_ext n _ _ (fun l => Cplus (Cmult (Cmult (RtoC (- / 2)) Ci) (cis (2 * PI * INR l * INR m / INR n))) (Cmult (Cmult (RtoC (/ 2)) Ci) (cis (2 * PI * INR l * INR (n - m) / INR n))))).
  2:{ intros l Hl. rewrite cis_refl by lia. rewrite arg by lia. apply Csin_split. }
  rewrite Dc_lin, !Dc_char by lia. rewrite cis_refl by lia. rewrite sf_low, sf_high by lia. rewrite arg, minus_INR by lia. cbn. field.
Qed.
Lemma cis_pi : forall l, cis (PI * INR l) = RtoC ((-1) ^ l).
Proof.
  induction l. cbn [INR pow]. rewrite Rmult_0_r. apply cis_0. rewrite S_INR. replace (PI * (INR l + 1)) with (PI * INR l + PI) by ring. rewrite cis_add, IHl. cbn [pow]. rewrite (Rmult_comm (-1)), RtoC_mult. f_equal.
  unfold cis. rewrite cos_PI, sin_PI. reflexivity.
Qed.
Lemma alt_char : forall h l, (1 <= h)%nat -> cis (2 * PI * INR l * INR h / INR (2 * h)) = RtoC ((-1) ^ l).
Proof. intros h l H. assert (N : INR h <> 0) by (apply not_0_INR; lia). rewrite <- cis_pi. f_equal. rewrite mult_INR. cbn [INR]. field; auto. Qed.
Lemma rd_alt : forall h j, (1 <= h)%nat -> rd (2 * h) (fun l => (-1) ^ l) j = 0.
Proof.
  intros h j H. unfold rd. rewrite (Dc_ext _ _ _ (fun l => cis (2 * PI * INR l * INR h / INR (2 * h)))) by (intros; now rewrite alt_char).
  rewrite Dc_char by lia. rewrite alt_char by auto. cbn. ring.
Qed.
Definition dtrig (M : nat) (a b : nat -> R) (t : R) : R := rsum (S M) (fun m => INR m * (b m * cos (INR m * t) - a m * sin (INR m * t))).
Lemma rd_trig : forall n M a b j, (2 * M < n)%nat -> rd n (fun l => trig M a b (2 * PI * INR l / INR n)) j = dtrig M a b (2 * PI * INR j / INR n).
Proof.
  intros n M a b j H. unfold trig, dtrig. rewrite (rd_sum n (S M) (fun m l => a m * cos (INR m * (2 * PI * INR l / INR n)) + b m * sin (INR m * (2 * PI * INR l / INR n)))).
  apply bsum_ext. intros m Hm. rewrite (rd_lin n (a m) (b m) (fun l => cos (INR m * (2 * PI * INR l / INR n))) (fun l => sin (INR m * (2 * PI * INR l / INR n)))). rewrite rd_cos, rd_sin by lia. ring.
Qed.
Lemma is_derive_sum : forall M (F G : nat -> R -> R) t, (forall m, (m < M)%nat -> is_derive (F m) t (G m t)) -> is_derive (fun u => rsum M (fun m => F m u)) t (rsum M (fun m => G m t)).
Proof.
  induction M; intros F G t H. cbn [bsum_]. apply (is_derive_const (V := R_NormedModule)). cbn [bsum_]. apply (is_derive_plus (V := R_NormedModule) (fun u => rsum M (fun m => F m u))). apply IHM. intros. apply H. lia. apply H. lia.
Qed.
Lemma trig_derive : forall M a b t, is_derive (trig M a b) t (dtrig M a b t).
Proof.
  intros. unfold trig, dtrig. apply (is_derive_sum (S M) (fun m t => a m * cos (INR m * t) + b m * sin (INR m * t)) (fun m t => INR m * (b m * cos (INR m * t) - a m * sin (INR m * t)))).
  intros m Hm. auto_derive. auto. ring.
Qed.
Lemma interpolates_rd : forall n M a b d f j, interpolates n M a b d f -> rd n f j = dtrig M a b (2 * PI * INR j / INR n).
Proof.
  intros n M a b d f j (H1 & H2 & H3). rewrite (rd_ext n f (fun l => 1 * trig M a b (2 * PI * INR l / INR n) + d * (-1) ^ l)) by (intros; rewrite H3 by auto; ring).
  rewrite (rd_lin n 1 d (fun l => trig M a b (2 * PI * INR l / INR n)) (fun l => (-1) ^ l)), rd_trig by auto.
  destruct (Nat.odd n) eqn:O. rewrite H2 by auto. ring. assert (E : Nat.even n = true) by (rewrite <- Nat.negb_odd, O; auto). apply Nat.even_spec in E. destruct E as (h & ->). rewrite rd_alt by lia. ring.
Qed.

Lemma Rscal : forall r z, Re (Cmult (RtoC r) z) = r * Re z. Proof. intros r [u v]. cbn. ring. Qed.
(** every sequence has an interpolant *)
Lemma inversion : forall n f l, (l < n)%nat -> f l = rsum n (fun q => Re (hat n (fun l => RtoC (f l)) q) / INR n * cos (2 * PI * INR l * INR q / INR n) + - Im (hat n (fun l => RtoC (f l)) q) / INR n * sin (2 * PI * INR l * INR q / INR n)).
Proof.
  intros n f l Hl. assert (N : INR n <> 0) by (apply not_0_INR; lia).
  assert (E : Cmult (RtoC (/ INR n)) (csum n (fun q => Cmult (hat n (fun l => RtoC (f l)) q) (cis (2 * PI * INR l * INR q / INR n)))) = RtoC (f l)).
  { unfold hat. rewrite (bsum_ext n _ (fun q => csum n (fun l' => Cmult (RtoC (f l')) (Cmult (cis (2 * PI * INR q * INR l / INR n)) (cis (- (2 * PI * INR q * INR l' / INR n))))))).
    2:{ intros q Hq. rewrite <- (bsum_scal_r CT). apply bsum_ext. intros l' Hl'. replace (2 * PI * INR l * INR q / INR n) with (2 * PI * INR q * INR l / INR n) by (unfold Rdiv; ring). replace (2 * PI * INR l' * INR q / INR n) with (2 * PI * INR q * INR l' / INR n) by (unfold Rdiv; ring). ring. }
    rewrite (bsum_swap CT). rewrite (bsum_ext n _ (fun l' => if (l' =? l)%nat then Cmult (RtoC (f l')) (RtoC (INR n)) else RtoC 0)).
    2:{ intros l' Hl'. rewrite (bsum_scal_l CT), dft_orth by auto. rewrite (Nat.eqb_sym l l'). destruct (l' =? l)%nat; ring. }
    rewrite (bsum_delta_f CT n l) by auto. rewrite RtoC_inv by auto. field. intros K. apply N. injection K. auto. }
  apply (f_equal Re) in E. rewrite Rscal, csum_Re in E. transitivity (Re (RtoC (f l))). reflexivity. rewrite <- E. rewrite <- (bsum_scal_l RT). apply bsum_ext. intros q Hq. destruct (hat n (fun l => RtoC (f l)) q) as [u v]. unfold Cmult, cis. cbn [Re Im fst snd]. field. auto.
Qed.
Lemma fold_odd : forall M F, rsum (2 * M + 1) F = rsum (S M) (fun m => F m + (if (m =? 0)%nat then 0 else F (2 * M + 1 - m)%nat)).
Proof.
  intros M F. replace (2 * M + 1)%nat with (S M + M)%nat by lia. rewrite (bsum_split RT), (bsum_plus RT). f_equal. rewrite (bsum_S_l RT). cbn [Nat.eqb]. rewrite Rplus_0_l, (bsum_rev RT). apply bsum_ext. intros i Hi. f_equal. lia.
Qed.
Lemma fold_even : forall M F, rsum (2 * M + 2) F = rsum (S M) (fun m => F m + (if (m =? 0)%nat then 0 else F (2 * M + 2 - m)%nat)) + F (M + 1)%nat.
Proof.
  intros M F. replace (2 * M + 2)%nat with (S (S M) + M)%nat by lia. rewrite (bsum_split RT), (bsum_plus RT). replace (rsum (S (S M)) F) with (rsum (S M) F + F (M + 1)%nat) by (cbn [bsum_]; do 2 f_equal; lia).
  rewrite (bsum_S_l RT M (fun i => if (i =? 0)%nat then _ else _)). cbn [Nat.eqb]. rewrite Rplus_0_l, (bsum_rev RT M). rewrite (bsum_ext M _ (fun i => F (S (S M) + M - S i)%nat)) by (intros; f_equal; lia). ring.
Qed.
Lemma cos_refl : forall n m l, (1 <= m <= n)%nat -> cos (2 * PI * INR l * INR (n - m) / INR n) = cos (INR m * (2 * PI * INR l / INR n)) /\ sin (2 * PI * INR l * INR (n - m) / INR n) = - sin (INR m * (2 * PI * INR l / INR n)).
Proof. intros n m l H. pose proof (cis_refl n m l H) as E. rewrite arg by lia. unfold cis, Cconj in E. cbn [fst snd] in E. injection E. auto. Qed.
Lemma interpolant_exists : forall n f, (1 <= n)%nat -> exists M a b d, interpolates n M a b d f.
Proof.
  intros n f Hn. set (A q := Re (hat n (fun l => RtoC (f l)) q) / INR n). set (B q := - Im (hat n (fun l => RtoC (f l)) q) / INR n).
  set (a m := A m + (if (m =? 0)%nat then 0 else A (n - m)%nat)). set (b m := B m - (if (m =? 0)%nat then 0 else B (n - m)%nat)).
  assert (K : forall l m, (2 * m < n)%nat -> A m * cos (2 * PI * INR l * INR m / INR n) + B m * sin (2 * PI * INR l * INR m / INR n) +
    (if (m =? 0)%nat then 0 else A (n - m)%nat * cos (2 * PI * INR l * INR (n - m) / INR n) + B (n - m)%nat * sin (2 * PI * INR l * INR (n - m) / INR n)) =
    a m * cos (INR m * (2 * PI * INR l / INR n)) + b m * sin (INR m * (2 * PI * INR l / INR n))).
  { intros l m Hm. unfold a, b. rewrite !arg by lia. destruct (Nat.eqb_spec m 0) as [->|Z]. ring. destruct (cos_refl n m l) as [-> ->]. lia. rewrite !arg by lia. ring. }
  destruct (Nat.odd n) eqn:O.
  - apply Nat.odd_spec in O. destruct O as (M & HM). exists M, a, b, 0. split; [lia|]. split; auto. intros l Hl. rewrite Rmult_0_l, Rplus_0_r. rewrite (inversion n f l Hl). fold (A) (B).
    change (rsum n (fun q => A q * cos (2 * PI * INR l * INR q / INR n) + B q * sin (2 * PI * INR l * INR q / INR n)) = trig M a b (2 * PI * INR l / INR n)).
    rewrite HM at 1. rewrite fold_odd, <- HM. apply bsum_ext. intros m Hm. apply K. lia.
  - assert (E : Nat.even n = true) by (rewrite <- Nat.negb_odd, O; auto). apply Nat.even_spec in E. destruct E as (h & Hh). destruct h as [|M]; [lia|]. exists M, a, b, (A (M + 1)%nat). split; [lia|]. split; [intros; congruence|].
    intros l Hl. rewrite (inversion n f l Hl).
    change (rsum n (fun q => A q * cos (2 * PI * INR l * INR q / INR n) + B q * sin (2 * PI * INR l * INR q / INR n)) = trig M a b (2 * PI * INR l / INR n) + A (M + 1)%nat * (-1) ^ l).
    assert (HM : n = (2 * M + 2)%nat) by lia. rewrite HM at 1. rewrite fold_even, <- HM. f_equal. { apply bsum_ext. intros m Hm. apply K. lia. }
    pose proof (alt_char (M + 1) l ltac:(lia)) as E. replace (2 * (M + 1))%nat with n in E by lia. unfold cis, RtoC in E. injection E as -> ->. ring.
Qed.

(** coefficients of a trigonometric polynomial from its samples *)
Lemma nz2 : forall n : nat, (1 <= n)%nat -> RtoC (INR n) <> RtoC 0. Proof. intros n H K. injection K. apply not_0_INR. lia. Qed.
Lemma hat_cos : forall n m q, (1 <= q)%nat -> (2 * m < n)%nat -> (2 * q < n)%nat -> hat n (fun l => RtoC (cos (INR m * (2 * PI * INR l / INR n)))) q = if (m =? q)%nat then RtoC (INR n / 2) else RtoC 0.
Proof.
  intros n m q Hq Hm Hq2. destruct (Nat.eq_dec m 0) as [->|Z].
  { rewrite (hat_ext n _ (fun l => cis (2 * PI * INR l * INR 0 / INR n))). rewrite hat_char by lia. destruct (Nat.eqb_spec 0 q); [lia|auto]. intros. cbn [INR]. rewrite Rmult_0_l, Rmult_0_r. unfold Rdiv. rewrite Rmult_0_l. unfold cis. now rewrite cos_0, sin_0. }
  rewrite (hat_ext n _ (fun l => Cplus (Cmult (RtoC (/ 2)) (cis (2 * PI * INR l * INR m / INR n))) (Cmult (RtoC (/ 2)) (cis (2 * PI * INR l * INR (n - m) / INR n))))).
  2:{ intros l Hl. rewrite cis_refl by lia. rewrite arg by lia. apply Ccos_split. }
  rewrite hat_lin, !hat_char by lia. destruct (Nat.eqb_spec (n - m) q); [lia|]. destruct (m =? q)%nat. unfold Rdiv. rewrite RtoC_mult. ring. ring.
Qed.
Lemma hat_sin : forall n m q, (1 <= q)%nat -> (2 * m < n)%nat -> (2 * q < n)%nat -> hat n (fun l => RtoC (sin (INR m * (2 * PI * INR l / INR n)))) q = if (m =? q)%nat then Cmult (Copp Ci) (RtoC (INR n / 2)) else RtoC 0.
Proof.
  intros n m q Hq Hm Hq2. destruct (Nat.eq_dec m 0) as [->|Z].
  { destruct (Nat.eqb_spec 0 q); [lia|]. unfold hat. apply (bsum_zero' CT). intros. cbn [INR]. rewrite Rmult_0_l, sin_0. ring. }
  rewrite (hat_ext n _ (fun l => Cplus (Cmult (Cmult (RtoC (- / 2)) Ci) (cis (2 * PI * INR l * INR m / INR n))) (Cmult (Cmult (RtoC (/ 2)) Ci) (cis (2 * PI * INR l * INR (n - m) / INR n))))).
  2:{ intros l Hl. rewrite cis_refl by lia. rewrite arg by lia. apply Csin_split. }
  rewrite hat_lin, !hat_char by lia. destruct (Nat.eqb_spec (n - m) q); [lia|]. destruct (m =? q)%nat. unfold Rdiv. rewrite RtoC_mult, RtoC_opp. ring. ring.
Qed.
Lemma hat_sum : forall n M (F : nat -> nat -> C) q, hat n (fun l => csum M (fun m => F m l)) q = csum M (fun m => hat n (F m) q).
Proof. intros. unfold hat. rewrite (bsum_swap CT). apply bsum_ext. intros l Hl. now rewrite (bsum_scal_r CT). Qed.
Lemma hat_trig : forall n M a b q, (1 <= q <= M)%nat -> (2 * M < n)%nat -> hat n (fun l => RtoC (trig M a b (2 * PI * INR l / INR n))) q = Cmult (Cminus (RtoC (a q)) (Cmult Ci (RtoC (b q)))) (RtoC (INR n / 2)).
Proof.
  intros n M a b q Hq HM. unfold trig. rewrite (hat_ext n _ (fun l => csum (S M) (fun m => Cplus (Cmult (RtoC (a m)) (RtoC (cos (INR m * (2 * PI * INR l / INR n))))) (Cmult (RtoC (b m)) (RtoC (sin (INR m * (2 * PI * INR l / INR n)))))))).
  2:{ intros l Hl. rewrite <- FFTProofs.csum_RtoC. apply bsum_ext. intros m Hm. now rewrite RtoC_plus, !RtoC_mult. }
  rewrite hat_sum. rewrite (bsum_ext (S M) _ (fun m => if (m =? q)%nat then Cmult (Cminus (RtoC (a m)) (Cmult Ci (RtoC (b m)))) (RtoC (INR n / 2)) else RtoC 0)).
  2:{ intros m Hm. rewrite hat_lin, hat_cos, hat_sin by lia. destruct (m =? q)%nat; ring. }
  now rewrite (bsum_delta_f CT (S M) q) by lia.
Qed.
Lemma trig_unique : forall n M a b q, (1 <= q <= M)%nat -> (2 * M < n)%nat -> (forall l, (l < n)%nat -> trig M a b (2 * PI * INR l / INR n) = 0) -> a q = 0 /\ b q = 0.
Proof.
  intros n M a b q Hq HM H. pose proof (hat_trig n M a b q Hq HM) as E. rewrite (hat_ext n _ (fun _ => RtoC 0)) in E by (intros; now rewrite H). unfold hat in E. rewrite (bsum_zero' CT) in E by (intros; ring).
  assert (P : 0 < INR n) by (apply lt_0_INR; lia). unfold Cminus, Cmult, Cplus, Copp, RtoC, Ci in E. cbn in E. injection E as E1 E2. split; nra.
Qed.
(** the kernel of the derivative *)
Lemma rd_kernel : forall n f, (1 <= n)%nat -> ((forall j, (j < n)%nat -> rd n f j = 0) <-> exists a d, (Nat.odd n = true -> d = 0) /\ forall l, (l < n)%nat -> f l = a + d * (-1) ^ l).
Proof.
  intros n f Hn. split.
  - intros H. destruct (interpolant_exists n f Hn) as (M & a & b & d & I). exists (a 0%nat), d. destruct I as (I1 & I2 & I3). split; auto. intros l Hl. rewrite I3 by auto. f_equal.
    assert (K : forall q, (1 <= q <= M)%nat -> INR q * b q = 0 /\ - (INR q * a q) = 0).
    { intros q Hq. apply (trig_unique n M (fun m => INR m * b m) (fun m => - (INR m * a m)) q Hq I1). intros l' Hl'. rewrite <- (H l' Hl'). rewrite (interpolates_rd n M a b d f l') by (repeat split; auto). unfold trig, dtrig. apply bsum_ext. intros. ring. }
    unfold trig. rewrite (bsum_S_l RT). cbn [INR]. rewrite Rmult_0_l, cos_0, sin_0. rewrite (bsum_zero' RT). ring. intros i Hi. destruct (K (S i) ltac:(lia)) as [K1 K2]. assert (0 < INR (S i)) by (apply lt_0_INR; lia).
    assert (b (S i) = 0) by nra. assert (a (S i) = 0) by nra. rewrite H1, H2. ring.
  - intros (a & d & H1 & H2) j Hj. rewrite (interpolates_rd n 0 (fun _ => a) (fun _ => 0) d f j). unfold dtrig. cbn. ring.
    split; [lia|]. split; auto. intros l Hl. rewrite H2 by auto. unfold trig. cbn. rewrite !Rmult_0_l, cos_0. ring.
Qed.
Lemma rd_spectral : forall n f, (1 <= n)%nat -> spectral_derivative n 1 f (rd n f).
Proof.
  intros n f Hn. destruct (interpolant_exists n f Hn) as (M & a & b & d & I). exists M, a, b, d. split; auto. intros l Hl. rewrite (interpolates_rd n M a b d f l I), Rdiv_1. apply trig_derive.
Qed.
(** rotation *)
Lemma hat_roll : forall n s f q, (1 <= n)%nat -> hat n (fun l => RtoC (rollv n s f l)) q = Cmult (phase n s q) (hat n (fun l => RtoC (f l)) q).
Proof.
  intros n s f m Hn. assert (N := INR_nz n Hn). unfold hat.
  rewrite <- (bsum_rot CT n s (fun j => Cmult (RtoC (rollv n s f j)) (cis (- (2 * PI * INR j * INR m / INR n))))).
  rewrite <- (bsum_scal_l CT). apply bsum_ext.
  intros j Hj. unfold rollv. rewrite roll_cancel, (Nat.mod_small j n) by lia. rewrite cis_mod_neg by auto. rewrite plus_INR.
  replace (- (2 * PI * (INR j + INR s) * INR m / INR n)) with (- (2 * PI * INR j * INR m / INR n) + - (2 * PI * INR s * INR m / INR n)) by (field; auto). rewrite cis_add. unfold phase. ring.
Qed.
Lemma rd_roll : forall n s f j, (1 <= n)%nat -> rd n (rollv n s f) j = rollv n s (rd n f) j.
Proof.
  intros n s f j Hn. assert (N := INR_nz n Hn). unfold rd, rollv at 2. unfold Dc. do 2 f_equal. apply bsum_ext. intros q Hq. rewrite hat_roll by auto. rewrite cis_mod by auto.
  assert (E : Cmult (phase n s q) (cis (2 * PI * INR j * INR q / INR n)) = cis (2 * PI * INR (j + (n - s mod n)) * INR q / INR n)).
  { unfold phase. rewrite <- cis_add. assert (s mod n < n)%nat by (apply Nat.mod_upper_bound; lia). rewrite plus_INR, minus_INR by lia.
    assert (Es : INR s = INR n * INR (s / n) + INR (s mod n)) by (rewrite <- mult_INR, <- plus_INR; f_equal; apply Nat.div_mod; lia).
    rewrite <- (cis_period _ ((1 + s / n) * q)). f_equal. rewrite mult_INR, plus_INR. cbn [INR]. rewrite Es. field. auto. }
  rewrite <- E. ring.
Qed.
