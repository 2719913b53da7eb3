From Coq Require Import List Arith Lia Bool Reals Lra.
From Coquelicot Require Import Coquelicot.
From Verif Require Import TensorModel BigSum FFTModel FFTProofs RealFFT2Model RealFFT2Spec.
Import ListNotations.
Local Open Scope R_scope.

Lemma rsum_scal_div : forall n c f, rsum n (fun i => f i / c) = rsum n f / c.
Proof. intros. unfold Rdiv. apply (bsum_scal_r RT). Qed.

(** The two one-dimensional transforms give the double sum. *)
Lemma rfft2_dft2 : forall h w x k m, (1 <= h)%nat -> (1 <= w)%nat ->
  torch_fft NOrtho h (fun i => torch_rfft NOrtho w (x i) m) k = dft2 h w x k m.
Proof.
  intros h w x k m Hh Hw. assert (h0 : 0 < INR h) by (apply lt_0_INR; lia). assert (w0 : 0 < INR w) by (apply lt_0_INR; lia).
  assert (s1 : 0 < sqrt (INR h)) by (apply sqrt_lt_R0; lra). assert (s2 : 0 < sqrt (INR w)) by (apply sqrt_lt_R0; lra).
  transitivity (Cmult (RtoC (/ sqrt (INR h) * / sqrt (INR w))) (csum h (fun i => csum w (fun j =>
     Cmult (RtoC (x i j)) (cis (- (2 * PI * (INR i * INR k / INR h + INR j * INR m / INR w)))))))).
  - unfold torch_fft, torch_rfft. simpl fwd_scale. rewrite RtoC_mult, <- Cmult_assoc. f_equal.
    rewrite <- (bsum_scal_l CT). apply bsum_ext. intros i _. rewrite <- Cmult_assoc. f_equal.
    rewrite <- (bsum_scal_r CT). apply bsum_ext. intros j _. rewrite <- Cmult_assoc. f_equal.
    rewrite <- cis_add. f_equal. field. lra.
  - unfold dft2. rewrite sqrt_mult by lra.
    assert (ER : forall f, Re (Cmult (RtoC (/ sqrt (INR h) * / sqrt (INR w))) f) = Re f / (sqrt (INR h) * sqrt (INR w))).
    { intros [a b]; simpl. field. lra. }
    assert (EI : forall f, Im (Cmult (RtoC (/ sqrt (INR h) * / sqrt (INR w))) f) = Im f / (sqrt (INR h) * sqrt (INR w))).
    { intros [a b]; simpl. field. lra. }
    apply C_ext.
    + rewrite ER, csum_Re. simpl Re. f_equal. apply bsum_ext. intros i _. rewrite csum_Re. apply bsum_ext. intros j _.
      simpl. rewrite cos_neg. ring.
    + rewrite EI, csum_Im. simpl Im. f_equal. rewrite <- (bsum_opp RT). apply bsum_ext. intros i _. rewrite csum_Im.
      rewrite <- (bsum_opp RT). apply bsum_ext. intros j _. simpl. rewrite sin_neg. ring.
Qed.

(** Row k of the transform of the whole field. *)
Lemma rfft2_length : forall nm h w x, length (torch_rfft2 nm h w x) = h.
Proof. intros. unfold torch_rfft2. now rewrite map_length, seq_length. Qed.
Lemma rfft2_nth : forall h w x k d, (1 <= w)%nat -> (k < h)%nat ->
  forall m, nth k (torch_rfft2 NOrtho h w x) d m = dft2 h w x k m.
Proof.
  intros h w x k d Hw Hk m. unfold torch_rfft2.
  set (f := fun (k m : nat) => torch_fft NOrtho h (fun i => torch_rfft NOrtho w (x i) m) k).
  rewrite (nth_indep _ d (f 0%nat)) by (now rewrite map_length, seq_length).
  rewrite (map_nth f), seq_nth by auto. apply rfft2_dft2; lia.
Qed.

(** Complex inversion along the latitudes. *)
Lemma torch_ifft_fft : forall nm n y x, (1 <= n)%nat -> (forall k, (k < n)%nat -> y k = torch_fft nm n x k) ->
  forall i, (i < n)%nat -> torch_ifft nm n y i = x i.
Proof.
  intros nm n y x Hn Hy i Hi. assert (Hn0 : INR n <> 0) by (apply not_0_INR; lia).
  unfold torch_ifft.
  transitivity (Cmult (RtoC (inv_scale nm n)) (csum n (fun k => csum n (fun p => Cmult (Cmult (RtoC (fwd_scale nm n)) (x p))
     (Cmult (cis (2 * PI * INR k * INR i / INR n)) (cis (- (2 * PI * INR k * INR p / INR n)))))))).
  - f_equal. apply bsum_ext. intros k Hk. rewrite Hy by auto. unfold torch_fft.
    rewrite <- !(bsum_scal_l CT), <- (bsum_scal_r CT). apply bsum_ext. intros p _.
    replace (2 * PI * INR k * INR i / INR n) with (2 * PI * INR i * INR k / INR n) by (field; auto).
    replace (2 * PI * INR k * INR p / INR n) with (2 * PI * INR p * INR k / INR n) by (field; auto). ring.
  - rewrite (bsum_swap CT).
    transitivity (Cmult (RtoC (inv_scale nm n)) (csum n (fun p => if (p =? i)%nat then Cmult (Cmult (RtoC (fwd_scale nm n)) (x p)) (RtoC (INR n)) else RtoC 0))).
    + f_equal. apply bsum_ext. intros p Hp. rewrite (bsum_scal_l CT), dft_orth by auto. rewrite Nat.eqb_sym.
      destruct (p =? i)%nat; ring.
    + rewrite (bsum_delta_f CT n i (fun p => Cmult (Cmult (RtoC (fwd_scale nm n)) (x p)) (RtoC (INR n)))) by auto.
      replace (Cmult (RtoC (inv_scale nm n)) (Cmult (Cmult (RtoC (fwd_scale nm n)) (x i)) (RtoC (INR n))))
        with (Cmult (RtoC ((fwd_scale nm n * inv_scale nm n) * INR n)) (x i)) by (rewrite !RtoC_mult; ring).
      rewrite scales, Rinv_l by auto. ring.
Qed.

(** Missing longitude bins count as zeros. *)
Lemma torch_irfft_pad : forall nm sz n y j, (sz <= n / 2 + 1)%nat ->
  torch_irfft nm sz n y j = torch_irfft nm (n / 2 + 1) n (fun k => if (k <? sz)%nat then y k else RtoC 0) j.
Proof.
  intros nm sz n y j Hs. unfold torch_irfft. f_equal. f_equal. apply bsum_ext. intros k Hk. f_equal. unfold hermitian.
  pose proof (Nat.div_mod n 2). pose proof (Nat.mod_upper_bound n 2).
  destruct (Nat.leb_spec k (n / 2)).
  - destruct (Nat.ltb_spec k (n / 2 + 1)); [auto|lia].
  - destruct (Nat.ltb_spec (n - k) (n / 2 + 1)); [auto|lia].
Qed.

(** The kept rows. *)
Lemma half_split : forall n, ((n + 1) / 2 + n / 2 = n)%nat.
Proof.
  intros. pose proof (Nat.div_mod n 2). pose proof (Nat.mod_upper_bound n 2).
  pose proof (Nat.div_mod (n + 1) 2). pose proof (Nat.mod_upper_bound (n + 1) 2). lia.
Qed.
Lemma neg_tail_skipn : forall A k (l : list A), (1 <= k)%nat -> neg_tail k l = skipn (length l - k) l.
Proof. intros. unfold neg_tail. destruct (Nat.eqb_spec k 0); [lia|auto]. Qed.

Lemma nth_skipn' : forall A n (l : list A) i d, nth i (skipn n l) d = nth (n + i) l d.
Proof. induction n; intros; destruct l; simpl; auto. destruct i; auto. Qed.
Lemma nth_firstn' : forall A n (l : list A) i d, (i < n)%nat -> nth i (firstn n l) d = nth i l d.
Proof. induction n; intros; destruct l; simpl; auto. lia. destruct i; auto. apply IHn. lia. Qed.

Lemma kept_rows : forall A (l : list A) lmax, (2 <= lmax <= length l)%nat ->
  length (firstn ((lmax + 1) / 2) l ++ neg_tail (lmax / 2) l) = lmax /\
  forall r d, (r < lmax)%nat ->
    nth r (firstn ((lmax + 1) / 2) l ++ neg_tail (lmax / 2) l) d = nth (row_freq lmax (length l) r) l d.
Proof.
  intros A l lmax H. pose proof (half_split lmax) as HS.
  assert (1 <= lmax / 2)%nat by (apply (Nat.div_le_mono 2 lmax 2); lia).
  rewrite neg_tail_skipn by auto. split.
  - rewrite app_length, firstn_length, skipn_length. lia.
  - intros r d Hr. unfold row_freq. pose proof (Nat.div_mod lmax 2). pose proof (Nat.mod_upper_bound lmax 2).
    pose proof (Nat.div_mod (lmax + 1) 2). pose proof (Nat.mod_upper_bound (lmax + 1) 2).
    destruct (Nat.ltb_spec (2 * r) (lmax + lmax mod 2)).
    + rewrite app_nth1 by (rewrite firstn_length; lia). apply nth_firstn'. lia.
    + rewrite app_nth2 by (rewrite firstn_length; lia). rewrite nth_skipn', firstn_length. f_equal. lia.
Qed.

(** With lmax = nlat the first nlat rows are those of the transform. *)
Lemma all_rows : forall A (l : list A) r d, (r < length l)%nat ->
  nth r (firstn ((length l + 1) / 2) l ++ neg_tail (length l / 2) l) d = nth r l d.
Proof.
  intros A l r d Hr. destruct (le_lt_dec 2 (length l)).
  - rewrite (proj2 (kept_rows A l (length l) (conj l0 (le_n _)))) by auto. f_equal. unfold row_freq.
    destruct (_ <? _)%nat; lia.
  - destruct l as [|a [|b l]]; simpl in *; try lia. destruct r; [reflexivity|lia].
Qed.

Lemma realfft2_entries : forall nlat nlon lmax mmax x,
  (1 <= nlon)%nat -> (2 <= lmax <= nlat)%nat -> (1 <= mmax <= nlon / 2 + 1)%nat ->
  let y := realfft2 (fft2_init nlat nlon (Some lmax) (Some mmax)) nlat nlon x in
  fst y = mmax /\ length (snd y) = lmax /\
  forall r m d, (r < lmax)%nat -> (m < mmax)%nat -> nth r (snd y) d m = dft2 nlat nlon x (row_freq lmax nlat r) m.
Proof.
  intros nlat nlon lmax mmax x Hw Hl Hm y.
  assert (El : f_lmax (fft2_init nlat nlon (Some lmax) (Some mmax)) = lmax) by (destruct lmax; [lia|reflexivity]).
  assert (Em : f_mmax (fft2_init nlat nlon (Some lmax) (Some mmax)) = mmax) by (destruct mmax; [lia|reflexivity]).
  subst y. unfold realfft2. rewrite El, Em. cbn [fst snd]. unfold torch_rfft_size.
  pose proof (kept_rows _ (torch_rfft2 NOrtho nlat nlon x) lmax) as K. rewrite rfft2_length in K.
  destruct (K Hl) as [K1 K2]. split; [lia|]. split; [exact K1|].
  intros r m d Hr Hm'. rewrite K2 by auto. apply rfft2_nth; auto. unfold row_freq. destruct (_ <? _)%nat; lia.
Qed.

Lemma realfft2_round_trip : forall nlat nlon lmax mmax lmax' mmax' x,
  (1 <= nlat)%nat -> (1 <= nlon)%nat ->
  or_default lmax nlat = nlat ->
  lon_limited (or_default mmax (nlon / 2 + 1)) nlat nlon x ->
  forall i j, (i < nlat)%nat -> (j < nlon)%nat ->
  inverse_realfft2 (fft2_init nlat nlon lmax' mmax') (realfft2 (fft2_init nlat nlon lmax mmax) nlat nlon x) i j = x i j.
Proof.
  intros nlat nlon lmax mmax lmax' mmax' x Hh Hw El Lim i j Hi Hj.
  unfold inverse_realfft2, realfft2. cbn [f_nlat f_nlon f_lmax f_mmax fft2_init fst snd]. rewrite El.
  set (M := or_default mmax (nlon / 2 + 1)) in *. unfold torch_irfft2, torch_rfft_size.
  rewrite torch_irfft_pad by lia.
  apply torch_irfft_rfft; auto. intros m Hm.
  assert (B : torch_ifft NOrtho nlat (fun k => nth k (firstn ((nlat + 1) / 2) (torch_rfft2 NOrtho nlat nlon x) ++
      neg_tail (nlat / 2) (torch_rfft2 NOrtho nlat nlon x)) (fun _ => RtoC 0) m) i = torch_rfft NOrtho nlon (x i) m).
  { apply (torch_ifft_fft NOrtho nlat _ (fun i => torch_rfft NOrtho nlon (x i) m)); auto. intros k Hk.
    pose proof (all_rows _ (torch_rfft2 NOrtho nlat nlon x) k (fun _ => RtoC 0)) as A. rewrite rfft2_length in A.
    rewrite A by auto. rewrite rfft2_nth by auto. symmetry. apply rfft2_dft2; auto. }
  destruct (Nat.ltb_spec m (Nat.min M (nlon / 2 + 1))); [exact B|].
  (* a longitude bin that was dropped is zero in every row of the field *)
  symmetry. rewrite <- (torch_ifft_fft NOrtho nlat (fun _ => RtoC 0) (fun i => torch_rfft NOrtho nlon (x i) m) Hh); auto.
  - unfold torch_ifft. rewrite (bsum_zero' CT). ring. intros; ring.
  - intros k Hk. rewrite rfft2_dft2 by auto. symmetry. apply Lim; auto. lia.
Qed.

(** lmax = 1: the slice -0: keeps everything. *)
Lemma realfft2_lmax_one : forall nlat nlon mmax x, (1 <= nlat)%nat ->
  length (snd (realfft2 (fft2_init nlat nlon (Some 1%nat) mmax) nlat nlon x)) = (nlat + 1)%nat.
Proof.
  intros. unfold realfft2. simpl f_lmax. cbn [snd]. change ((1 + 1) / 2)%nat with 1%nat. change (1 / 2)%nat with 0%nat.
  unfold neg_tail. rewrite Nat.eqb_refl, app_length, firstn_length, rfft2_length. lia.
Qed.

(** ** Truncation in latitude: the counterexample *)
Definition cos_field (i j : nat) : R := match i with 0%nat => 1 | 2%nat => -1 | _ => 0 end.

Lemma ang_cis : forall t (q : nat), t = INR q * (PI / 2) ->
  cis t = match (q mod 4)%nat with 0%nat => RtoC 1 | 1%nat => Ci | 2%nat => RtoC (-1) | _ => Copp Ci end.
Proof.
  intros t q E. assert (H : (q = 4 * (q / 4) + q mod 4)%nat) by (apply Nat.div_mod; lia).
  assert (B : (q mod 4 < 4)%nat) by (apply Nat.mod_upper_bound; lia).
  assert (E2 : t = INR (q mod 4) * (PI / 2) + 2 * INR (q / 4) * PI).
  { rewrite E, H at 1. rewrite plus_INR, mult_INR. simpl (INR 4). field. }
  rewrite E2, cis_period. clear E E2 H.
  destruct (q mod 4)%nat as [|[|[|[|?]]]]; [| | | |lia]; unfold cis.
  - simpl. rewrite Rmult_0_l, cos_0, sin_0. reflexivity.
  - simpl. rewrite Rmult_1_l, cos_PI2, sin_PI2. reflexivity.
  - replace (INR 2 * (PI / 2)) with PI by (simpl; field). rewrite cos_PI, sin_PI. reflexivity.
  - replace (INR 3 * (PI / 2)) with (3 * (PI / 2)) by (simpl; field). rewrite cos_3PI2, sin_3PI2. apply C_ext; simpl; ring.
Qed.

Lemma cos_field_dft : forall k, dft2 4 1 cos_field k 0 = ((1 - cos (INR k * PI)) / 2, sin (INR k * PI) / 2).
Proof.
  intros k. unfold dft2. assert (S : sqrt (INR 4 * INR 1) = 2).
  { replace (INR 4 * INR 1) with (2 * 2) by (simpl; ring). apply sqrt_square. lra. }
  rewrite S. cbn [bsum_ cos_field].
  replace (2 * PI * (INR 0 * INR k / INR 4 + INR 0 * INR 0 / INR 1)) with 0 by (simpl; field).
  replace (2 * PI * (INR 2 * INR k / INR 4 + INR 0 * INR 0 / INR 1)) with (INR k * PI) by (simpl; field).
  rewrite cos_0, sin_0. f_equal; field.
Qed.

Lemma cos_kPI : forall k, cos (INR k * PI) = if Nat.even k then 1 else -1.
Proof.
  induction k. simpl. now rewrite Rmult_0_l, cos_0.
  rewrite S_INR, Rmult_plus_distr_r, Rmult_1_l, neg_cos, IHk, Nat.even_succ, <- Nat.negb_even. destruct (Nat.even k); simpl; ring.
Qed.
Lemma sin_kPI : forall k, sin (INR k * PI) = 0.
Proof.
  induction k. simpl. now rewrite Rmult_0_l, sin_0.
  rewrite S_INR, Rmult_plus_distr_r, Rmult_1_l, neg_sin, IHk. ring.
Qed.

Lemma cos_field_vals : forall k, dft2 4 1 cos_field k 0 = RtoC (if Nat.even k then 0 else 1).
Proof. intros k. rewrite cos_field_dft, cos_kPI, sin_kPI. destruct (Nat.even k); apply C_ext; simpl; field. Qed.

Lemma realfft2_truncation :
  (forall k, (k < 4)%nat -> (forall r, (r < 3)%nat -> row_freq 3 4 r <> k) -> forall m, (m <= 1 / 2)%nat -> dft2 4 1 cos_field k m = RtoC 0) /\
  cos_field 1 0 = 0 /\
  inverse_realfft2 (fft2_init 4 1 (Some 3%nat) None) (realfft2 (fft2_init 4 1 (Some 3%nat) None) 4 1 cos_field) 1 0 = - (1 / 2).
Proof.
  split; [|split; [reflexivity|]].
  - intros k Hk Hr m Hm. change (1 / 2)%nat with 0%nat in Hm. assert (m = 0)%nat as -> by lia.
    rewrite cos_field_vals. destruct k as [|[|[|[|k]]]]; try lia; try reflexivity.
    + exfalso; apply (Hr 1%nat); [lia|reflexivity].
    + exfalso; apply (Hr 2%nat); [lia|reflexivity].
  - assert (E := realfft2_entries 4 1 3 1 cos_field). cbv zeta in E.
    change (fft2_init 4 1 (Some 3%nat) None) with (fft2_init 4 1 (Some 3%nat) (Some 1%nat)).
    set (y := realfft2 (fft2_init 4 1 (Some 3%nat) (Some 1%nat)) 4 1 cos_field) in *.
    destruct E as (E1 & E2 & E3); [lia|lia|simpl; lia|].
    unfold inverse_realfft2, torch_irfft2. cbn [f_nlat f_nlon fft2_init]. rewrite E1.
    unfold torch_irfft, hermitian, torch_ifft. cbn [bsum_].
    change (0 <=? 1 / 2)%nat with true. change (0 <? 1)%nat with true. cbv iota.
    rewrite (E3 0%nat 0%nat) by lia. rewrite (E3 1%nat 0%nat) by lia. rewrite (E3 2%nat 0%nat) by lia.
    rewrite (nth_overflow (snd y)) by lia.
    change (row_freq 3 4 0) with 0%nat. change (row_freq 3 4 1) with 1%nat. change (row_freq 3 4 2) with 3%nat.
    rewrite !cos_field_vals. cbn [Nat.even].
    rewrite (ang_cis (2 * PI * INR 1 * INR 0 / INR 4) 0) by (simpl; field).
    rewrite (ang_cis (2 * PI * INR 1 * INR 1 / INR 4) 1) by (simpl; field).
    rewrite (ang_cis (2 * PI * INR 1 * INR 2 / INR 4) 2) by (simpl; field).
    rewrite (ang_cis (2 * PI * INR 1 * INR 3 / INR 4) 3) by (simpl; field).
    rewrite (ang_cis (2 * PI * INR 0 * INR 0 / INR 1) 0) by (simpl; field).
    change (0 mod 4)%nat with 0%nat. change (1 mod 4)%nat with 1%nat. change (2 mod 4)%nat with 2%nat. change (3 mod 4)%nat with 3%nat.
    cbv iota. unfold inv_scale.
    assert (S4 : sqrt (INR 4) = 2). { replace (INR 4) with (2 * 2) by (simpl; ring). apply sqrt_square. lra. }
    assert (S1 : sqrt (INR 1) = 1) by (simpl; apply sqrt_1). rewrite S4, S1. simpl. field.
Qed.

(** A field that does not depend on the longitude. *)
Lemma zonal_limited : forall h w f, (1 <= h)%nat -> (1 <= w)%nat -> lon_limited 1 h w (fun i _ => f i).
Proof.
  intros h w f Hh Hw k m Hk Hm. rewrite <- rfft2_dft2 by auto.
  assert (m < w)%nat by (pose proof (Nat.div_lt w 2); lia).
  unfold torch_fft. rewrite (bsum_zero' CT); [ring|]. intros i _. unfold torch_rfft.
  rewrite (bsum_scal_l CT). pose proof (dft_zero w m ltac:(lia)) as E. apply (f_equal Cconj) in E. rewrite csum_conj in E.
  replace (csum w (fun j => cis (- (2 * PI * INR j * INR m / INR w)))) with (RtoC 0); [ring|].
  replace (RtoC 0) with (Cconj (RtoC 0)) at 1 by (apply C_ext; simpl; ring). rewrite <- E.
  apply bsum_ext. intros j _. now rewrite cis_conj.
Qed.
