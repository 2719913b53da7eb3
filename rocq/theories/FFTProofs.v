(** The discrete Fourier transform: orthogonality and inversion. *)
From Coq Require Import List Arith Lia Bool Reals Lra.
From Coquelicot Require Import Coquelicot.
From Verif Require Import TensorModel BigSum FFTModel.
Import ListNotations.
Local Open Scope R_scope.

Lemma C_ext : forall x y : C, Re x = Re y -> Im x = Im y -> x = y.
Proof. intros [a b] [c d]; simpl; intros; congruence. Qed.
Lemma Cmult_conj : forall x y, Cconj (Cmult x y) = Cmult (Cconj x) (Cconj y).
Proof. intros. apply C_ext; simpl; ring. Qed.
Lemma cis_add : forall s t, cis (s + t) = Cmult (cis s) (cis t).
Proof. intros. unfold cis, Cmult; simpl. rewrite cos_plus, sin_plus. f_equal; ring. Qed.
Lemma cis_0 : cis 0 = RtoC 1.
Proof. unfold cis. rewrite cos_0, sin_0. auto. Qed.
Lemma cis_conj : forall t, Cconj (cis t) = cis (- t).
Proof. intros. unfold cis, Cconj; simpl. now rewrite cos_neg, sin_neg. Qed.
Lemma cis_period : forall t (k : nat), cis (t + 2 * INR k * PI) = cis t.
Proof. intros. unfold cis. now rewrite cos_period, sin_period. Qed.
Lemma cis_period_neg : forall t (k : nat), cis (t - 2 * INR k * PI) = cis t.
Proof. intros. rewrite <- (cis_period (t - _) k). f_equal. ring. Qed.
Lemma cis_2pik : forall k : nat, cis (2 * INR k * PI) = RtoC 1.
Proof. intros. rewrite <- (Rplus_0_l (2 * _ * _)), cis_period. apply cis_0. Qed.

Lemma cis_geom : forall n t, Cmult (Cminus (RtoC 1) (cis t)) (csum n (fun j => cis (INR j * t))) = Cminus (RtoC 1) (cis (INR n * t)).
Proof.
  induction n; intros t.
  - simpl. rewrite Rmult_0_l, cis_0. ring.
  - simpl bsum_. transitivity (Cplus (Cminus (RtoC 1) (cis (INR n * t))) (Cmult (Cminus (RtoC 1) (cis t)) (cis (INR n * t)))).
    rewrite <- IHn. ring.
    replace (INR (S n) * t) with (t + INR n * t) by (rewrite S_INR; ring). rewrite cis_add. ring.
Qed.

Lemma cis_neq1 : forall t, 0 < t < 2 * PI -> cis t <> RtoC 1.
Proof.
  intros t [H1 H2] E. assert (Hc : cos t = 1) by (apply (f_equal fst) in E; exact E).
  assert (Hs : sin (t / 2) = 0).
  { assert (cos t = 1 - 2 * sin (t/2) * sin (t/2)). { rewrite <- cos_2a_sin. f_equal. field. } nra. }
  assert (0 < sin (t / 2)) by (apply sin_gt_0; lra). lra.
Qed.

Lemma csum_conj : forall n f, Cconj (csum n f) = csum n (fun j => Cconj (f j)).
Proof.
  induction n; intros; simpl. unfold Cconj; simpl. now rewrite Ropp_0.
  rewrite <- IHn. apply C_ext; simpl; ring.
Qed.
Lemma csum_Re : forall n f, Re (csum n f) = rsum n (fun j => Re (f j)).
Proof. induction n; intros; simpl; auto. rewrite <- IHn. auto. Qed.
Lemma csum_Im : forall n f, Im (csum n f) = rsum n (fun j => Im (f j)).
Proof. induction n; intros; simpl; auto. rewrite <- IHn. auto. Qed.
Lemma csum_RtoC : forall n f, csum n (fun j => RtoC (f j)) = RtoC (rsum n f).
Proof. induction n; intros; simpl; auto. rewrite IHn. apply C_ext; simpl; ring. Qed.

Lemma dft_zero : forall n d, (0 < d < n)%nat -> csum n (fun j => cis (2 * PI * INR j * INR d / INR n)) = RtoC 0.
Proof.
  intros n d Hd. assert (Hn : INR n <> 0) by (apply not_0_INR; lia).
  set (t := 2 * PI * INR d / INR n).
  assert (Ht : 0 < t < 2 * PI).
  { assert (0 < INR d) by (apply lt_0_INR; lia). assert (INR d < INR n) by (apply lt_INR; lia). pose proof PI_RGT_0.
    unfold t. split. apply Rdiv_lt_0_compat; nra. apply Rmult_lt_reg_r with (INR n); [lra|].
    unfold Rdiv. rewrite Rmult_assoc, Rinv_l by lra. nra. }
  pose proof (cis_geom n t) as G. replace (INR n * t) with (2 * INR d * PI) in G by (unfold t; field; auto).
  rewrite cis_2pik in G. replace (Cminus (RtoC 1) (RtoC 1)) with (RtoC 0) in G by ring.
  assert (E : csum n (fun j => cis (2 * PI * INR j * INR d / INR n)) = csum n (fun j => cis (INR j * t))).
  { apply bsum_ext. intros j _. f_equal. unfold t. field; auto. }
  rewrite E. apply cis_neq1 in Ht.
  assert (Hz : Cminus (RtoC 1) (cis t) <> RtoC 0).
  { intros K. apply Ht. replace (cis t) with (Cminus (RtoC 1) (Cminus (RtoC 1) (cis t))) by ring. rewrite K. ring. }
  replace (csum n (fun j => cis (INR j * t))) with
    (Cmult (Cinv (Cminus (RtoC 1) (cis t))) (Cmult (Cminus (RtoC 1) (cis t)) (csum n (fun j => cis (INR j * t))))).
  rewrite G. ring. rewrite Cmult_assoc, Cinv_l by auto. ring.
Qed.

Lemma csum_const : forall n c, csum n (fun _ => c) = Cmult (RtoC (INR n)) c.
Proof.
  induction n; intros. simpl. ring. simpl bsum_. rewrite IHn, S_INR, RtoC_plus. ring.
Qed.

(** Orthogonality of the characters of Z/n. *)
Lemma dft_orth : forall n p q, (p < n)%nat -> (q < n)%nat ->
  csum n (fun j => Cmult (cis (2 * PI * INR j * INR p / INR n)) (cis (- (2 * PI * INR j * INR q / INR n)))) =
  if (p =? q)%nat then RtoC (INR n) else RtoC 0.
Proof.
  intros n p q Hp Hq. assert (Hn : INR n <> 0) by (apply not_0_INR; lia).
  destruct (Nat.eqb_spec p q) as [->|Hne].
  - transitivity (csum n (fun _ => RtoC 1)).
    apply bsum_ext. intros j _. rewrite <- cis_add, Rplus_opp_r. apply cis_0. rewrite csum_const. ring.
  - destruct (le_lt_dec q p).
    + transitivity (csum n (fun j => cis (2 * PI * INR j * INR (p - q) / INR n))); [|apply dft_zero; lia]. apply bsum_ext. intros j _. rewrite <- cis_add. f_equal.
      rewrite minus_INR by lia. field; auto.
    + assert (E : csum n (fun j => cis (2 * PI * INR j * INR (q - p) / INR n)) = RtoC 0) by (apply dft_zero; lia).
      apply (f_equal Cconj) in E. rewrite csum_conj in E.
      replace (Cconj (RtoC 0)) with (RtoC 0) in E by (apply C_ext; simpl; ring).
      eapply eq_trans; [|exact E]. apply bsum_ext. intros j _. rewrite cis_conj, <- cis_add. f_equal.
      rewrite minus_INR by lia. field; auto.
Qed.

Lemma scales : forall nm n, (1 <= n)%nat -> fwd_scale nm n * inv_scale nm n = / INR n.
Proof.
  intros nm n Hn. assert (0 < INR n) by (apply lt_0_INR; lia). destruct nm; simpl; try ring.
  rewrite <- Rinv_mult. now rewrite sqrt_sqrt by lra.
Qed.
Lemma fwd_scale_nz : forall nm n, (1 <= n)%nat -> fwd_scale nm n <> 0.
Proof.
  intros nm n Hn. assert (0 < INR n) by (apply lt_0_INR; lia). destruct nm; simpl. lra. apply Rinv_neq_0_compat; lra.
  apply Rinv_neq_0_compat. pose proof (sqrt_lt_R0 (INR n)). lra.
Qed.

(** The Hermitian extension of the spectrum of a real signal is its full spectrum. *)
Lemma torch_rfft_conj : forall nm n x k, (1 <= k)%nat -> (k < n)%nat -> Cconj (torch_rfft nm n x (n - k)) = torch_rfft nm n x k.
Proof.
  intros nm n x k H1 H2. unfold torch_rfft. assert (Hn : INR n <> 0) by (apply not_0_INR; lia).
  rewrite Cmult_conj, csum_conj.
  replace (Cconj (RtoC (fwd_scale nm n))) with (RtoC (fwd_scale nm n)) by (apply C_ext; simpl; ring). f_equal.
  apply bsum_ext. intros j _. rewrite Cmult_conj, cis_conj.
  replace (Cconj (RtoC (x j))) with (RtoC (x j)) by (apply C_ext; simpl; ring). f_equal.
  rewrite <- (cis_period (- (2 * PI * INR j * INR k / INR n)) j). f_equal. rewrite minus_INR by lia. field; auto.
Qed.

(** irfft after rfft *)
Lemma torch_irfft_rfft : forall nm n sz y x, (1 <= n)%nat -> (n / 2 + 1 <= sz)%nat ->
  (forall k, (k <= n / 2)%nat -> y k = torch_rfft nm n x k) ->
  forall j, (j < n)%nat -> torch_irfft nm sz n y j = x j.
Proof.
  intros nm n sz y x Hn Hs Hy j Hj. assert (Hn0 : INR n <> 0) by (apply not_0_INR; lia).
  assert (H2 : (n / 2 < n)%nat) by (apply Nat.div_lt; lia).
  assert (Hh : forall k, (k < n)%nat -> hermitian sz n y k = torch_rfft nm n x k).
  { intros k Hk. unfold hermitian. destruct (Nat.leb_spec k (n / 2)).
    - destruct (Nat.ltb_spec k sz); [|lia]. auto.
    - assert (n - k <= n / 2)%nat. { pose proof (Nat.div_mod n 2). pose proof (Nat.mod_upper_bound n 2). lia. }
      destruct (Nat.ltb_spec (n - k) sz); [|lia]. rewrite Hy by auto. apply torch_rfft_conj; lia. }
  unfold torch_irfft.
  assert (E : csum n (fun k => Cmult (hermitian sz n y k) (cis (2 * PI * INR j * INR k / INR n))) =
              Cmult (RtoC (fwd_scale nm n)) (RtoC (INR n * x j))).
  { transitivity (csum n (fun k => csum n (fun i => Cmult (Cmult (RtoC (fwd_scale nm n)) (RtoC (x i)))
        (Cmult (cis (2 * PI * INR k * INR j / INR n)) (cis (- (2 * PI * INR k * INR i / INR n))))))).
    - apply bsum_ext. intros k Hk. rewrite Hh by auto. unfold torch_rfft.
      rewrite <- !(bsum_scal_l CT), <- (bsum_scal_r CT). apply bsum_ext. intros i _.
      replace (2 * PI * INR k * INR j / INR n) with (2 * PI * INR j * INR k / INR n) by (field; auto).
      replace (2 * PI * INR k * INR i / INR n) with (2 * PI * INR i * INR k / INR n) by (field; auto). ring.
    - rewrite (bsum_swap CT).
      transitivity (csum n (fun i => if (i =? j)%nat then Cmult (Cmult (RtoC (fwd_scale nm n)) (RtoC (x i))) (RtoC (INR n)) else RtoC 0)).
      + apply bsum_ext. intros i Hi. rewrite (bsum_scal_l CT), dft_orth by auto. rewrite Nat.eqb_sym.
        destruct (i =? j)%nat; ring.
      + rewrite (bsum_delta_f CT n j (fun i => Cmult (Cmult (RtoC (fwd_scale nm n)) (RtoC (x i))) (RtoC (INR n)))) by auto.
        rewrite RtoC_mult. ring. }
  rewrite E, <- RtoC_mult. simpl. pose proof (scales nm n Hn).
  replace (inv_scale nm n * (fwd_scale nm n * (INR n * x j))) with ((fwd_scale nm n * inv_scale nm n) * INR n * x j) by ring.
  rewrite H. field; auto.
Qed.

(** Reindexing k -> (n - k) mod n. *)
Lemma csum_neg : forall n f, (1 <= n)%nat -> csum n (fun k => if (k =? 0)%nat then f 0%nat else f (n - k)%nat) = csum n f.
Proof.
  intros [|n] f Hn; [lia|]. rewrite !(bsum_S_l CT). simpl. f_equal. rewrite (bsum_rev CT n (fun i => f (S i))).
  apply bsum_ext. intros i Hi. f_equal. lia.
Qed.

(** A Hermitian spectrum has a real inverse transform. *)
Lemma herm_real : forall n H j, (1 <= n)%nat -> Im (H 0%nat) = 0 ->
  (forall k, (1 <= k)%nat -> (k < n)%nat -> H (n - k)%nat = Cconj (H k)) ->
  Im (csum n (fun k => Cmult (H k) (cis (2 * PI * INR j * INR k / INR n)))) = 0.
Proof.
  intros n H j Hn H0 Hc. assert (Hn0 : INR n <> 0) by (apply not_0_INR; lia).
  set (S := csum n (fun k => Cmult (H k) (cis (2 * PI * INR j * INR k / INR n)))).
  assert (E : Cconj S = S).
  { unfold S. rewrite csum_conj. rewrite <- (csum_neg n (fun k => Cmult (H k) (cis (2 * PI * INR j * INR k / INR n)))) by auto.
    apply bsum_ext. intros k Hk. rewrite Cmult_conj, cis_conj. destruct (Nat.eqb_spec k 0) as [->|].
    - f_equal. { unfold Im in H0. apply C_ext; unfold Re, Im; simpl; [ring|rewrite H0; ring]. } f_equal. simpl. field; auto.
    - rewrite Hc by lia. f_equal. rewrite <- (cis_period (- _) j). f_equal. rewrite minus_INR by lia. field; auto. }
  apply (f_equal Im) in E. destruct S as [a b]; simpl in *. lra.
Qed.

(** Forward DFT of the inverse transform of a Hermitian spectrum. *)
Lemma torch_rfft_inverse : forall nm n H q, (1 <= n)%nat -> (q < n)%nat -> Im (H 0%nat) = 0 ->
  (forall k, (1 <= k)%nat -> (k < n)%nat -> H (n - k)%nat = Cconj (H k)) ->
  torch_rfft nm n (fun j => inv_scale nm n * Re (csum n (fun k => Cmult (H k) (cis (2 * PI * INR j * INR k / INR n))))) q = H q.
Proof.
  intros nm n H q Hn Hq H0 Hc. assert (Hn0 : INR n <> 0) by (apply not_0_INR; lia). unfold torch_rfft.
  transitivity (Cmult (RtoC (fwd_scale nm n * inv_scale nm n)) (csum n (fun j => csum n (fun k => Cmult (H k)
      (Cmult (cis (2 * PI * INR j * INR k / INR n)) (cis (- (2 * PI * INR j * INR q / INR n)))))))).
  - rewrite RtoC_mult, <- Cmult_assoc. f_equal. rewrite <- (bsum_scal_l CT). apply bsum_ext. intros j _.
    set (S := csum n (fun k => Cmult (H k) (cis (2 * PI * INR j * INR k / INR n)))).
    assert (HS : RtoC (Re S) = S) by (apply C_ext; simpl; auto; symmetry; apply herm_real; auto).
    rewrite RtoC_mult, HS, <- Cmult_assoc. f_equal. unfold S. rewrite <- (bsum_scal_r CT). apply bsum_ext. intros; ring.
  - rewrite (bsum_swap CT).
    transitivity (Cmult (RtoC (/ INR n)) (csum n (fun k => if (k =? q)%nat then Cmult (H k) (RtoC (INR n)) else RtoC 0))).
    + rewrite scales by auto. f_equal. apply bsum_ext. intros k Hk. rewrite (bsum_scal_l CT), dft_orth by auto.
      destruct (k =? q)%nat; ring.
    + rewrite (bsum_delta_f CT n q (fun k => Cmult (H k) (RtoC (INR n)))) by auto.
      replace (Cmult (RtoC (/ INR n)) (Cmult (H q) (RtoC (INR n)))) with (Cmult (RtoC (/ INR n * INR n)) (H q)) by (rewrite RtoC_mult; ring).
      rewrite Rinv_l by auto. ring.
Qed.

(** ** The wrappers *)
Lemma rfft_bins : forall nm q n x k, (k < q)%nat ->
  snd (rfft nm (Some q) n x) k = if (k <=? n / 2)%nat then torch_rfft nm n x k else RtoC 0.
Proof.
  intros nm q n x k Hk. unfold rfft, torch_rfft_size, pad_dim_right. destruct (Nat.ltb_spec (n / 2 + 1) q); cbn [snd].
  - destruct (Nat.ltb_spec k (n / 2 + 1)), (Nat.leb_spec k (n / 2)); auto; lia.
  - destruct (Nat.leb_spec k (n / 2)); [|lia]. destruct (q <? n / 2 + 1)%nat; auto.
Qed.

Lemma hermitian_scaled : forall sz n x, (1 <= n)%nat ->
  let y := fun k => (Re (x k), Im (x k) * imag_scale sz n k) : C in
  Im (hermitian sz n y 0) = 0 /\
  (forall k, (1 <= k)%nat -> (k < n)%nat -> hermitian sz n y (n - k) = Cconj (hermitian sz n y k)).
Proof.
  intros sz n x Hn y. split.
  - unfold hermitian. destruct (0 <=? n / 2)%nat eqn:E; [|apply Nat.leb_gt in E; lia].
    destruct (0 <? sz)%nat; simpl; auto. unfold imag_scale. destruct (Nat.eqb_spec 0 0); [|lia].
    destruct (_ && _); [destruct (0 =? n/2)%nat|]; simpl; ring.
  - intros k H1 H2. unfold hermitian. pose proof (Nat.div_mod n 2 ltac:(lia)). pose proof (Nat.mod_upper_bound n 2 ltac:(lia)).
    assert (CC : forall z : C, Cconj (Cconj z) = z) by (intros [a b]; apply C_ext; simpl; ring).
    destruct (Nat.leb_spec k (n / 2)); destruct (Nat.leb_spec (n - k) (n / 2)).
    + (* both at most n/2: the Nyquist bin *)
      assert (k = n / 2)%nat by lia. assert (n mod 2 = 0)%nat by lia. assert (Ek : (n - k = k)%nat) by lia. rewrite Ek.
      destruct (Nat.ltb_spec k sz); simpl.
      * unfold y. unfold imag_scale. rewrite H6. destruct (Nat.ltb_spec (n / 2) sz); [|lia]. cbn [andb Nat.eqb].
        destruct (Nat.eqb_spec k (n / 2)); [|lia]. apply C_ext; simpl; ring.
      * apply C_ext; simpl; ring.
    + replace (n - (n - k))%nat with k by lia. auto.
    + rewrite CC. auto.
    + lia.
Qed.

(** rfft inverts irfft on spectra of at most n/2+1 modes, up to the imaginary
    parts the wrapper removes. *)
Lemma rfft_irfft : forall nm n sz q x k, (1 <= n)%nat -> (sz <= n / 2 + 1)%nat -> (k < q)%nat ->
  snd (rfft nm (Some q) n (irfft nm (Some n) sz x)) k =
  if (k <? sz)%nat then (Re (x k), Im (x k) * imag_scale sz n k) else RtoC 0.
Proof.
  intros nm n sz q x k Hn Hs Hk. rewrite rfft_bins by auto.
  set (y := fun k => (Re (x k), Im (x k) * imag_scale sz n k) : C).
  destruct (hermitian_scaled sz n x Hn) as [A B]. fold y in A, B.
  destruct (Nat.leb_spec k (n / 2)).
  - assert (k < n)%nat. { destruct (Nat.eq_dec n 1) as [->|]. simpl in *; lia. assert (n / 2 < n)%nat by (apply Nat.div_lt; lia). lia. }
    unfold irfft, irfft_with, irfft_n, torch_irfft. fold y. rewrite torch_rfft_inverse by auto.
    unfold hermitian. destruct (Nat.leb_spec k (n / 2)); [|lia]. reflexivity.
  - destruct (Nat.ltb_spec k sz); auto. lia.
Qed.

Lemma irfft_rfft : forall nm n q x j, (1 <= n)%nat -> (n / 2 + 1 <= q)%nat -> (j < n)%nat ->
  irfft nm (Some n) q (snd (rfft nm (Some q) n x)) j = x j.
Proof.
  intros nm n q x j Hn Hq Hj. unfold irfft, irfft_with, irfft_n.
  assert (Hn0 : INR n <> 0) by (apply not_0_INR; lia).
  apply (torch_irfft_rfft nm n q); auto. intros k Hk. rewrite rfft_bins by lia.
  destruct (Nat.leb_spec k (n / 2)); [|lia]. apply C_ext; [reflexivity|].
  change (Im (torch_rfft nm n x k) * imag_scale q n k = Im (torch_rfft nm n x k)). unfold imag_scale. pose proof (Nat.div_mod n 2 ltac:(lia)).
  assert (R0 : Im (torch_rfft nm n x 0) = 0).
  { unfold torch_rfft. rewrite <- (bsum_scal_l CT), csum_Im. apply (bsum_zero' RT). intros i Hi.
    replace (- (2 * PI * INR i * INR 0 / INR n)) with 0 by (simpl; field; auto). rewrite cis_0. simpl. ring. }
  destruct (Nat.eqb_spec k 0) as [->|].
  - rewrite R0. destruct (_ && _); [destruct (0 =? n / 2)%nat|]; ring.
  - destruct (Nat.eqb_spec (n mod 2) 0), (Nat.ltb_spec (n / 2) q); cbn [andb]; try ring.
    destruct (Nat.eqb_spec k (n / 2)); try ring. rewrite Rmult_0_r.
    assert (E : Cconj (torch_rfft nm n x (n - k)) = torch_rfft nm n x k) by (apply torch_rfft_conj; lia).
    replace (n - k)%nat with k in E by lia. apply (f_equal Im) in E. destruct (torch_rfft nm n x k); simpl in *; lra.
Qed.

(** Any backend that is right on Hermitian-consistent spectra gives the same result. *)
Lemma irfft_backend : forall nm backend n sz x,
  (1 <= n)%nat ->
  (forall y j, Im (y 0%nat) = 0 -> ((n mod 2 = 0)%nat -> (n / 2 < sz)%nat -> Im (y (n / 2)%nat) = 0) -> (j < n)%nat ->
     backend sz n y j = torch_irfft nm sz n y j) ->
  forall j, (j < n)%nat -> irfft_with backend (Some n) sz x j = irfft nm (Some n) sz x j.
Proof.
  intros nm backend n sz x Hn H j Hj. unfold irfft, irfft_with, irfft_n. apply H; auto; cbn [Im snd]; unfold imag_scale.
  - destruct (_ && _); [destruct (0 =? n / 2)%nat|]; simpl; ring.
  - intros E L. rewrite E. destruct (Nat.ltb_spec (n / 2) sz); [|lia]. cbn [andb Nat.eqb].
    destruct (Nat.eqb_spec (n / 2) (n / 2)); [ring|lia].
Qed.

(** Only the real part of the zero bin and of the Nyquist bin matters. *)
Lemma irfft_ignores : forall nm n sz x y j, (1 <= n)%nat ->
  (forall k, (k < sz)%nat -> Re (x k) = Re (y k)) ->
  (forall k, (k < sz)%nat -> k <> 0%nat -> (2 * k <> n)%nat -> Im (x k) = Im (y k)) ->
  irfft nm (Some n) sz x j = irfft nm (Some n) sz y j.
Proof.
  intros nm n sz x y j Hn HR HI. unfold irfft, irfft_with, irfft_n, torch_irfft. f_equal. f_equal. apply bsum_ext.
  pose proof (Nat.div_mod n 2 ltac:(lia)). pose proof (Nat.mod_upper_bound n 2 ltac:(lia)).
  assert (G : forall k, (k < sz)%nat -> (Re (x k), Im (x k) * imag_scale sz n k) = (Re (y k), Im (y k) * imag_scale sz n k)).
  { intros k Hk. f_equal; auto. unfold imag_scale. destruct (Nat.eqb_spec k 0).
    - destruct (_ && _); [destruct (k =? n / 2)%nat|]; ring.
    - destruct (Nat.eqb_spec (n mod 2) 0), (Nat.ltb_spec (n / 2) sz); cbn [andb];
      try (destruct (Nat.eqb_spec k (n / 2)); [ring|]); rewrite HI; auto; lia. }
  intros k Hk. f_equal. unfold hermitian. destruct (k <=? n / 2)%nat.
  - destruct (Nat.ltb_spec k sz); auto.
  - destruct (Nat.ltb_spec (n - k) sz); auto. now rewrite G.
Qed.
