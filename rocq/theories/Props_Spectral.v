(** C19, C20: truncation and the real FFT wrappers. *)
From Coq Require Import List Arith Lia Bool Reals Lra.
From Coquelicot Require Import Coquelicot.
From Verif Require Import TensorModel BigSum FFTModel TruncModel TruncSpec TruncProofs FFTProofs.
Import ListNotations.
Local Open Scope nat_scope.

(** C19. *)
Theorem C19_triangular_and_bounded : forall nlat nlon lmax mmax g l m,
  truncate_sht nlat nlon lmax mmax g = Some (l, m) ->
  l = m /\
  (forall k, requested lmax k -> l <= k) /\ (forall k, requested mmax k -> m <= k) /\
  (unset mmax -> m <= nlon / 2 + 1) /\
  (unset lmax -> exists d, default_lmax g nlat = Some d /\ l <= d).
Proof. intros *; intros H; split; [exact (truncate_sht_triangular _ _ _ _ _ _ _ H)|exact (truncate_sht_bounds _ _ _ _ _ _ _ H)]. Qed.

(** The bounds are attained: the result is the smaller of the two. *)
Theorem C19_value : forall nlat nlon lmax mmax g L M,
  (requested lmax L \/ (unset lmax /\ default_lmax g nlat = Some L)) ->
  (requested mmax M \/ (unset mmax /\ M = nlon / 2 + 1)) ->
  truncate_sht nlat nlon lmax mmax g = Some (Nat.min L M, Nat.min L M).
Proof.
  intros nlat nlon lmax mmax g L M HL HM. rewrite (truncate_sht_cases _ _ _ _ _ L HL).
  destruct HM as [R|[U ->]]; [now rewrite (requested_or_default _ _ M R)|now rewrite unset_or_default].
Qed.

(** By default the square of every retained degree is integrated exactly by the
    latitude rule; an unknown grid is an error only when lmax is not requested. *)
Theorem C19_default_safe : forall nlat nlon lmax mmax g l m,
  truncate_sht nlat nlon lmax mmax g = Some (l, m) -> unset lmax -> g <> GTrapezoidal -> 1 <= l ->
  2 * (l - 1) <= exact_degree g nlat.
Proof. exact truncate_sht_square. Qed.
Theorem C19_error_iff : forall nlat nlon lmax mmax g,
  truncate_sht nlat nlon lmax mmax g = None <-> (unset lmax /\ default_lmax g nlat = None).
Proof. exact truncate_sht_none. Qed.

(** Not so for the documented grid "equiangular-trapezoidal", whose rule is only
    exact to degree 1 (C21 shows the failure at degree 2), nor is the longitudinal
    part always safe: the Nyquist order m = nlon/2 can be retained, and it loses
    its imaginary part (C25). *)
Theorem C19_trapezoidal_refuted : exists nlat nlon l m,
  truncate_sht nlat nlon None None GTrapezoidal = Some (l, m) /\ exact_degree GTrapezoidal nlat < 2 * (l - 1).
Proof. exists 5, 8, 3, 3. split; [reflexivity|simpl; lia]. Qed.
Theorem C19_nyquist_refuted : exists nlat nlon l m,
  truncate_sht nlat nlon None None GLegendreGauss = Some (l, m) /\ 2 * (m - 1) = nlon.
Proof. exists 5, 8, 5, 5. split; reflexivity. Qed.
(** A request of zero is treated as no request. *)
Theorem C19_zero_request_refuted : exists nlat nlon l m,
  truncate_sht nlat nlon (Some 0) None GEquiangular = Some (l, m) /\ 0 < l.
Proof. exists 5, 8, 3, 3. split; [reflexivity|lia]. Qed.

Example C19_ex : truncate_sht 9 16 None None GEquiangular = Some (5, 5) /\ unset None /\ default_lmax GEquiangular 9 = Some 5.
Proof. repeat split; auto. apply unset_iff; auto. Qed.

(** C20. *)
(** The discrete Fourier coefficient, written out. *)
Definition dft (nm : fftnorm) (n : nat) (x : nat -> R) (k : nat) : C :=
  (fwd_scale nm n * rsum n (fun j => x j * cos (2 * PI * INR j * INR k / INR n)),
   - (fwd_scale nm n * rsum n (fun j => x j * sin (2 * PI * INR j * INR k / INR n))))%R.

Lemma torch_rfft_dft : forall nm n x k, torch_rfft nm n x k = dft nm n x k.
Proof.
  intros. unfold torch_rfft, dft. rewrite <- (bsum_scal_l CT). apply C_ext.
  - rewrite csum_Re. cbn [Re fst]. rewrite <- (bsum_scal_l RT). apply bsum_ext. intros j _.
    unfold cis; simpl. rewrite cos_neg, sin_neg. ring.
  - rewrite csum_Im. cbn [Im snd]. rewrite <- (bsum_scal_l RT), <- (bsum_opp RT). apply bsum_ext. intros j _.
    unfold cis; simpl. rewrite cos_neg, sin_neg. ring.
Qed.

Theorem C20_rfft : forall nm q n x,
  fst (rfft nm (Some q) n x) = q /\
  forall k, k < q -> snd (rfft nm (Some q) n x) k = if k <=? n / 2 then dft nm n x k else RtoC 0.
Proof.
  intros nm q n x. split.
  - unfold rfft. destruct (Nat.ltb_spec (torch_rfft_size n) q); auto. destruct (Nat.ltb_spec q (torch_rfft_size n)); auto. simpl; lia.
  - intros k Hk. rewrite rfft_bins, torch_rfft_dft; auto.
Qed.

Theorem C20_irfft_rfft : forall nm n q x j, 1 <= n -> n / 2 + 1 <= q -> j < n ->
  irfft nm (Some n) q (snd (rfft nm (Some q) n x)) j = x j.
Proof. exact irfft_rfft. Qed.

Theorem C20_rfft_irfft : forall nm n sz q c k, 1 <= n -> sz <= n / 2 + 1 -> k < q ->
  (Im (c 0%nat) = 0)%R -> (n mod 2 = 0 -> (Im (c (n / 2)%nat) = 0)%R) -> (forall i, sz <= i -> c i = RtoC 0) ->
  snd (rfft nm (Some q) n (irfft nm (Some n) sz c)) k = c k.
Proof.
  intros nm n sz q c k Hn Hs Hk H0 H2 Hz. rewrite rfft_irfft by auto. destruct (Nat.ltb_spec k sz); [|now rewrite Hz].
  apply C_ext; [reflexivity|]. change (Im (c k) * imag_scale sz n k = Im (c k))%R. unfold imag_scale.
  destruct (Nat.eqb_spec k 0) as [->|].
  - rewrite H0. ring.
  - destruct (Nat.eqb_spec (n mod 2) 0), (Nat.ltb_spec (n / 2) sz); cbn [andb]; try ring.
    destruct (Nat.eqb_spec k (n / 2)) as [->|]; try ring. rewrite H2 by auto. ring.
Qed.

(** Without the Hermitian conditions exactly the two imaginary parts are lost. *)
Theorem C20_rfft_irfft_general : forall nm n sz q c k, 1 <= n -> sz <= n / 2 + 1 -> k < q -> k < sz ->
  let r := snd (rfft nm (Some q) n (irfft nm (Some n) sz c)) k in
  Re r = Re (c k) /\ Im r = if (k =? 0) || (2 * k =? n) then 0%R else Im (c k).
Proof.
  intros nm n sz q c k Hn Hs Hk Hkz r. unfold r. rewrite rfft_irfft by auto. destruct (Nat.ltb_spec k sz); [|lia].
  cbn [Re Im fst snd]. split; auto. unfold imag_scale. pose proof (Nat.div_mod n 2 ltac:(lia)). pose proof (Nat.mod_upper_bound n 2 ltac:(lia)).
  destruct (Nat.eqb_spec k 0) as [->|]; cbn [orb].
  - destruct (_ && _); [destruct (0 =? n / 2)|]; ring.
  - destruct (Nat.eqb_spec (2 * k) n).
    + destruct (Nat.eqb_spec (n mod 2) 0); [|lia]. destruct (Nat.ltb_spec (n / 2) sz); [|lia]. cbn [andb].
      destruct (Nat.eqb_spec k (n / 2)); [ring|lia].
    + destruct (Nat.eqb_spec (n mod 2) 0), (Nat.ltb_spec (n / 2) sz); cbn [andb]; try ring.
      destruct (Nat.eqb_spec k (n / 2)); [lia|ring].
Qed.

Theorem C20_irfft_ignores : forall nm n sz x y j, 1 <= n ->
  (forall k, k < sz -> Re (x k) = Re (y k)) ->
  (forall k, k < sz -> k <> 0 -> 2 * k <> n -> Im (x k) = Im (y k)) ->
  irfft nm (Some n) sz x j = irfft nm (Some n) sz y j.
Proof. exact irfft_ignores. Qed.

(** The wrapper makes the result independent of what the backend does with the
    imaginary parts of those two bins. *)
Theorem C20_backend_independent : forall nm backend n sz x, 1 <= n ->
  (forall y j, Im (y 0) = 0%R -> (n mod 2 = 0 -> n / 2 < sz -> Im (y (n / 2)) = 0%R) -> j < n ->
     backend sz n y j = torch_irfft nm sz n y j) ->
  forall j, j < n -> irfft_with backend (Some n) sz x j = irfft nm (Some n) sz x j.
Proof. exact irfft_backend. Qed.

(** A backend that mishandles them, and a spectrum that satisfies the hypotheses of
    the inversion theorems without being trivial. *)
Example C20_ex_backend : exists backend : nat -> nat -> (nat -> C) -> nat -> R,
  (forall y j, Im (y 0) = 0%R -> (4 mod 2 = 0 -> 4 / 2 < 3 -> Im (y (4 / 2)) = 0%R) -> j < 4 ->
     backend 3 4 y j = torch_irfft NForward 3 4 y j) /\
  backend 3 4 (fun _ => Ci) 0 <> torch_irfft NForward 3 4 (fun _ => Ci) 0.
Proof.
  exists (fun sz n y j => torch_irfft NForward sz n y j + Im (y 0%nat) + Im (y 2%nat))%R. split.
  - intros y j H0 H2 _. assert (E : Im (y 2) = 0%R) by (apply (H2 eq_refl); simpl; lia). rewrite H0, E. ring.
  - simpl Im. lra.
Qed.
Example C20_ex : exists c : nat -> C, (Im (c 0%nat) = 0)%R /\ (4 mod 2 = 0 -> (Im (c (4 / 2)%nat) = 0)%R) /\
  (forall i, 3 <= i -> c i = RtoC 0) /\ c 1 = Ci /\ 3 <= 4 / 2 + 1.
Proof.
  exists (fun i => if i =? 1 then Ci else if i <? 3 then RtoC 1 else RtoC 0). repeat split; auto.
  intros i Hi. destruct (Nat.eqb_spec i 1); [lia|]. destruct (Nat.ltb_spec i 3); [lia|auto].
Qed.

Print Assumptions C19_triangular_and_bounded.
Print Assumptions C19_value.
Print Assumptions C19_default_safe.
Print Assumptions C19_error_iff.
Print Assumptions C20_rfft.
Print Assumptions C20_irfft_rfft.
Print Assumptions C20_rfft_irfft.
Print Assumptions C20_rfft_irfft_general.
Print Assumptions C20_irfft_ignores.
Print Assumptions C20_backend_independent.

Print Assumptions C19_trapezoidal_refuted.
Print Assumptions C19_nyquist_refuted.
Print Assumptions C19_zero_request_refuted.
