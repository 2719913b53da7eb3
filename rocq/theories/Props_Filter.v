(** C39: filter bases. *)
From Coq Require Import List Arith ZArith Lia Bool Reals Lra.
From Verif Require Import TensorModel BigSum FilterModel FilterSpec FilterBases2Proofs FilterApiProofs.
Import ListNotations.
Local Open Scope R_scope.

(** kernel_size counts distinct hat functions; the table lists their values, in [0,1],
    inside the cutoff; they sum to one up to the last ring; the mask marks the radial
    ones *)
Theorem C39_piecewise_linear : forall jn jz ks nr nphi, pl_shape ks nr nphi -> (1 <= nphi)%nat -> exists fb, get_filter_basis jn jz ks BPiecewise = Some fb /\
  forall rc, 0 < rc -> let cs := centres nr nphi rc in
    fb_size fb = length cs /\ NoDup cs /\
    (forall H W r phi, polar H W r phi -> exists s, fb_support fb H W r phi rc = Some s /\
       represents s (fb_size fb) H W r phi rc (fun k => tent nr nphi rc (nth k cs (0, None))) /\
       (forall e, In e s -> 0 <= snd e <= 1) /\
       (forall i j, (1 <= nr)%nat -> (nr mod 2 = 1 \/ 2 <= nphi)%nat -> (i < H)%nat -> (j < W)%nat -> r i j <= rc -> total_at s i j = Rmin 1 ((rc - r i j) / (2 * rc / (INR nr + 1))))) /\
    exists m, fb_mask fb = Some m /\ length m = fb_size fb /\ forall k, (k < fb_size fb)%nat ->
      (nth k m false = true <-> forall r p q, tent nr nphi rc (nth k cs (0, None)) r p = tent nr nphi rc (nth k cs (0, None)) r q).
Proof. exact pl_api. Qed.
(** a radial basis with an even number of rings does not sum to one *)
Theorem C39_even_radial_refuted : forall jn jz, exists ks nr nphi, pl_shape ks nr nphi /\ (1 <= nr)%nat /\ (1 <= nphi)%nat /\
  exists fb s, get_filter_basis jn jz ks BPiecewise = Some fb /\ fb_support fb 1 1 (fun _ _ => 0) (fun _ _ => 0) 1 = Some s /\ total_at s 0 0 = / 2 /\ Rmin 1 ((1 - 0) / (2 * 1 / (INR nr + 1))) = 1.
Proof. exact pl_even_iso_refuted. Qed.
(** harmonic ("morlet": not normalised): products of waves times a window divided by a
    positive norm, which makes the discrete norm one unless clamped *)
Theorem C39_harmonic : forall jn jz ks k0 k1 (morlet : bool), ks = KList [k0; k1] \/ (ks = KInt k0 /\ k1 = k0) -> exists fb, get_filter_basis jn jz ks (if morlet then BMorlet else BHarmonic) = Some fb /\
  fb_size fb = length (pairs k0 k1) /\ NoDup (pairs k0 k1) /\
  exists nm : nat -> R,
    (forall k, (k < fb_size fb)%nat -> 0 < nm k) /\
    (forall rc H W r phi, 0 < rc -> exists s, fb_support fb H W r phi rc = Some s /\
       represents s (fb_size fb) H W r phi rc (fun k r phi => harmonic rc (nth k (pairs k0 k1) (0, 0)%nat) r phi / nm k)) /\
    (forall k, (k < fb_size fb)%nat -> if morlet then nm k = 1 else
       / 10 ^ 12 <= sqrt (disk_norm2 (harmonic 1 (nth k (pairs k0 k1) (0, 0)%nat)) 50 200) -> disk_norm2 (fun r p => harmonic 1 (nth k (pairs k0 k1) (0, 0)%nat) r p / nm k) 50 200 = 1) /\
    forall m, fb_mask fb = Some m -> length m = fb_size fb /\ forall k rc, (k < fb_size fb)%nat -> 0 < rc ->
      (nth k m false = true <-> forall r p q, 0 <= r <= rc -> harmonic rc (nth k (pairs k0 k1) (0, 0)%nat) r p = harmonic rc (nth k (pairs k0 k1) (0, 0)%nat) r q).
Proof. exact hm_api. Qed.
(** Zernike: one function per degree below kernel_shape and order of equal parity *)
Theorem C39_zernike : forall jn jz ks N, ks = KInt N \/ (exists l, ks = KList (N :: l)) -> exists fb, get_filter_basis jn jz ks BZernike = Some fb /\
  fb_size fb = length (zernike_orders N) /\ NoDup (zernike_orders N) /\
  fb_mask fb = Some (map (fun nm => (snd nm =? 0)%Z) (zernike_orders N)) /\
  (forall rc H W r phi s, fb_support fb H W r phi rc = Some s -> INR N <= 10 ^ 24 -> represents s (fb_size fb) H W r phi rc (fun k => zernike rc (nth k (zernike_orders N) (0%nat, 0%Z)))) /\
  (forall rc H W r phi, fb_support fb H W r phi rc = None <-> N = 0%nat \/ forall i j, (i < H)%nat -> (j < W)%nat -> rc < r i j).
Proof. exact zk_api. Qed.
Theorem C39_zernike_orders : forall N n m, In (n, m) (zernike_orders N) <-> (n < N)%nat /\ (Z.abs m <= Z.of_nat n)%Z /\ Z.even (Z.of_nat n - m) = true.
Proof. exact in_orders. Qed.
(** Fourier-Bessel, relative to scipy's zeros: exactly the eigenfunctions asked for,
    each once, by growing eigenvalue, vanishing at the cutoff *)
Theorem C39_fourier_bessel : forall jn jz ks nmax mmax, (1 <= nmax)%nat -> (ks = KInt nmax /\ mmax = nmax) \/ (ks = KList [nmax] /\ mmax = nmax) \/ ks = KList [nmax; mmax] -> bessel_zeros jn jz nmax ->
  exists fb es, get_filter_basis jn jz ks BFourierBessel = Some fb /\ fb_size fb = length es /\
  NoDup (map key es) /\ ascending (map be_alpha es) /\ (forall e, In e (map key es) <-> wanted (fun m => jz m nmax) nmax mmax (last (jz 0%nat nmax) 0) e) /\
  fb_mask fb = Some (map (fun e => (be_m e =? 0)%nat) es) /\
  (forall rc H W r phi, exists s, fb_support fb H W r phi rc = Some s /\ represents s (fb_size fb) H W r phi rc (fun k => fb_fun jn rc (nth k es (mkB 0 0 0 true)))) /\
  (forall k rc phi, (k < length es)%nat -> 0 < rc -> fb_fun jn rc (nth k es (mkB 0 0 0 true)) rc phi = 0).
Proof. exact fbs_api. Qed.
(** the example in the docstring says 16 *)
Theorem C39_documented_size_refuted : forall jn jz, exists fb, get_filter_basis jn jz (KList [5; 4]%nat) BPiecewise = Some fb /\ fb_size fb = 9%nat.
Proof. exact doc_size_refuted. Qed.
Theorem C39_rejections : forall jn jz ks, get_filter_basis jn jz ks BUnknown = None /\ (forall b n m p l, b = BPiecewise \/ b = BHarmonic \/ b = BFourierBessel \/ b = BMorlet -> ks = KList (n :: m :: p :: l) -> get_filter_basis jn jz ks b = None).
Proof. exact unknown_rejected. Qed.

(** hypotheses are met *)
Example shape_case : pl_shape (KList [3; 4]%nat) 3 4 /\ pl_shape (KInt 3) 3 1.
Proof. split; [right; right; reflexivity|left; auto]. Qed.
Example polar_case : polar 2 3 (fun i j => INR i / 10) (fun i j => 2 * PI * (INR j / 3)).
Proof.
  intros i j Hi Hj. pose proof PI_RGT_0. pose proof (pos_INR i). pose proof (pos_INR j). assert (INR j <= 2) by (replace 2 with (INR 2) by reflexivity; apply le_INR; lia). split; [lra|]. split.
  - apply Rmult_le_pos; lra.
  - rewrite <- (Rmult_1_r (2 * PI)) at 2. apply Rmult_lt_compat_l; lra.
Qed.
Example clamp_case : / 10 ^ 12 <= sqrt (disk_norm2 (harmonic 1 (nth 0 (pairs 2 2) (0, 0)%nat)) 50 200).
Proof. exact hm_first_norm. Qed.
(** sin(x) in the role of every J_m *)
Example zeros_case : bessel_zeros (fun _ => sin) (fun _ n => map (fun i => INR (S i) * PI) (seq 0 n)) 2.
Proof.
  intros m. split; [reflexivity|]. pose proof PI_RGT_0. split.
  - cbn. repeat split; intros y I; intuition subst; lra.
  - intros a I. cbn [map seq In] in I. destruct I as [<-|[<-|[]]]; cbn [INR]; (split; [lra|]). + rewrite Rmult_1_l. apply sin_PI. + replace ((1 + 1) * PI) with (2 * PI) by ring. apply sin_2PI.
Qed.
Example zernike_case : zernike_orders 3 = [(0%nat, 0%Z); (1%nat, (-1)%Z); (1%nat, 1%Z); (2%nat, (-2)%Z); (2%nat, 0%Z); (2%nat, 2%Z)].
Proof. reflexivity. Qed.

Print Assumptions C39_piecewise_linear.
Print Assumptions C39_even_radial_refuted.
Print Assumptions C39_harmonic.
Print Assumptions C39_zernike.
Print Assumptions C39_zernike_orders.
Print Assumptions C39_fourier_bessel.
Print Assumptions C39_documented_size_refuted.
Print Assumptions C39_rejections.
