(** Filter bases on the disk (torch_harmonics/filter_basis.py) over exact reals.

    A basis is evaluated on a grid of H x W points with polar coordinates r, phi; the
    result lists the indices (kernel, i, j) in the support and the values there.
    Kernel shapes are natural numbers (the code does not reject negative ones). *)
From Coq Require Import List Arith ZArith Bool Reals.
From Verif Require Import TensorModel BigSum ResampleModel.
Import ListNotations.
Local Open Scope R_scope.

Definition idx3 := (nat * nat * nat)%type.
Definition support := list (idx3 * R).
(** torch.argwhere of a (K, H, W) condition: the true positions in row-major order *)
Definition all_idx (K H W : nat) : list idx3 :=
  flat_map (fun k => flat_map (fun i => map (fun j => (k, i, j)) (seq 0 W)) (seq 0 H)) (seq 0 K).
Definition argwhere (K H W : nat) (c : nat -> nat -> nat -> bool) : list idx3 :=
  filter (fun t => let '(k, i, j) := t in c k i j) (all_idx K H W).
Definition with_vals (l : list idx3) (f : nat -> nat -> nat -> R) : support :=
  map (fun t => (t, let '(k, i, j) := t in f k i j)) l.

(** filter_basis.py:55-56 *)
Definition circle_dist (x1 x2 : R) : R := Rmin (Rabs (x1 - x2)) (Rabs (2 * PI - Rabs (x1 - x2))).
Definition b2r (b : bool) : R := if b then 1 else 0.

(** What the DISCO code uses of a FilterBasis: kernel_size, isotropic_mask and
    compute_support_vals.  [None] is an exception. *)
Record fbasis := mkFB {
  fb_size : nat;
  fb_mask : option (list bool);
  fb_support : forall (H W : nat) (r phi : nat -> nat -> R) (r_cutoff : R), option support }.
(** an int, or a tuple of ints *)
Inductive kshape := KInt (n : nat) | KList (l : list nat).

(** ** PiecewiseLinearFilterBasis, 206-325 *)

(** 209-221 *)
Definition pl_init (ks : kshape) : option (nat * nat) :=
  match ks with KInt n => Some (n, 1%nat) | KList [n] => Some (n, 1%nat) | KList [n; m] => Some (n, m) | KList _ => None end.
(** 223-226 *)
Definition pl_size (nr nphi : nat) : nat := (nr / 2 * nphi + nr mod 2)%nat.
(** 228-236 *)
Definition pl_mask (nr nphi : nat) : list bool :=
  if (nphi =? 1)%nat then repeat true (pl_size nr nphi)
  else map (fun k => (nr mod 2 =? 1)%nat && (k =? 0)%nat) (seq 0 (pl_size nr nphi)).
Definition pl_dr (nr : nat) (rc : R) : R := 2 * rc / (INR nr + 1).
(** 249-252 *)
Definition pl_ir_iso (nr : nat) (rc : R) (k : nat) : R :=
  if (nr mod 2 =? 1)%nat then INR k * pl_dr nr rc else (INR k + 0.5) * pl_dr nr rc.
(** 238-258 [_compute_support_vals_isotropic] *)
Definition pl_iso (nr nphi H W : nat) (r phi : nat -> nat -> R) (rc : R) : support :=
  let dr := pl_dr nr rc in
  with_vals
    (argwhere (pl_size nr nphi) H W (fun k i j => Rleb (Rabs (r i j - pl_ir_iso nr rc k)) dr && Rleb (r i j) rc))
    (fun k i j => 1 - Rabs (r i j - pl_ir_iso nr rc k) / dr).
(** 273-278: collocation points; // and % are Python's, so that kernel 0 of an odd
    number of rings lies at ring 0 *)
Definition pl_dphi (nphi : nat) : R := 2 * PI / INR nphi.
Definition pl_ir (nr nphi : nat) (rc : R) (k : nat) : R :=
  if (nr mod 2 =? 1)%nat then IZR ((Z.of_nat k - 1) / Z.of_nat nphi + 1) * pl_dr nr rc
  else (INR (k / nphi) + 0.5) * pl_dr nr rc.
Definition pl_iphi (nr nphi : nat) (k : nat) : R :=
  if (nr mod 2 =? 1)%nat then IZR ((Z.of_nat k - 1) mod Z.of_nat nphi) * pl_dphi nphi - PI
  else INR (k mod nphi) * pl_dphi nphi - PI.
(** 281-292: odd number of rings *)
Definition pl_odd (nr nphi H W : nat) (r phi : nat -> nat -> R) (rc : R) : support :=
  let dr := pl_dr nr rc in let dphi := pl_dphi nphi in
  let ir := pl_ir nr nphi rc in let iphi := pl_iphi nr nphi in
  with_vals
    (argwhere (pl_size nr nphi) H W (fun k i j =>
       (Rleb (Rabs (r i j - ir k)) dr && Rleb (r i j) rc) &&
       ((k =? 0)%nat || Rleb (Rabs (circle_dist (phi i j) (iphi k))) dphi)))
    (fun k i j => (1 - Rabs (r i j - ir k) / dr) * (if (0 <? k)%nat then 1 - circle_dist (phi i j) (iphi k) / dphi else 1)).
(** 294-317: even number of rings *)
Definition pl_even (nr nphi H W : nat) (r phi : nat -> nat -> R) (rc : R) : support :=
  let dr := pl_dr nr rc in let dphi := pl_dphi nphi in
  let ir := pl_ir nr nphi rc in let iphi := pl_iphi nr nphi in
  let rn i j := - r i j in
  let phin i j := if Rleb PI (phi i j + PI) then phi i j - PI else phi i j + PI in
  let cond_r k i j := Rleb (Rabs (r i j - ir k)) dr && Rleb (r i j) rc in
  let cond_phi k i j := Rleb (Rabs (circle_dist (phi i j) (iphi k))) dphi in
  let cond_rn k i j := Rleb (Rabs (rn i j - ir k)) dr && Rleb (rn i j) rc in
  let cond_phin k i j := Rleb (circle_dist (phin i j) (iphi k)) dphi in
  with_vals
    (argwhere (pl_size nr nphi) H W (fun k i j => (cond_r k i j && cond_phi k i j) || (cond_rn k i j && cond_phin k i j)))
    (fun k i j =>
       b2r (cond_r k i j) * (1 - Rabs (r i j - ir k) / dr) * (b2r (cond_phi k i j) * (1 - circle_dist (phi i j) (iphi k) / dphi))
     + b2r (cond_rn k i j) * (1 - Rabs (rn i j - ir k) / dr) * (b2r (cond_phin k i j) * (1 - circle_dist (phin i j) (iphi k) / dphi))).
(** 319-325 *)
Definition pl_support (nr nphi H W : nat) (r phi : nat -> nat -> R) (rc : R) : support :=
  if (1 <? nphi)%nat then (if (nr mod 2 =? 1)%nat then pl_odd nr nphi H W r phi rc else pl_even nr nphi H W r phi rc)
  else pl_iso nr nphi H W r phi rc.
Definition pl_basis (ks : kshape) : option fbasis :=
  do s <- pl_init ks; let '(nr, nphi) := s in
  Some (mkFB (pl_size nr nphi) (Some (pl_mask nr nphi)) (fun H W r phi rc => Some (pl_support nr nphi H W r phi rc))).

(** ** HarmonicFilterBasis, 328-401 *)

(** 338-341 *)
Definition hm_init (ks : kshape) : option (nat * nat) :=
  match ks with KInt n => Some (n, n) | KList [n; m] => Some (n, m) | KList _ => None end.
Definition hm_size (k0 k1 : nat) : nat := (k0 * k1)%nat.
(** 353-357; assigning mask[0] of an empty list raises *)
Definition hm_mask (k0 k1 : nat) : option (list bool) :=
  do _ <- guard (1 <=? hm_size k0 k1)%nat; Some (map (fun k => (k =? 0)%nat) (seq 0 (hm_size k0 k1))).
(** 363-365 with width 1 *)
Definition hann (r : R) : R := cos (0.5 * PI * r / 1) ^ 2.
(** 388-389; the frequency is ceil(n / 2) *)
Definition hm_wave (n : nat) (x : R) : R :=
  let f := INR ((n + 1) / 2) in if (n mod 2 =? 1)%nat then sin (f * PI * x / 1) else cos (f * PI * x / 1).
(** 367-401 *)
Definition hm_support (k0 k1 : nat) (norms : option (nat -> R)) (H W : nat) (r phi : nat -> nat -> R) (rc : R) : support :=
  with_vals
    (argwhere (hm_size k0 k1) H W (fun _ i j => Rleb (r i j) rc))
    (fun k i j =>
      let rr := r i j / rc in let x := rr * sin (phi i j) in let y := rr * cos (phi i j) in
      let v := hann rr * (hm_wave (k mod k1) x * hm_wave (k / k1) y) in
      match norms with None => v | Some nm => v / Rmax (nm k) (/ 10 ^ 12) end).
(** 112-135 [compute_l2_norms] with the default arguments r_cutoff = 1, nr = 50,
    nphi = 200, for a basis given by its support function *)
Definition dense_at (s : support) (k i j : nat) : R :=
  rlsum (fun e => let '((k', i', j'), v) := e in if (k' =? k)%nat && (i' =? i)%nat && (j' =? j)%nat then v else 0) s.
Definition l2_r (i j : nat) : R := (INR i + 0.5) * (1 / 50).
Definition l2_phi (i j : nat) : R := INR j * (2 * PI / 200).
Definition l2_norms (sup : nat -> nat -> (nat -> nat -> R) -> (nat -> nat -> R) -> R -> support) (k : nat) : R :=
  let s := sup 50%nat 200%nat l2_r l2_phi 1 in
  sqrt (rsum 50 (fun i => rsum 200 (fun j => dense_at s k i j ^ 2 * l2_r i j * (1 / 50) * (2 * PI / 200)))).
Definition hm_basis (ks : kshape) (normalize : bool) : option fbasis :=
  do s <- hm_init ks; let '(k0, k1) := s in
  let norms := if normalize then Some (l2_norms (hm_support k0 k1 None)) else None in
  Some (mkFB (hm_size k0 k1) (hm_mask k0 k1) (fun H W r phi rc => Some (hm_support k0 k1 norms H W r phi rc))).

(** ** ZernikeFilterBasis, 404-484 *)

(** 412-415; a tuple stands for its first element *)
Definition zk_init (ks : kshape) : option nat :=
  match ks with KInt n => Some n | KList (n :: _) => Some n | KList [] => None end.
Definition zk_size (N : nat) : nat := (N * (N + 1) / 2)%nat.
(** 424-431 *)
Definition zk_mask (N : nat) : list bool :=
  flat_map (fun n => map (fun l => (2 * Z.of_nat l - Z.of_nat n =? 0)%Z) (seq 0 (n + 1))) (seq 0 N).
(** 462-466; searchsorted(right=True) in a sorted list is the number of elements not
    above the value *)
Definition zk_shifts (N : nat) : list nat := map (fun n => ((n + 1) * n / 2)%nat) (seq 0 N).
Definition zk_n (N k : nat) : nat := (length (filter (fun s => s <=? k)%nat (zk_shifts N)) - 1)%nat.
Definition zk_l (N k : nat) : nat := (k - nth (zk_n N k) (zk_shifts N) 0)%nat.
(** 433-444 for one (n, m) with 0 <= m <= n; terms with k >= bound are masked.
    exp(lgamma(x + 1)) is x! *)
Definition zk_radial (r : R) (n m : nat) : R :=
  rsum ((n - m) / 2 + 1) (fun k =>
    (-1) ^ k * INR (fact (n - k)) * r ^ (n - 2 * k) / (INR (fact k) * INR (fact ((n + m) / 2 - k)) * INR (fact ((n - m) / 2 - k)))).
(** 446-449 *)
Definition zk_poly (r phi : R) (n l : nat) : R :=
  let m := (2 * Z.of_nat l - Z.of_nat n)%Z in
  if (m <? 0)%Z then zk_radial r n (Z.to_nat (- m)) * sin (IZR m * phi) else zk_radial r n (Z.to_nat m) * cos (IZR m * phi).
(** 478-480 *)
Definition zk_norm (n l : nat) : R :=
  let m := (2 * Z.of_nat l - Z.of_nat n)%Z in
  Rmax (sqrt (PI * (if (m =? 0)%Z then 2 else 1) / (2 * (INR n + 1)))) (/ 10 ^ 12).
(** 451-484; bound.max() (437) raises when no point lies in the support *)
Definition zk_support (N H W : nat) (r phi : nat -> nat -> R) (rc : R) : option support :=
  let l := argwhere (zk_size N) H W (fun _ i j => Rleb (r i j) rc) in
  do _ <- guard (negb (length l =? 0)%nat);
  Some (with_vals l (fun k i j => zk_poly (r i j / rc) (phi i j) (zk_n N k) (zk_l N k) / zk_norm (zk_n N k) (zk_l N k))).
Definition zk_basis (ks : kshape) : option fbasis :=
  do N <- zk_init ks; Some (mkFB (zk_size N) (Some (zk_mask N)) (zk_support N)).

(** ** FourierBesselFilterBasis, 487-648 *)
Section FourierBessel.
(** scipy.special.jn and jn_zeros (the first so many positive zeros of J_m): external *)
Variables (jn : nat -> R -> R) (jn_zeros : nat -> nat -> list R).

Definition fbs_init (ks : kshape) : option (nat * nat) :=
  match ks with KInt n => Some (n, n) | KList [n] => Some (n, n) | KList [n; m] => Some (n, m) | KList _ => None end.
(** an entry (alpha, m, n, is_cosine) *)
Record bessel := mkB { be_alpha : R; be_m : nat; be_n : nat; be_cos : bool }.
(** 540-545: the inner loop over the zeros of one order, stopping at alpha_max *)
Fixpoint fbs_row (alpha_max : R) (m n : nat) (zeros : list R) : list bessel :=
  match zeros with
  | [] => []
  | a :: zs => if Rltb alpha_max a then [] else
      mkB a m n true :: (if (0 <? m)%nat then [mkB a m n false] else []) ++ fbs_row alpha_max m (n + 1) zs
  end.
(** list.sort(key=alpha), stable *)
Fixpoint fbs_insert (e : bessel) (l : list bessel) : list bessel :=
  match l with [] => [e] | x :: l' => if Rltb (be_alpha x) (be_alpha e) then x :: fbs_insert e l' else e :: l end.
Fixpoint fbs_sort (l : list bessel) : list bessel :=
  match l with [] => [] | e :: l' => fbs_insert e (fbs_sort l') end.
(** 530-553 [_build_index]; [-1] of an empty array raises *)
Definition fbs_index (nmax mmax : nat) : option (list bessel) :=
  do am <- (match jn_zeros 0 nmax with [] => None | z => Some (last z 0) end);
  Some (fbs_sort (flat_map (fun m => fbs_row am m 1 (jn_zeros m nmax)) (seq 0 (mmax + 1)))).
(** 563-579 with r_cutoff = 1 *)
Definition fbs_norm (e : bessel) : R :=
  let radial := Rmax (Rabs (jn (be_m e + 1) (be_alpha e)) / sqrt 2) (/ 10 ^ 12) in
  let angular := if (be_m e =? 0)%nat then sqrt (2 * PI) else sqrt PI in
  Rmax (1 * radial * angular) (/ 10 ^ 12).
(** 581-645 *)
Definition fbs_support (es : list bessel) (H W : nat) (r phi : nat -> nat -> R) (rc : R) : support :=
  with_vals (argwhere (length es) H W (fun _ i j => Rleb (r i j) rc))
    (fun k i j => let e := nth k es (mkB 0 0 0 true) in
      jn (be_m e) (be_alpha e * (r i j / rc)) *
      (if be_cos e then cos (INR (be_m e) * phi i j) else sin (INR (be_m e) * phi i j)) / fbs_norm e).
Definition fbs_basis (ks : kshape) : option fbasis :=
  do s <- fbs_init ks; let '(nmax, mmax) := s in
  do es <- fbs_index nmax mmax;
  Some (mkFB (length es) (Some (map (fun e => (be_m e =? 0)%nat) es)) (fun H W r phi rc => Some (fbs_support es H W r phi rc))).

(** 149-203 [get_filter_basis] *)
Inductive btype := BPiecewise | BHarmonic | BZernike | BFourierBessel | BMorlet | BUnknown.
Definition get_filter_basis (ks : kshape) (b : btype) : option fbasis :=
  match b with
  | BPiecewise => pl_basis ks | BHarmonic => hm_basis ks true | BZernike => zk_basis ks
  | BFourierBessel => fbs_basis ks | BMorlet => hm_basis ks false | BUnknown => None
  end.
End FourierBessel.
