(** Filter bases as functions on the disk, independent of how they are tabulated. *)
From Coq Require Import List Arith ZArith Bool Reals.
From Verif Require Import BigSum.
Import ListNotations.
Local Open Scope R_scope.

(** A table of values at grid points represents the functions f_0 .. f_{K-1} inside
    the cutoff: every index at most once, every listed value is the value of the
    function, whatever is not listed vanishes. *)
Definition represents (s : list ((nat * nat * nat) * R)) (K H W : nat) (r phi : nat -> nat -> R) (rc : R) (f : nat -> R -> R -> R) : Prop :=
  NoDup (map fst s) /\
  (forall k i j v, In ((k, i, j), v) s -> (k < K)%nat /\ (i < H)%nat /\ (j < W)%nat /\ r i j <= rc /\ v = f k (r i j) (phi i j)) /\
  (forall k i j, (k < K)%nat -> (i < H)%nat -> (j < W)%nat -> r i j <= rc -> ~ In (k, i, j) (map fst s) -> f k (r i j) (phi i j) = 0).
(** polar coordinates of the evaluation points *)
Definition polar (H W : nat) (r phi : nat -> nat -> R) : Prop :=
  forall i j, (i < H)%nat -> (j < W)%nat -> 0 <= r i j /\ 0 <= phi i j < 2 * PI.

(** ** Piecewise linear *)
(** the hat function and the distance on the circle *)
Definition hat (d : R) : R := Rmax 0 (1 - d).
Definition adist (a b : R) : R := acos (cos (a - b)).
Section Hats.
Variables (nr nphi : nat) (rc : R).
(** rings are spaced by dr and end one spacing before the cutoff; angles by dphi *)
Let dr := rc / ((INR nr + 1) / 2).
Let dphi := 2 * PI / INR nphi.
Let odd := (nr mod 2 =? 1)%nat.
(** centres: radius, and angle unless the hat is radial *)
Definition rings : list R := if odd then map (fun i => INR (S i) * dr) (seq 0 (nr / 2)) else map (fun i => (INR i + / 2) * dr) (seq 0 (nr / 2)).
Definition angles : list R := map (fun j => INR j * dphi - PI) (seq 0 nphi).
Definition centres : list (R * option R) :=
  (if odd then [(0, None)] else []) ++
  (if (nphi =? 1)%nat then map (fun a => (a, None)) rings else flat_map (fun a => map (fun p => (a, Some p)) angles) rings).
(** the value of the hat around a centre; a directional hat of a ring crossing the
    origin (even number of rings) continues on the opposite side *)
Definition tent (c : R * option R) (r phi : R) : R :=
  match snd c with
  | None => hat (Rabs (r - fst c) / dr)
  | Some a => hat (Rabs (r - fst c) / dr) * hat (adist phi a / dphi) +
              (if odd then 0 else hat (Rabs (- r - fst c) / dr) * hat (adist (phi + PI) a / dphi))
  end.
End Hats.

(** ** Harmonic *)
(** 1, sin(pi x), cos(pi x), sin(2 pi x), cos(2 pi x), ... *)
Definition wave (n : nat) (x : R) : R :=
  if Nat.even n then cos (INR (Nat.div2 n) * PI * x) else sin (INR (S (Nat.div2 n)) * PI * x).
(** with a Hann window, at the point (x, y) = (u sin phi, u cos phi) with u = r / rc *)
Definition harmonic (rc : R) (mn : nat * nat) (r phi : R) : R :=
  cos (PI / 2 * (r / rc)) ^ 2 * wave (snd mn) (r / rc * sin phi) * wave (fst mn) (r / rc * cos phi).
Definition pairs (a b : nat) : list (nat * nat) := flat_map (fun m => map (fun n => (m, n)) (seq 0 b)) (seq 0 a).

(** ** Zernike *)
(** degree n and order m = -n, -n+2, ..., n *)
Definition zernike_orders (N : nat) : list (nat * Z) :=
  flat_map (fun n => map (fun l => (n, (2 * Z.of_nat l - Z.of_nat n)%Z)) (seq 0 (S n))) (seq 0 N).
(** radial polynomial of degree n and order m (n - m even): sum over k of
    (-1)^k (n-k)! / (k! ((n+m)/2-k)! ((n-m)/2-k)!) u^(n-2k) *)
Definition radial (n m : nat) (u : R) : R :=
  rsum ((n - m) / 2 + 1) (fun k =>
    (-1) ^ k * INR (fact (n - k)) / (INR (fact k) * INR (fact ((n + m) / 2 - k)) * INR (fact ((n - m) / 2 - k))) * u ^ (n - 2 * k)).
Definition zernike (rc : R) (nm : nat * Z) (r phi : R) : R :=
  let '(n, m) := nm in
  radial n (Z.abs_nat m) (r / rc) * (if (m <? 0)%Z then sin (IZR m * phi) else cos (IZR m * phi)) /
  sqrt (PI * (if (m =? 0)%Z then 2 else 1) / (2 * (INR n + 1))).

(** what a table contributes at one grid point, all kernels together *)
Definition total_at (s : list ((nat * nat * nat) * R)) (i j : nat) : R :=
  rlsum (fun e => let '((_, i', j'), v) := e in if (i' =? i)%nat && (j' =? j)%nat then v else 0) s.

(** ** Fourier-Bessel *)
(** the eigenfunctions (alpha, m, n, cosine?) wanted: all orders m <= mmax, all zeros
    1 <= n <= nmax of J_m not above the last zero of J_0 asked for, and a sine only
    for m > 0 *)
Definition wanted (zeros : nat -> list R) (nmax mmax : nat) (amax : R) (e : R * nat * nat * bool) : Prop :=
  let '(a, m, n, c) := e in
  (m <= mmax)%nat /\ (1 <= n <= nmax)%nat /\ a = nth (n - 1) (zeros m) 0 /\ a <= amax /\ (c = true \/ (0 < m)%nat).
Fixpoint ascending (l : list R) : Prop :=
  match l with [] => True | x :: l' => (forall y, In y l' -> x <= y) /\ ascending l' end.
Fixpoint increasing (l : list R) : Prop :=
  match l with [] => True | x :: l' => (forall y, In y l' -> x < y) /\ increasing l' end.
(** discretised squared L2 norm of the k-th function of a table on the midpoint grid
    of the unit disk: nr rings and np angles *)
Definition disk_norm2 (f : R -> R -> R) (nr np : nat) : R :=
  rsum nr (fun i => rsum np (fun j => f ((INR i + / 2) / INR nr) (INR j * (2 * PI / INR np)) ^ 2 * ((INR i + / 2) / INR nr) * (1 / INR nr) * (2 * PI / INR np))).
