(** Independent specification of the associated Legendre functions. *)
From Coq Require Import Arith Lia Reals.
From Coquelicot Require Import Coquelicot.
From Verif Require Import LegendreModel.
Local Open Scope R_scope.

(** Rodrigues: (1-x^2)^(m/2) / (2^l l!) * d^(l+m)/dx^(l+m) (x^2-1)^l, without the
    Condon-Shortley sign. *)
Definition rodrigues (l m : nat) (x : R) : R :=
  sqrt (1 - x * x) ^ m / (2 ^ l * INR (fact l)) * Derive_n (fun t => (t * t - 1) ^ l) (l + m) x.
(** Orthonormal normalisation on the sphere: sqrt((2l+1)/(4 pi) (l-m)!/(l+m)!). *)
Definition ylm_const (l m : nat) : R := sqrt ((2 * INR l + 1) / (4 * PI) * (INR (fact (l - m)) / INR (fact (l + m)))).
Definition alf (l m : nat) (x : R) : R := if (m <=? l)%nat then ylm_const l m * rodrigues l m x else 0.

(** The documented normalisations: "ortho", "four-pi" (sqrt(4 pi) times larger) and
    "schmidt" (four-pi divided by sqrt(2l+1)); the inverse tables carry the
    reciprocal factor. *)
Definition norm_spec (nm : shnorm) (inverse : bool) (l : nat) : R :=
  let f := match nm with Ortho => 1 | FourPi => sqrt (4 * PI) | Schmidt => sqrt (4 * PI) / sqrt (2 * INR l + 1) end in
  if inverse then / f else f.
(** Condon-Shortley phase (-1)^m *)
Definition phase_spec (csphase : bool) (m : nat) : R := if csphase then (-1) ^ m else 1.

(** The two components of the gradient of a harmonic of degree l and order m in
    colatitude t: d/dt and m / sin t. *)
Definition dalf_theta (l m : nat) (t : R) : R := Derive (fun u => alf l m (cos u)) t.
Definition malf_sin (l m : nat) (t : R) : R := INR m * alf l m (cos t) / sin t.
