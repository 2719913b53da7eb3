(** Independent specification of the time integration of the examples' solvers. *)
From Coq Require Import List Arith Lia Bool Reals.
From Coquelicot Require Import Coquelicot.
From Verif Require Import TensorModel BigSum.
Import ListNotations.
Local Open Scope R_scope.

Definition times (r : R) (z : C) : C := Cmult (RtoC r) z.

(** The multistep increment of pass k from the tendencies D 0 ... D k of the passes so far:
    Euler, then 28/12 and -16/12, then the third-order Adams-Bashforth formula. *)
Definition adams_bashforth_3 (d d1 d2 : C) : C := Cplus (Cplus (times (23 / 12) d) (times (- 16 / 12) d1)) (times (5 / 12) d2).
Definition increment (k : nat) (D : nat -> C) : C :=
  match k with
  | O => D 0%nat
  | 1%nat => Cplus (times (28 / 12) (D 1%nat)) (times (- 16 / 12) (D 0%nat))
  | S (S j) => adams_bashforth_3 (D (S (S j))) (D (S j)) (D j)
  end.

(** Damping of degree l over one step for the highest degree L - 1: the 8th-order operator
    with an e-folding time of two hours at the highest degree. *)
Definition damping (dt : R) (L l : nat) : R :=
  exp (- (dt / 7200) * (INR l * (INR l + 1) / ((INR L - 1) * INR L)) ^ 4).
(** Component 0 is the geopotential, not damped; 1 and 2 are vorticity and divergence. *)
Definition damp (dt : R) (L c l : nat) (z : C) : C := if (c =? 0)%nat then z else times (damping dt L l) z.

(** The Laplace operator on degree l of a sphere of radius r. *)
Definition laplace (r : R) (l : nat) : R := - (INR l * INR (l + 1)) / (r * r).

(** Weighted total of a field over the grid: radius^2 sum_k w_k (2 pi / nlon) sum_j f. *)
Definition grid_integral (radius : R) (h w : nat) (wt : nat -> R) (f : nat -> nat -> R) : R :=
  radius * radius * rsum h (fun k => wt k * (2 * PI / INR w * rsum w (f k))).
