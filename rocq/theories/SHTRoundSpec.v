(** Independent specification of the round trips of the transforms. *)
From Coq Require Import List Arith Lia Bool Reals.
From Coquelicot Require Import Coquelicot.
From Verif Require Import TensorModel BigSum LegendreModel QuadModel QuadSpec LegSpec SHTSpec.
Import ListNotations.
Local Open Scope R_scope.

(** What the longitudinal part of a real field on n points can carry of one
    coefficient of order m: the orders 0 and n/2 are real, orders above n/2 do not
    exist. *)
Definition real_order (n m : nat) (z : C) : C :=
  if (m <=? n / 2)%nat then (Re z, if ((m =? 0) || (2 * m =? n))%nat%bool then 0 else Im z) else RtoC 0.
(** Coefficients at [..., l, m]: the order cannot exceed the degree. *)
Definition representable_at (n l m : nat) (z : C) : C := if (m <=? l)%nat then real_order n m z else RtoC 0.
Definition representable (n : nat) (c : tensor C) : tensor C :=
  mkT (shp c) (fun i => representable_at n (nth (ndim c - 2) i 0%nat) (nth (ndim c - 1) i 0%nat) (val c i)).

(** What a latitude rule has to satisfy on [-1,1]. *)
Definition good_rule (n : nat) (q : rule) (d : nat) : Prop :=
  exact_rule n q (-1) 1 d /\
  (forall i, (i < n)%nat -> rw q (n - 1 - i) = rw q i) /\
  (forall i, (i < n)%nat -> -1 <= rn q i <= 1).

(** A real field that is a finite sum of spherical harmonics of degree < L: cosine
    coefficients [a l m] and sine coefficients [b l m] of order m <= l, with
    m <= M, on colatitudes theta_k and longitudes lambda_j. *)
Definition harmonic_sum (L M : nat) (a b : nat -> nat -> R) (theta lambda : R) : R :=
  rsum L (fun l => rsum (S (Nat.min l M)) (fun m =>
    alf l m (cos theta) * (a l m * cos (INR m * lambda) + b l m * sin (INR m * lambda)))).
(** The coefficient of such a field at [l, m] under the conventions nm, cs on w
    longitudes: (a - i b) over 1 (orders 0 and w/2, whose sine vanishes on the
    grid) or 2, times the factor of the convention. *)
Definition harmonic_coeff (nm : shnorm) (cs : bool) (w M : nat) (a b : nat -> nat -> R) (l m : nat) : C :=
  if (m <=? Nat.min l M)%nat
  then Cmult (RtoC (norm_spec nm false l * phase_spec cs m / mirror w m)) (a l m, if ((m =? 0) || (2 * m =? w))%nat%bool then 0 else - b l m)
  else RtoC 0.

(** The effect of the conventions on orthonormal coefficients without the
    Condon-Shortley phase. *)
Definition convention (nm : shnorm) (cs : bool) (c : tensor C) : tensor C :=
  mkT (shp c) (fun i => Cmult (RtoC (norm_spec nm false (nth (ndim c - 2) i 0%nat) * phase_spec cs (nth (ndim c - 1) i 0%nat))) (val c i)).

(** Vector coefficients at [..., component, l, m]: no degree 0. *)
Definition vrepresentable_at (n l m : nat) (z : C) : C := if ((1 <=? l) && (m <=? l))%nat%bool then real_order n m z else RtoC 0.
Definition vrepresentable (n : nat) (c : tensor C) : tensor C :=
  mkT (shp c) (fun i => vrepresentable_at n (nth (ndim c - 2) i 0%nat) (nth (ndim c - 1) i 0%nat) (val c i)).
(** No content at the order n/2. *)
Definition no_nyquist (n : nat) (c : tensor C) : Prop :=
  forall i, valid (shp c) i -> (2 * nth (ndim c - 1) i 0)%nat = n -> val c i = RtoC 0.
