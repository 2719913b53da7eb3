(** Independent specification of quadrature rules. *)
From Coq Require Import Arith Lia Reals.
From Coquelicot Require Import Coquelicot.
From Verif Require Import BigSum QuadModel.
Local Open Scope R_scope.

(** [f] is a polynomial function of degree at most [d]. *)
Definition is_poly (d : nat) (f : R -> R) : Prop := exists c : nat -> R, forall x, f x = rsum (S d) (fun k => c k * x ^ k).

(** The n-point rule [q] integrates every polynomial of degree <= d over [a,b]
    exactly ([RInt] is the Riemann integral). *)
Definition exact_rule (n : nat) (q : rule) (a b : R) (d : nat) : Prop :=
  forall f, is_poly d f -> rsum n (fun i => rw q i * f (rn q i)) = RInt f a b.

(** Symmetric about the midpoint of [a,b]. *)
Definition symmetric_rule (n : nat) (q : rule) (a b : R) : Prop :=
  forall i, (i < n)%nat -> rw q (n - 1 - i) = rw q i /\ rn q (n - 1 - i) = a + b - rn q i.

(** Reference Legendre polynomials by Bonnet's recurrence. *)
Fixpoint legendre2 (k : nat) (t : R) : R * R := (* (P_k, P_{k+1}) *)
  match k with
  | O => (1, t)
  | S j => let '(p, p') := legendre2 j t in
           (p', ((2 * INR j + 3) * t * p' - (INR j + 1) * p) / (INR j + 2))
  end.
Definition legendre (k : nat) (t : R) : R := fst (legendre2 k t).
