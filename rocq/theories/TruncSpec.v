(** Independent specification of spectral truncation. *)
From Coq Require Import Arith Lia.
From Verif Require Import TruncModel.

(** Degree of exactness of the latitude rules (textbook facts; the one for the
    equiangular grid is proved for the modelled weights in Props_Quad). *)
Definition exact_degree (g : grid) (nlat : nat) : nat :=
  match g with
  | GLegendreGauss => 2 * nlat - 1
  | GLobatto => 2 * nlat - 3
  | GEquiangular => nlat - 1
  | _ => 1
  end.

(** A request counts when it is given and non-zero. *)
Definition requested (x : option nat) (k : nat) : Prop := x = Some k /\ k <> 0.
Definition unset (x : option nat) : Prop := forall k, ~ requested x k.
