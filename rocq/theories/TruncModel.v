(** Spectral truncation (torch_harmonics/truncation.py). *)
From Coq Require Import List Arith Lia Bool.
Import ListNotations.

(** Grid names accepted somewhere in the library; anything else is [GOther]. *)
Inductive grid := GLegendreGauss | GLobatto | GEquiangular | GTrapezoidal | GOther.

(** truncation.py:36-72 [_truncate_lmax]; ValueError = None.  Python's
    nlat - 1 for nlat = 0 is -1: the model requires 1 <= nlat for lobatto (with
    nlat = 0 no grid can be built at all). *)
Definition default_lmax (g : grid) (nlat : nat) : option nat :=
  match g with
  | GLegendreGauss => Some nlat
  | GLobatto => if nlat =? 0 then None else Some (nlat - 1)
  | GEquiangular | GTrapezoidal => Some ((nlat + 1) / 2)
  | GOther => None
  end.

(** truncation.py:75-90 [_truncate_mmax] *)
Definition default_mmax (nlon : nat) : nat := nlon / 2 + 1.

(** Python's [x or y] for an optional integer: None and 0 are both falsy. *)
Definition or_default (x : option nat) (y : nat) : nat :=
  match x with Some (S k) => S k | _ => y end.

(** truncation.py:93-175 [truncate_sht]: explicit bounds or defaults, then
    triangular truncation.  [lmax or _truncate_lmax(..)] is short-circuiting: an
    unknown grid raises only when lmax is unset. *)
Definition truncate_sht (nlat nlon : nat) (lmax mmax : option nat) (g : grid) : option (nat * nat) :=
  let l := match lmax with Some (S k) => Some (S k) | _ => default_lmax g nlat end in
  match l with
  | None => None
  | Some l => let m := or_default mmax (default_mmax nlon) in Some (Nat.min l m, Nat.min l m)
  end.
