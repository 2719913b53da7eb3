(** Associated Legendre tables (torch_harmonics/legendre.py) over exact reals.

    All operations of the code are elementwise in the evaluation point x, so the
    tables are modelled at one point; the node index is added by the callers. *)
From Coq Require Import List Arith Lia Bool Reals.
Import ListNotations.
Local Open Scope R_scope.

(** The [norm] keyword; every string but "ortho" and "schmidt" behaves like
    "four-pi" in the code. *)
Inductive shnorm := Ortho | FourPi | Schmidt.

(** A zero-initialised 2-D array [m, l], with element and prefix-of-column writes. *)
Definition arr := nat -> nat -> R.
Definition set2 (a : arr) (m l : nat) (v : R) : arr :=
  fun m' l' => if ((m' =? m) && (l' =? l))%nat%bool then v else a m' l'.
Definition set_col_prefix (a : arr) (k l : nat) (v : nat -> R) : arr :=
  fun m' l' => if ((m' <? k) && (l' =? l))%nat%bool then v m' else a m' l'.

(** legendre.py:85-86 *)
Definition leg_norm_factor (nm : shnorm) (inverse : bool) : R :=
  let f := match nm with Ortho => 1 | _ => sqrt (4 * PI) end in
  if inverse then 1 / f else f.

(** legendre.py:88 *)
Definition vdm_init (nm : shnorm) (inverse : bool) : arr :=
  set2 (fun _ _ => 0) 0 0 (leg_norm_factor nm inverse / sqrt (4 * PI)).

(** legendre.py:91-93, body of the first loop *)
Definition vdm_diag_step (x : R) (v : arr) (l : nat) : arr :=
  let v := set2 v (l - 1) l (sqrt (2 * INR l + 1) * x * v (l - 1)%nat (l - 1)%nat) in
  set2 v l l (sqrt ((2 * INR l + 1) * (1 + x) * (1 - x) / 2 / INR l) * v (l - 1)%nat (l - 1)%nat).

(** legendre.py:97-101, body of the second loop *)
Definition a_lm (l m : nat) : R :=
  sqrt ((2 * INR l - 1) / (INR l - INR m) * (2 * INR l + 1) / (INR l + INR m)).
Definition b_lm (l m : nat) : R :=
  sqrt ((INR l + INR m - 1) / (INR l - INR m) * (2 * INR l + 1) / (2 * INR l - 3) * (INR l - INR m - 1) / (INR l + INR m)).
Definition vdm_rec_step (x : R) (v : arr) (l : nat) : arr :=
  set_col_prefix v (l - 1) l (fun m => a_lm l m * x * v m (l - 1)%nat - b_lm l m * v m (l - 2)%nat).

(** legendre.py:46-116 [legpoly] at one point: entry [m, l] of the result, for
    m < mmax, l < lmax. *)
Definition legpoly_vdm (nm : shnorm) (inverse : bool) (nmax : nat) (x : R) : arr :=
  let v := vdm_init nm inverse in
  let v := fold_left (vdm_diag_step x) (seq 1 (nmax - 1)) v in
  fold_left (vdm_rec_step x) (seq 2 (nmax - 2)) v.
Definition legpoly (mmax lmax : nat) (x : R) (nm : shnorm) (inverse csphase : bool) : arr :=
  let v := legpoly_vdm nm inverse (Nat.max mmax lmax) x in
  let v := match nm with
           | Schmidt => fun m l => if inverse then v m l * sqrt (2 * INR l + 1) else v m l / sqrt (2 * INR l + 1)
           | _ => v
           end in
  if csphase then fun m l => if Nat.odd m then - 1 * v m l else v m l else v.

(** legendre.py:119-146 [_precompute_legpoly] at one colatitude *)
Definition precompute_legpoly (mmax lmax : nat) (t : R) (nm : shnorm) (inverse csphase : bool) : arr :=
  legpoly mmax lmax (cos t) nm inverse csphase.

(** legendre.py:149-237 [_precompute_dlegpoly] at one colatitude: component
    [d] (0: d/dtheta, anything else: the second component), entry [m, l].
    Coefficients are float grids in the code, hence real here. *)
Definition clamp0 (x : R) : R := Rmax 0 x.
Definition dleg_mask (m l : nat) : R := if ((1 <=? m) && (m <=? l))%nat%bool then 1 else 0.
Definition dleg0 (pct : arr) (m l : nat) : R :=
  let mr := INR m in let lr := INR l in
  if (m =? 0)%nat then - sqrt (lr * (lr + 1)) * pct 1%nat l
  else dleg_mask m l * 0.5 *
       (sqrt (clamp0 ((lr + mr) * (lr - mr + 1))) * pct (m - 1)%nat l
        - sqrt (clamp0 ((lr - mr) * (lr + mr + 1))) * pct (m + 1)%nat l).
Definition dleg1 (pct : arr) (m l : nat) : R :=
  let mr := INR m in let lr := INR l in
  dleg_mask m l * 0.5 * sqrt ((2 * lr + 1) / (2 * lr + 3)) *
       (sqrt (clamp0 ((lr - mr + 1) * (lr - mr + 2))) * pct (m - 1)%nat (l + 1)%nat
        + sqrt ((lr + mr + 1) * (lr + mr + 2)) * pct (m + 1)%nat (l + 1)%nat).
Definition schmidt_corr (nm : shnorm) (inverse : bool) (l : nat) : R :=
  match nm with
  | Schmidt => if inverse then sqrt ((2 * INR l + 1) / (2 * INR l + 3)) else sqrt ((2 * INR l + 3) / (2 * INR l + 1))
  | _ => 1
  end.
Definition precompute_dlegpoly (mmax lmax : nat) (t : R) (nm : shnorm) (inverse csphase : bool) (d m l : nat) : R :=
  let pct := precompute_legpoly (mmax + 1) (lmax + 1) t nm inverse false in
  let v := if (d =? 0)%nat then dleg0 pct m l else dleg1 pct m l * schmidt_corr nm inverse l in
  if (csphase && Nat.odd m)%bool then - 1 * v else v.
