(** Quadrature rules (torch_harmonics/quadrature.py) over exact reals. *)
From Coq Require Import List Arith Lia Bool Reals.
From Coquelicot Require Import Coquelicot.
From Verif Require Import TensorModel BigSum FFTModel TruncModel.
Import ListNotations.
Local Open Scope R_scope.

(** A rule with n points: nodes and weights, index 0..n-1. *)
Record rule := mkRule { rn : nat -> R; rw : nat -> R }.

(** Affine rescaling from [-1,1] to [a,b], shared by all routines
    (quadrature.py:201-202, 263-265, 321-323). *)
Definition rescale (a b : R) (q : rule) : rule :=
  mkRule (fun i => (b - a) * 0.5 * rn q i + (b + a) * 0.5) (fun i => rw q i * (b - a) * 0.5).

(** torch.linspace(lo, hi, n) for n >= 2 *)
Definition linspace (lo hi : R) (n i : nat) : R := lo + (hi - lo) * INR i / INR (n - 1).

(** quadrature.py:140-173 [trapezoidal_weights].  For n = 1 without [periodic]
    the code divides by zero (inf); the model returns None. *)
Definition trapezoidal_weights (n : nat) (a b : R) (periodic : bool) : option rule :=
  let d := ((n - 1) + (if periodic then 1 else 0))%nat in
  if (n =? 0)%nat || (d =? 0)%nat then None else
  let x := fun i => a + (b - a) * INR i / INR d in
  let w := fun (_ : nat) => (b - a) / INR d * 1 in
  let w := if periodic then w
           else let w0 := fun i => if (i =? 0)%nat then w i * 0.5 else w i in
                fun i => if (i =? n - 1)%nat then w0 i * 0.5 else w0 i in
  Some (mkRule x w).

(** quadrature.py:176-204 [legendre_gauss_weights].  numpy's leggauss is an
    external routine: [gl n] is the rule it returns. *)
Definition legendre_gauss_weights (gl : nat -> rule) (n : nat) (a b : R) : option rule :=
  if (n =? 0)%nat then None else Some (rescale a b (gl n)).

(** quadrature.py:207-267 [lobatto_weights]. *)
(** 240-243: initial guess *)
Definition lobatto_guess (n i : nat) : R := - cos (PI * INR i / (INR n - 1)).
(** 250-254: column k of the Vandermonde matrix at node value t *)
Fixpoint leg_pair (t : R) (k : nat) : R * R := (* (P_k, P_{k-1}), P_{-1} := 0 *)
  match k with
  | O => (1, 0)
  | S j => match j with
           | O => (t, 1)
           | S _ => let '(p1, p2) := leg_pair t j in
                    (((2 * INR k - 1) * t * p1 - (INR k - 1) * p2) / INR k, p1)
           end
  end.
Definition legP (k : nat) (t : R) : R := fst (leg_pair t k).
(** 256: one sweep *)
Definition lobatto_sweep (n : nat) (t : R) : R :=
  t - (t * legP (n - 1) t - legP (n - 2) t) / (INR n * legP (n - 1) t).
(** 258-259: max_i |new_i - old_i| < tol *)
Definition lobatto_small (n : nat) (tol : R) (old new : nat -> R) : bool :=
  forallb (fun i => if Rlt_dec (Rabs (new i - old i)) tol then true else false) (seq 0 n).
(** 247-259: at most [maxiter] sweeps; result: nodes after the last sweep and
    the node values at which vdm was last filled. *)
Fixpoint lobatto_iter (n : nat) (tol : R) (fuel : nat) (t : nat -> R) : (nat -> R) * (nat -> R) :=
  match fuel with
  | O => (t, t)
  | S f =>
      let t' := fun i => lobatto_sweep n (t i) in
      if lobatto_small n tol t t' then (t', t)
      else match f with O => (t', t) | S _ => lobatto_iter n tol f t' end
  end.
(** 261: weights from the last vdm. *)
Definition lobatto_weights (n : nat) (a b tol : R) (maxiter : nat) : option rule :=
  if (n <=? 1)%nat || (maxiter =? 0)%nat then None else
  let '(t, s) := lobatto_iter n tol maxiter (lobatto_guess n) in
  Some (rescale a b (mkRule t (fun i => 2 / ((INR n * (INR n - 1)) * (legP (n - 1) (s i) * legP (n - 1) (s i)))))).

(** quadrature.py:270-325 [clenshaw_curtiss_weights]. *)
(** 305-307: N = 1, 3, ... < n1 *)
Definition cc_l (n1 : nat) : nat := (n1 / 2)%nat.
Definition cc_N (i : nat) : R := INR (2 * i + 1).
(** 310: the concatenated vector, of length l + 1 + m = n1 + 1 *)
Definition cc_v (n1 i : nat) : R :=
  if (i <? cc_l n1)%nat then 2 / cc_N i / (cc_N i - 2)
  else if (i =? cc_l n1)%nat then 1 / cc_N (cc_l n1 - 1)
  else 0.
(** 312: v[:-1] and flip(v[1:]), both of length n1 *)
Definition cc_v2 (n1 i : nat) : R := 0 - cc_v n1 i - cc_v n1 (1 + (n1 - 1 - i)).
(** 314-317 *)
Definition cc_g (n1 i : nat) : R :=
  let g0 := fun i => if (i =? cc_l n1)%nat then -1 + INR n1 else -1 in
  let g0 := fun i => if (i =? n1 - cc_l n1)%nat then g0 i + INR n1 else g0 i in
  g0 i / (INR n1 * INR n1 - 1 + INR (n1 mod 2)).
(** 318: torch.fft.ifft(u).real: (1/n1) sum_k u_k exp(2 pi i j k / n1) *)
Definition cc_w (n1 j : nat) : R :=
  Re (Cmult (RtoC (/ INR n1))
        (csum n1 (fun k => Cmult (RtoC (cc_v2 n1 k + cc_g n1 k)) (cis (2 * PI * INR j * INR k / INR n1))))).
Definition clenshaw_curtiss_weights (n : nat) (a b : R) : option rule :=
  if (n <=? 1)%nat then None else
  let t := fun i => cos (linspace PI 0 n i) in
  let w := if (n =? 2)%nat then fun _ => 1
           else fun j => if (j <? n - 1)%nat then cc_w (n - 1) j else cc_w (n - 1) 0 in
  Some (rescale a b (mkRule t w)).

(** quadrature.py:41-86 [_precompute_quadrature_weights].  lobatto_weights is
    called with its defaults tol = 1e-16, maxiter = 100. *)
Definition lobatto_tol : R := / 10 ^ 16.
Definition lobatto_default (n : nat) (a b : R) : option rule := lobatto_weights n a b lobatto_tol 100.
Definition precompute_quadrature_weights (gl : nat -> rule) (n : nat) (g : grid) (a b : R) (periodic : bool) : option rule :=
  if periodic && negb (match g with GTrapezoidal => true | _ => false end) then None else
  match g with
  | GTrapezoidal => trapezoidal_weights n a b periodic
  | GLegendreGauss => legendre_gauss_weights gl n a b
  | GLobatto => lobatto_default n a b
  | GEquiangular => clenshaw_curtiss_weights n a b
  | GOther => None
  end.

(** quadrature.py:89-105 [precompute_longitudes]: linspace(0, 2 pi, nlon + 1)[:-1] *)
Definition precompute_longitudes (nlon : nat) (i : nat) : R := linspace 0 (2 * PI) (nlon + 1) i.

(** quadrature.py:108-137 [precompute_latitudes]: colatitudes and weights, both flipped. *)
Definition flip (n : nat) {B} (v : nat -> B) : nat -> B := fun i => v (n - 1 - i)%nat.
Definition precompute_latitudes (gl : nat -> rule) (nlat : nat) (g : grid) : option rule :=
  match precompute_quadrature_weights gl nlat g (-1) 1 false with
  | None => None
  | Some q => Some (mkRule (flip nlat (fun i => acos (rn q i))) (flip nlat (rw q)))
  end.

(** quadrature.py:403-446 [QuadratureS2.__init__]: the weight of pixel (i, j);
    the weights are used in the order returned by the rule, unflipped. *)
Definition quadrature_s2_rule (gl : nat -> rule) (nlat : nat) (g : grid) : option rule :=
  match g with
  | GLegendreGauss => legendre_gauss_weights gl nlat (-1) 1
  | GLobatto => lobatto_default nlat (-1) 1
  | GEquiangular => clenshaw_curtiss_weights nlat (-1) 1
  | GTrapezoidal => trapezoidal_weights nlat (-1) 1 false
  | GOther => None
  end.
Definition quad_weight_tensor (nlat nlon : nat) (w : nat -> R) (normalize : bool) : tensor R :=
  let dlambda := 2 * PI / INR nlon in
  mkT [1; 1; nlat; nlon]%nat
      (fun i => let q := dlambda * w (nth 2 i 0%nat) in if normalize then q / (4 * PI) else q).

(** Broadcast product with a [1,1,h,w] tensor followed by a sum over the last two
    dimensions (quadrature.py:448-463 [QuadratureS2.forward], with x of rank >= 2; for
    rank 2 and 3 torch's broadcasting adds leading dimensions of size 1).  torch
    would also broadcast a spatial dimension of size 1; here a spatial shape
    different from the one of the weights is an error. *)
Definition integrate_last2 (q x : tensor R) : option (tensor R) :=
  let k := (ndim x - 2)%nat in
  let h := dimsz x k in let w := dimsz x (k + 1) in
  if (2 <=? ndim x)%nat && shape_eqb (shp q) [1; 1; h; w]%nat then
    Some (mkT (repeat 1%nat (2 - k) ++ firstn k (shp x))
      (fun i => rsum h (fun a => rsum w (fun b => val x (skipn (2 - k) i ++ [a; b]) * val q [0; 0; a; b]%nat))))
  else None.
Definition quadrature_s2 (gl : nat -> rule) (nlat nlon : nat) (g : grid) (normalize : bool) (x : tensor R) : option (tensor R) :=
  match quadrature_s2_rule gl nlat g with
  | None => None
  | Some q => integrate_last2 (quad_weight_tensor nlat nlon (rw q) normalize) x
  end.
