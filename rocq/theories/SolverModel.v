(** The spectral solvers of the examples (torch_harmonics/examples/shallow_water_equations.py and pde_sphere.py). *)
From Coq Require Import List Arith Lia Bool Reals ZArith.
From Coquelicot Require Import Coquelicot.
From Verif Require Import TensorModel BigSum TruncModel LegendreModel QuadModel SHTModel LossModel.
Import ListNotations.
Local Open Scope R_scope.

(** ** shallow_water_equations.py *)
Record swe := mkSwe {
  w_nlat : nat; w_nlon : nat; w_lmax : nat; w_mmax : nat;
  w_dt : R; w_radius : R; w_omega : R; w_gravity : R; w_havg : R; w_hamp : R;
  w_sht : sht; w_isht : sht; w_vsht : sht; w_ivsht : sht;
  w_lats : tensor R; w_lap : tensor R; w_invlap : tensor R; w_coriolis : tensor R; w_hyperdiff : option (tensor R); w_quad : tensor R }.

(** shallow_water_equations.py:120-126 (pde_sphere.py:106-111) the degree as an (lmax, mmax)
    array and the Laplace operator on coefficients.  Row 0 of the inverse is -r^2/0/1, infinite, and then
    overwritten by 0. *)
Definition laplacian (lmax mmax : nat) (radius : R) : tensor R :=
  mkT [lmax; mmax] (fun i => let l := INR (nth 0 i 0%nat) in - l * (l + 1) / radius ^ 2).
Definition inverse_laplacian (lmax mmax : nat) (radius : R) : tensor R :=
  mkT [lmax; mmax] (fun i => let l := INR (nth 0 i 0%nat) in if (nth 0 i 0 =? 0)%nat then 0 else - radius ^ 2 / l / (l + 1)).

(** shallow_water_equations.py:131-132: for lmax = 1 the array is 0/0 (None). *)
Definition hyperdiffusion (lmax mmax : nat) (radius dt : R) : option (tensor R) :=
  let lap := laplacian lmax mmax radius in
  if (lmax =? 1)%nat then None else
  Some (map_t (fun v => exp ((- dt / 2 / 3600) * (v / val lap [(lmax - 1)%nat; 0%nat]) ^ 4)) lap).

(** shallow_water_equations.py:76-142 [ShallowWaterSolver.__init__].  radius = 0 gives infinite
    buffers and is not modelled (None); precompute_longitudes and the device placement of
    buffers play no role below.  The quadrature rule is selected by the same branches as in the
    transforms, whose constructors come first and raise for any other grid. *)
Definition swe_init (gl : nat -> rule) (nlat nlon : nat) (dt : R) (lmax mmax : option nat) (g : grid) (radius omega gravity havg hamp : R) : option swe :=
  do s <- real_sht_init gl nlat nlon lmax mmax g Ortho false;
  do si <- inverse_sht_init gl nlat nlon lmax mmax g Ortho false;
  do v <- vector_sht_init gl nlat nlon lmax mmax g Ortho false;
  do vi <- inverse_vector_sht_init gl nlat nlon lmax mmax g Ortho false;
  do q <- sht_rule gl nlat g;
  if Req_EM_T radius 0 then None else
  let lats := mkT [nlat] (fun i => - asin (rn q (nth 0 i 0%nat))) in
  Some (mkSwe nlat nlon (s_lmax s) (s_mmax s) dt radius omega gravity havg hamp s si v vi lats
    (laplacian (s_lmax s) (s_mmax s) radius) (inverse_laplacian (s_lmax s) (s_mmax s) radius)
    (mkT [nlat; 1%nat] (fun i => 2 * omega * sin (val lats [nth 0 i 0%nat])))
    (hyperdiffusion (s_lmax s) (s_mmax s) radius dt)
    (mkT [nlat; 1%nat] (fun i => rw q (nth 0 i 0%nat)))).

Definition cscale (r : R) (z : C) : C := Cmult (RtoC r) z.

(** shallow_water_equations.py:144-150 *)
Definition grid2spec (s : swe) (u : tensor R) : option (tensor C) := real_sht (w_sht s) u.
Definition spec2grid (s : swe) (u : tensor C) : option (tensor R) := inverse_sht (w_isht s) u.
(** shallow_water_equations.py:152-155 [vrtdivspec] *)
Definition vrtdivspec (s : swe) (u : tensor R) : option (tensor C) :=
  do y <- vector_sht (w_vsht s) u; bmap2 cscale (map_t (fun v => v * w_radius s) (w_lap s)) y.
(** shallow_water_equations.py:157-159 [getuv] *)
Definition getuv (s : swe) (vd : tensor C) : option (tensor R) :=
  do y <- bmap2 cscale (w_invlap s) vd; inverse_vector_sht (w_ivsht s) (map_t (cscale (/ w_radius s)) y).
(** x[1:] for a first dimension of size n *)
Definition tail0 {A} (x : tensor A) : tensor A := narrow 0 1 (dimsz x 0 - 1) x.
(** shallow_water_equations.py:161-165 [gethuv], for uspec of shape (3, lmax, mmax) *)
Definition gethuv (s : swe) (u : tensor C) : option (tensor R) :=
  do hgrid <- spec2grid s (narrow 0 0 1 u); do uv <- getuv s (tail0 u); Some (cat2 0 hgrid uv).

(** shallow_water_equations.py:180-203 [dudtspec].  Only coefficients of shape
    (3, lmax, mmax) are modelled: any other shape fails in one of the transforms or in the
    assignment to the three components. *)
Definition stack3 {A} (a b c : tensor A) : tensor A :=
  mkT (3%nat :: shp a) (fun i => match nth 0 i 0%nat with O => val a (tl i) | 1%nat => val b (tl i) | _ => val c (tl i) end).
Definition dudtspec (s : swe) (u : tensor C) : option (tensor C) :=
  do _ <- guard (shape_eqb (shp u) [3; w_lmax s; w_mmax s]%nat);
  do ugrid <- spec2grid s u;
  do uvgrid <- getuv s (tail0 u);
  do f <- bmap2 Rplus (select0 1 ugrid) (w_coriolis s);
  do tmp <- bmap2 Rmult uvgrid f;
  do tmpspec <- vrtdivspec s tmp;
  do tmp' <- bmap2 Rmult uvgrid (select0 0 ugrid);
  do tmpspec' <- vrtdivspec s tmp';
  let e := map2_t (fun p k => p + 0.5 * k) (select0 0 ugrid) (map2_t (fun a b => a ^ 2 + b ^ 2) (select0 0 uvgrid) (select0 1 uvgrid)) in
  do espec <- grid2spec s e;
  do lape <- bmap2 cscale (w_lap s) espec;
  Some (stack3 (map_t (cscale (-1)) (select0 1 tmpspec')) (map_t (cscale (-1)) (select0 1 tmpspec))
               (map2_t Cminus (select0 0 tmpspec) lape)).

(** shallow_water_equations.py:290-320 [timestep]: the three slots for tendencies and the three
    indices into them, as they are before pass [iter] of the loop. *)
Record ab := mkAB { a_u : tensor C; a_slot : nat -> tensor C; a_new : Z; a_now : Z; a_old : Z }.
Definition set_slot (k : Z) (v : tensor C) (f : nat -> tensor C) : nat -> tensor C := fun j => if (Z.of_nat j =? k)%Z then v else f j.
Definition get_slot (f : nat -> tensor C) (k : Z) : tensor C := f (Z.to_nat k).
Definition ab_step (s : swe) (iter : nat) (t : ab) : option ab :=
  do d <- dudtspec s (a_u t);
  let f := set_slot (a_new t) d (a_slot t) in
  let f := match iter with
           | O => let f := set_slot (a_now t) (get_slot f (a_new t)) f in set_slot (a_old t) (get_slot f (a_new t)) f
           | 1%nat => set_slot (a_old t) (get_slot f (a_new t)) f
           | _ => f
           end in
  let dn := get_slot f (a_new t) in let dw := get_slot f (a_now t) in let dl := get_slot f (a_old t) in
  let u := mkT (shp (a_u t)) (fun i => Cplus (val (a_u t) i)
             (cscale (w_dt s) (Cplus (Cminus (cscale (23 / 12) (val dn i)) (cscale (16 / 12) (val dw i))) (cscale (5 / 12) (val dl i))))) in
  do hd <- w_hyperdiff s;
  let u := mkT (shp u) (fun i => if (nth 0 i 0 =? 0)%nat then val u i else cscale (val hd (tl i)) (val u i)) in
  Some (mkAB u f ((a_new t - 1) mod 3) ((a_now t - 1) mod 3) ((a_old t - 1) mod 3))%Z.
Fixpoint ab_loop (s : swe) (todo iter : nat) (t : ab) : option ab :=
  match todo with O => Some t | S n => do t' <- ab_step s iter t; ab_loop s n (S iter) t' end.
Definition timestep (s : swe) (u : tensor C) (nsteps : nat) : option (tensor C) :=
  let zero := mkT [3; w_lmax s; w_mmax s]%nat (fun _ => RtoC 0) in
  do t <- ab_loop s nsteps 0 (mkAB u (fun _ => zero) 0 1 2); Some (a_u t).

(** torch.tril, which the two initial conditions apply to what they return
    (shallow_water_equations.py:244, 288); the initial conditions themselves are not modelled. *)
Definition tril (x : tensor C) : tensor C :=
  mkT (shp x) (fun i => if (nth (ndim x - 1) i 0 <=? nth (ndim x - 2) i 0)%nat then val x i else RtoC 0).

(** shallow_water_equations.py:322-330 [integrate_grid] *)
Definition integrate_grid (s : swe) (x : tensor R) (dimensionless : bool) (polar_opt : nat) : option (tensor R) :=
  let dlon := 2 * PI / INR (w_nlon s) in
  let radius := if dimensionless then 1 else w_radius s in
  let cut {A} (d : nat) (t : tensor A) := if (polar_opt =? 0)%nat then t else narrow d polar_opt (dimsz t d - 2 * polar_opt) t in
  do p <- bmap2 Rmult (cut (ndim x - 2)%nat x) (cut 0%nat (w_quad s));
  sum_last2 (map_t (fun v => v * dlon * radius ^ 2) p).

(** ** pde_sphere.py *)
Record pde := mkPde { p_nlat : nat; p_nlon : nat; p_lmax : nat; p_mmax : nat; p_radius : R; p_coeff : R; p_sht : sht; p_isht : sht; p_lap : tensor R; p_invlap : tensor R }.
(** pde_sphere.py:69-118 [SphereSolver.__init__].  The operators are stored as complex numbers
    with imaginary part 0; radius = 0 is not modelled. *)
Definition pde_init (gl : nat -> rule) (nlat nlon : nat) (lmax mmax : option nat) (g : grid) (radius coeff : R) : option pde :=
  do s <- real_sht_init gl nlat nlon lmax mmax g Ortho false;
  do si <- inverse_sht_init gl nlat nlon lmax mmax g Ortho false;
  if Req_EM_T radius 0 then None else
  Some (mkPde nlat nlon (s_lmax s) (s_mmax s) radius coeff s si (laplacian (s_lmax s) (s_mmax s) radius) (inverse_laplacian (s_lmax s) (s_mmax s) radius)).
(** pde_sphere.py:127-141 [dudtspec]; PdeOther: any other name *)
Inductive pde_type := AllenCahn | GinzburgLandau | PdeOther.
Definition pde_dudt (s : pde) (ty : pde_type) (u : tensor C) : option (tensor C) :=
  match ty with
  | PdeOther => None
  | _ =>
      do ugrid <- inverse_sht (p_isht s) u;
      do u3 <- real_sht (p_sht s) (map_t (fun v => v ^ 3) ugrid);
      match ty with
      | AllenCahn => do lu <- bmap2 cscale (map_t (fun v => p_coeff s * v) (p_lap s)) u; Some (map2_t Cminus (map2_t Cplus lu u) u3)
      | _ => do lu <- bmap2 Cmult (map_t (fun v => Cmult (Cmult (1, 2) (RtoC (p_coeff s))) (RtoC v)) (p_lap s)) u;
             Some (map2_t Cminus (map2_t Cplus u lu) (map_t (Cmult (1, 2)) u3))
      end
  end.
