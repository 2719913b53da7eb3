(** The initial conditions of the shallow-water solver
    (torch_harmonics/examples/shallow_water_equations.py:205-288) and the dataset built on it
    (torch_harmonics/examples/pde_dataset.py).

    Random numbers are an argument, [noise], a complex array of the shape of the
    state.  Casts, devices, streams and the inference-mode contexts are not modelled.
    None is an error, or a nan / inf in the result. *)
From Coq Require Import List Arith Lia Bool Reals ZArith.
From Coquelicot Require Import Coquelicot.
From Verif Require Import TensorModel BigSum TruncModel QuadModel SHTModel LossModel SolverModel.
Import ListNotations.
Local Open Scope R_scope.

(** shallow_water_equations.py:246-288 [random_initial_condition]: noise on the degrees and orders
    below 120, scaled per component; the mean geopotential is added to the first
    coefficient.  gravity * havg is not negative. *)
Definition ic_scale : R := sqrt (4 * PI / 120 / 121).
Definition random_ic (s : swe) (mach : R) (noise : tensor C) : tensor C :=
  tril (mkT [3; w_lmax s; w_mmax s]%nat (fun i =>
    let c := nth 0 i 0%nat in let l := nth 1 i 0%nat in let m := nth 2 i 0%nat in
    let base := if (l <? 120)%nat && (m <? 120)%nat then cscale ic_scale (val noise i) else RtoC 0 in
    if (c =? 0)%nat
    then Cplus (cscale (w_gravity s * w_hamp s) base)
               (if (l =? 0)%nat && (m =? 0)%nat then RtoC (sqrt (4 * PI) * w_havg s * w_gravity s) else RtoC 0)
    else cscale (mach * sqrt (w_gravity s * w_havg s) / w_radius s) base)).

(** shallow_water_equations.py:209-225 the jet and the bump; alpha = 1/3, beta = 1/15; the
    longitudes are 2 pi j / nlon *)
Definition jet (lat : R) : R :=
  let phi0 := PI / 7 in let phi1 := 0.5 * PI - phi0 in
  let en := exp (-4 / (phi1 - phi0) ^ 2) in
  if Rlt_dec phi0 lat then if Rlt_dec lat phi1 then 80 / en * exp (1 / ((lat - phi0) * (lat - phi1))) else 0 else 0.
Definition bump (hamp lat lon : R) : R :=
  hamp * cos lat * exp (- ((lon - PI) / (1 / 3)) ^ 2) * exp (- (0.25 * PI - lat) ^ 2 / (1 / 15)).
Definition jet_grid (s : swe) : tensor R :=
  mkT [2; w_nlat s; w_nlon s]%nat (fun i => if (nth 0 i 0 =? 0)%nat then jet (val (w_lats s) [nth 1 i 0%nat]) else 0).
Definition height_grid (s : swe) : tensor R :=
  mkT [w_nlat s; w_nlon s] (fun i =>
    w_gravity s * (w_havg s + bump (w_hamp s) (val (w_lats s) [nth 0 i 0%nat]) (2 * PI * INR (nth 1 i 0%nat) / INR (w_nlon s)))).
(** shallow_water_equations.py:205-244 [galewsky_initial_condition] *)
Definition galewsky_ic (s : swe) : option (tensor C) :=
  let ug := jet_grid s in
  do vd <- vrtdivspec s ug;
  do vg <- spec2grid s vd;
  do f <- bmap2 Rplus vg (w_coriolis s);
  do ts <- vrtdivspec s (map2_t Rmult ug f);
  do ke <- grid2spec s (map2_t (fun a b => 0.5 * (a ^ 2 + b ^ 2)) (select0 0 ug) (select0 1 ug));
  do a <- bmap2 cscale (w_invlap s) (select0 0 ts);
  do b <- grid2spec s (height_grid s);
  Some (tril (mkT [3; w_lmax s; w_mmax s]%nat (fun i =>
    match nth 0 i 0%nat with
    | O => Cplus (Cminus (val a (tl i)) (val ke (tl i))) (val b (tl i))
    | S c => val vd (c :: tl i)
    end))).

(** shallow_water_equations.py:173-178 [dimensionless]; it overwrites its argument as well *)
Definition dimensionless (s : swe) (u : tensor C) : tensor C :=
  mkT (shp u) (fun i =>
    if (nth 0 i 0 =? 0)%nat then cscale (/ w_hamp s / w_gravity s) (Cminus (val u i) (RtoC (w_havg s * w_gravity s)))
    else cscale (w_radius s / sqrt (w_gravity s * w_havg s)) (val u i)).

(** ** pde_dataset.py *)
Inductive ictype := ICRandom | ICGalewsky | ICOther.

(** pde_dataset.py:123-134 [_get_sample]; any other name leaves [inp] unbound *)
Definition initial (s : swe) (ic : ictype) (noise : tensor C) : option (tensor C) :=
  match ic with ICRandom => Some (random_ic s 0.2 noise) | ICGalewsky => galewsky_ic s | ICOther => None end.
Definition get_sample (s : swe) (nsteps : nat) (ic : ictype) (noise : tensor C) : option (tensor R * tensor R) :=
  do inp <- initial s ic noise;
  do tar <- timestep s inp nsteps;
  do a <- spec2grid s inp;
  do b <- spec2grid s tar;
  Some (a, b).

(** torch.mean and torch.var (unbiased) over the last two dimensions *)
Definition channel_mean (h w : nat) (x : tensor R) (c : nat) : R :=
  rsum h (fun k => rsum w (fun j => val x [c; k; j])) / INR (h * w).
Definition channel_var (h w : nat) (x : tensor R) (c : nat) : R :=
  rsum h (fun k => rsum w (fun j => (val x [c; k; j] - channel_mean h w x c) ^ 2)) / INR (h * w - 1).

Record pdeset := mkPdeset {
  e_solver : swe; e_nsteps : nat; e_ic : ictype; e_num : nat;
  e_norm : option ((nat -> R) * (nat -> R)) }.

(** pde_dataset.py:72-111 [__init__] for the shallow water equations, with the solver's default constants;
    nsteps = 0 divides by zero; ceil(nlat / 3) bounds degree and order.  The target of the
    sample that gives the statistics is not used. *)
Definition pdeset_init (gl : nat -> rule) (dt : R) (nsteps nlat nlon : nat) (g : grid) (ic : ictype) (num : nat) (normalize : bool) (noise : tensor C) : option pdeset :=
  do _ <- guard (1 <=? nsteps)%nat;
  let lmax := ((nlat + 2) / 3)%nat in
  do s <- swe_init gl nlat nlon (dt / INR nsteps) (Some lmax) (Some lmax) g (IZR 6371220) (7292 / IZR 100000000) (IZR 980616 / IZR 100000) (IZR 10000) 120;
  if normalize
  then do inp <- initial s ic noise;
       do a <- spec2grid s inp;
       Some (mkPdeset s nsteps ic num (Some (channel_mean nlat nlon a, channel_var nlat nlon a)))
  else Some (mkPdeset s nsteps ic num None).
(** pde_dataset.py:113-121 *)
Definition pdeset_len (d : pdeset) : nat := match e_ic d with ICRandom => e_num d | _ => 1 end.
Definition set_ic (ic : ictype) (d : pdeset) : pdeset := mkPdeset (e_solver d) (e_nsteps d) ic (e_num d) (e_norm d).
Definition set_num (n : nat) (d : pdeset) : pdeset := mkPdeset (e_solver d) (e_nsteps d) (e_ic d) n (e_norm d).
(** pde_dataset.py:156-158: a variance of 0 in one of the three channels divides by zero *)
Definition standardise (mean var : nat -> R) (x : tensor R) : option (tensor R) :=
  if Req_EM_T (var 0%nat * var 1%nat * var 2%nat) 0 then None
  else Some (mkT (shp x) (fun i => (val x i - mean (nth 0 i 0%nat)) / sqrt (var (nth 0 i 0%nat)))).
(** pde_dataset.py:136-160 [__getitem__] *)
Definition pdeset_item (d : pdeset) (noise : tensor C) : option (tensor R * tensor R) :=
  do p <- get_sample (e_solver d) (e_nsteps d) (e_ic d) noise;
  match e_norm d with
  | Some (mean, var) => do a <- standardise mean var (fst p); do b <- standardise mean var (snd p); Some (a, b)
  | None => Some p
  end.
