(** Geometry of the filter and what its normalisation promises. *)
From Coq Require Import List Arith ZArith Bool Reals.
From Verif Require Import TensorModel BigSum TruncModel QuadModel DiscoModel DiscoSpec FilterModel FilterSpec PsiModel AttnSpec.
Import ListNotations.
Local Open Scope R_scope.

(** ** The sphere *)
Definition vec := (R * R * R)%type.
Definition dot (u v : vec) : R := let '(a, b, c) := u in let '(a', b', c') := v in a * a' + b * b' + c * c'.
(** the point with colatitude theta and longitude lambda *)
Definition pt (p : R * R) : vec := (sin (fst p) * cos (snd p), sin (fst p) * sin (snd p), cos (fst p)).
(** great-circle distance *)
Definition gcdist (p q : R * R) : R := acos (dot (pt p) (pt q)).
(** unit tangents at (theta, 0) pointing south and east *)
Definition south (theta : R) : vec := (cos theta, 0, - sin theta).
Definition east : vec := (0, 1, 0).
(** polar coordinates of p around the point (theta, 0): distance, and bearing from
    south towards east *)
Definition polar_about (theta : R) (p : R * R) (r phi : R) : Prop :=
  r = gcdist p (theta, 0) /\ 0 <= phi < 2 * PI /\ sin r * cos phi = dot (pt p) (south theta) /\ sin r * sin phi = dot (pt p) east.
(** longitudes of a grid *)
Definition lon (n j : nat) : R := 2 * PI * INR j / INR n.

(** ** Normalisation *)
(** sum over the entries of one kernel that belong to one latitude; [lat] says which *)
Definition gsum (lat : entry -> nat) (es : list entry) (f : entry -> R) (k t : nat) : R :=
  rlsum (fun e => if ((ker e =? k) && (lat e =? t))%nat%bool then f e else 0) es.
Section Norm.
Variables (w : nat) (quad : nat -> R) (tr merge : bool) (corr : R).
(** the latitude a filter belongs to (the one of the points it produces) and the
    latitude it integrates over; the transposed layer exchanges them *)
Definition lat_of (e : entry) : nat := if tr then (col e / w)%nat else row e.
Definition lat_from (e : entry) : nat := if tr then row e else (col e / w)%nat.
(** quadrature weight of an entry *)
Definition qw (e : entry) : R := quad (lat_from e).
(** and what is left to multiply with after normalisation *)
Definition left_weight (e : entry) : R := if merge then (if tr then corr else 1) else qw e.
End Norm.
(** same positions *)
Definition index (e : entry) : nat * nat * nat := (ker e, row e, col e).
(** entries with new values *)
Definition with_values (es : list entry) (vs : list R) : list entry := map (fun p => mkE (ker (fst p)) (row (fst p)) (col (fst p)) (snd p)) (List.combine es vs).

(** ** The filter tensor *)
(** [es] samples the functions f_k around every output latitude: each listed entry lies
    within the radius and holds the function's value at the point's distance and
    bearing; inside the radius whatever is not listed vanishes. *)
Definition samples (K Hi Wi Ho : nat) (tin tout : nat -> R) (rc : R) (f : nat -> R -> R -> R) (es : list entry) : Prop :=
  NoDup (map index es) /\
  (forall e, In e es -> (ker e < K)%nat /\ (row e < Ho)%nat /\ (col e < Hi * Wi)%nat /\
     exists r phi, polar_about (tout (row e)) (tin (col e / Wi)%nat, lon Wi (col e mod Wi)) r phi /\ r <= rc /\ pv e = f (ker e) r phi) /\
  (forall k t i j, (k < K)%nat -> (t < Ho)%nat -> (i < Hi)%nat -> (j < Wi)%nat -> gcdist (tin i, lon Wi j) (tout t, 0) <= rc -> ~ In (k, t, (i * Wi + j)%nat) (map index es) ->
     exists r phi, polar_about (tout t) (tin i, lon Wi j) r phi /\ f k r phi = 0).
(** every point within the radius is listed for every kernel *)
Definition covers (K Hi Wi Ho : nat) (tin tout : nat -> R) (rc : R) (es : list entry) : Prop :=
  forall k t i j, (k < K)%nat -> (t < Ho)%nat -> (i < Hi)%nat -> (j < Wi)%nat -> gcdist (tin i, lon Wi j) (tout t, 0) <= rc -> In (k, t, (i * Wi + j)%nat) (map index es).

(** what is needed of a basis *)
Definition basis_of (fb : fbasis) (f : R -> nat -> R -> R -> R) : Prop :=
  forall H W r phi rc s, 0 < rc -> polar H W r phi -> fb_support fb H W r phi rc = Some s -> represents s (fb_size fb) H W r phi rc (f rc).
Definition basis_full (fb : fbasis) : Prop :=
  forall H W r phi rc s, fb_support fb H W r phi rc = Some s -> forall k i j, (k < fb_size fb)%nat -> (i < H)%nat -> (j < W)%nat -> r i j <= rc -> In (k, i, j) (map fst s).
Definition mask_ok (fb : fbasis) : Prop := forall m, fb_mask fb = Some m -> length m = fb_size fb.

(** the functions of the library's bases *)
Definition pl_fun (nr nphi : nat) (rc : R) (k : nat) : R -> R -> R := tent nr nphi rc (nth k (centres nr nphi rc) (0, None)).
Definition hm_fun (k0 k1 : nat) (nm : nat -> R) (rc : R) (k : nat) (r phi : R) : R := harmonic rc (nth k (pairs k0 k1) (0, 0)%nat) r phi / nm k.
Definition zk_fun (N : nat) (rc : R) (k : nat) : R -> R -> R := zernike rc (nth k (zernike_orders N) (0%nat, 0%Z)).

(** an input point lies within the radius of output latitude t *)
Definition reached (Hi Wi : nat) (tin tout : nat -> R) (rc : R) (t : nat) : Prop := exists i j, (i < Hi)%nat /\ (j < Wi)%nat /\ gcdist (tin i, lon Wi j) (tout t, 0) <= rc.

(** What the precomputation returns: raw samples [es], their normalised values and the
    row offsets.  The quadrature weights sum to one over the sphere. *)
Definition quad_of (gl : nat -> rule) (qi qo : rule) (tr : bool) (Wi i : nat) : R := (if tr then rw qo i else rw qi i) / INR Wi / 2.
Record built (gl : nat -> rule) (Hi Wi Ho Wo : nat) (fb : fbasis) (f : R -> nat -> R -> R -> R) (gi go : grid) (c : R) (tr : bool) (mode : nmode) (merge : bool) (es' : list entry) (roff : list nat) (qi qo : rule) (es : list entry) : Prop := mkBuilt {
  bu_i : precompute_latitudes gl Hi gi = Some qi;
  bu_o : precompute_latitudes gl Ho go = Some qo;
  bu_samples : samples (fb_size fb) Hi Wi Ho (rn qi) (rn qo) ((1 + 1 / 1000) * c) (f ((1 + 1 / 1000) * c)) es;
  bu_covers : basis_full fb -> covers (fb_size fb) Hi Wi Ho (rn qi) (rn qo) ((1 + 1 / 1000) * c) es;
  bu_sorted : rows_sorted es;
  bu_index : map index es' = map index es;
  bu_norm : exists vs m, fb_mask fb = Some m /\ es' = with_values es vs /\
    normalize_psi Hi Wi Ho Wo (fb_size fb) (if tr then Ho else Hi) (quad_of gl qi qo tr Wi) c tr merge (Some m) (/ 10 ^ 9) mode es = Some vs;
  bu_roff : exists P, roff = offsets 0 P /\ map col es' = columns P /\ length P = Ho /\ forall t, (t < Ho)%nat -> nth t P [] = map col (filter (fun e => row e =? t)%nat es) }.
