(** The losses on Fourier gradients (torch_harmonics/examples/losses.py). *)
From Coq Require Import List Arith Lia Bool Reals.
From Coquelicot Require Import Complex.
From Verif Require Import TensorModel BigSum TruncModel QuadModel FFTModel LossModel.
Import ListNotations.
Local Open Scope R_scope.

(** ** torch operations *)

(** torch.fft.fftfreq(n, d): 0, 1, .., then the negative frequencies, over n d. *)
Definition fftfreq (n : nat) (d : R) : tensor R :=
  mkT [n] (fun i => let k := nth 0 i 0%nat in (if (k <? (n + 1) / 2)%nat then INR k else INR k - INR n) / (INR n * d)).
(** torch.meshgrid(a, b, indexing="ij") *)
Definition meshgrid_ij (a b : tensor R) : tensor R * tensor R :=
  let s := [dimsz a 0; dimsz b 0] in
  (mkT s (fun i => val a [nth 0 i 0%nat]), mkT s (fun i => val b [nth 1 i 0%nat])).
(** The sums of torch.fft.fft2 (sg = -1) and torch.fft.ifft2 (sg = 1) over the last two
    dimensions; torch raises on fewer dimensions and on an empty one. *)
Definition dft2 (sg : R) (x : tensor C) : option (tensor C) :=
  let n := ndim x in
  do _ <- guard (2 <=? n)%nat;
  let h := dimsz x (n - 2) in let w := dimsz x (n - 1) in
  do _ <- guard ((1 <=? h) && (1 <=? w))%nat;
  Some (mkT (shp x) (fun i => csum h (fun k => csum w (fun j =>
    Cmult (val x (firstn (n - 2) i ++ [k; j]))
      (Cmult (cis (sg * (2 * PI * INR k * INR (nth (n - 2) i 0%nat) / INR h)))
             (cis (sg * (2 * PI * INR j * INR (nth (n - 1) i 0%nat) / INR w)))))))).
Definition fft2 (x : tensor R) : option (tensor C) := dft2 (-1) (map_t RtoC x).
Definition ifft2 (x : tensor C) : option (tensor C) :=
  do y <- dft2 1 x;
  Some (map_t (Cmult (RtoC (/ (INR (dimsz x (ndim x - 2)) * INR (dimsz x (ndim x - 1)))))) y).
(** x.unsqueeze(0), x.squeeze(1) of a dimension of size 1, torch.stack([a, b, c], dim=1) *)
Definition unsqueeze0 (x : tensor R) : tensor R := mkT (1%nat :: shp x) (fun i => val x (tl i)).
Definition squeeze1 (x : tensor R) : tensor R :=
  mkT (firstn 1 (shp x) ++ skipn 2 (shp x)) (fun i => val x (firstn 1 i ++ 0%nat :: skipn 1 i)).
Definition stack1 (a b c : tensor R) : option (tensor R) :=
  do _ <- guard (shape_eqb (shp a) (shp b) && shape_eqb (shp b) (shp c) && (1 <=? ndim a)%nat);
  Some (mkT (firstn 1 (shp a) ++ 3%nat :: skipn 1 (shp a))
    (fun i => let e := firstn 1 i ++ skipn 2 i in match nth 1 i 0%nat with 0%nat => val a e | 1%nat => val b e | _ => val c e end)).
(** torch.sum(x, dim=1, keepdim=True) *)
Definition sum1_keep (x : tensor R) : tensor R :=
  mkT (firstn 1 (shp x) ++ 1%nat :: skipn 2 (shp x)) (fun i => rsum (dimsz x 1) (fun c => val x (firstn 1 i ++ c :: skipn 2 i))).
(** F.normalize(x, p=2, dim=1): by the norm, at least eps = 1e-12. *)
Definition normalize1 (x : tensor R) : tensor R :=
  mkT (shp x) (fun i => val x i / Rmax (sqrt (rsum (dimsz x 1) (fun c => val x (firstn 1 i ++ c :: skipn 2 i) ^ 2))) (/ 10 ^ 12)).

(** ** losses.py *)

(** losses.py:319-329 [W11LossS2.__init__] and 373-383 [NormalLossS2.__init__], the same
    statements: the (normalised) weights and the meshes k_phi_mesh, k_theta_mesh.  fftfreq of
    zero points divides by zero (None). *)
Definition gradient_loss_init (gl : nat -> rule) (nlat nlon : nat) (g : grid) : option (tensor R * tensor R * tensor R) :=
  do q <- loss_weights gl nlat nlon g true;
  do _ <- guard ((1 <=? nlat) && (1 <=? nlon))%nat;
  let l_phi := 2 * PI in
  let l_theta := PI in
  let k_phi := fftfreq nlon (l_phi / (2 * PI * INR nlon)) in
  let k_theta := fftfreq nlat (l_theta / (2 * PI * INR nlat)) in
  let '(k_theta_mesh, k_phi_mesh) := meshgrid_ij k_theta k_phi in
  Some (q, k_phi_mesh, k_theta_mesh).

(** losses.py:335, 336, 338, 339, 390, 391: ifft2(1j * mesh * fft2(x)).real.  Casts to
    float32 are not modelled. *)
Definition fourier_gradient (mesh x : tensor R) : option (tensor R) :=
  do X <- fft2 x;
  do Y <- bmap2 Cmult (map_t (fun k => Cmult Ci (RtoC k)) mesh) X;
  do z <- ifft2 Y;
  Some (map_t Re z).

(** losses.py:331-342 [W11LossS2._compute_loss_term] *)
Definition w11_term (k_phi k_theta prd tar : tensor R) : option (tensor R) :=
  do pp <- fourier_gradient k_phi prd;
  do pt <- fourier_gradient k_theta prd;
  do tp <- fourier_gradient k_phi tar;
  do th <- fourier_gradient k_theta tar;
  do a <- bmap2 (fun u v => Rabs (u - v)) pp tp;
  do b <- bmap2 (fun u v => Rabs (u - v)) pt th;
  bmap2 Rplus a b.

(** losses.py:385-392 [NormalLossS2.compute_gradients]: (latitude, longitude). *)
Definition compute_gradients (k_phi k_theta x : tensor R) : option (tensor R * tensor R) :=
  let x := if (ndim x =? 2)%nat then unsqueeze0 x else x in
  do xp <- fourier_gradient k_phi x;
  do xt <- fourier_gradient k_theta x;
  Some (xt, xp).
(** losses.py:394-408 [NormalLossS2.compute_normals] *)
Definition compute_normals (k_phi k_theta x : tensor R) : option (tensor R) :=
  let x := if (ndim x =? 2)%nat then unsqueeze0 x else x in
  do g <- compute_gradients k_phi k_theta x;
  let '(grad_lat, grad_lon) := g in
  let ones := map_t (fun _ => 1) x in
  do n <- stack1 (map_t Ropp grad_lon) (map_t Ropp grad_lat) ones;
  Some (normalize1 n).
(** losses.py:410-429 [NormalLossS2._compute_loss_term] *)
Definition normal_term (k_phi k_theta prd tar : tensor R) : option (tensor R) :=
  let adjust x :=
    let x := if (ndim x =? 2)%nat then unsqueeze0 x else x in
    if ((ndim x =? 4) && (dimsz x 1 =? 1))%nat then squeeze1 x else x in
  let prd := adjust prd in
  let tar := adjust tar in
  do pn <- compute_normals k_phi k_theta prd;
  do tn <- compute_normals k_phi k_theta tar;
  do p <- bmap2 Rmult pn tn;
  Some (map_t (fun s => 1 - s) (sum1_keep p)).

(** [W11LossS2.forward], [NormalLossS2.forward] (inherited, 277-300) of an object built by
    [gradient_loss_init] *)
Definition w11_loss (o : tensor R * tensor R * tensor R) (prd tar : tensor R) (mask : option (tensor R)) : option R :=
  let '(q, k_phi, k_theta) := o in spherical_loss (w11_term k_phi k_theta) Some q prd tar mask.
Definition normal_loss (o : tensor R * tensor R * tensor R) (prd tar : tensor R) (mask : option (tensor R)) : option R :=
  let '(q, k_phi, k_theta) := o in spherical_loss (normal_term k_phi k_theta) Some q prd tar mask.
