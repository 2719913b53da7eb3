(** The serial transforms (torch_harmonics/sht.py) on tensors of any rank. *)
From Coq Require Import List Arith Lia Bool Reals.
From Coquelicot Require Import Coquelicot.
From Verif Require Import TensorModel BigSum FFTModel TruncModel LegendreModel QuadModel.
Import ListNotations.
Local Open Scope R_scope.

(** Operation along dimension [d] producing [n] entries; the vector function
    sees the full output index (needed for contractions with tables). *)
Definition along {A B} (d n : nat) (f : list nat -> (nat -> A) -> B) (t : tensor A) : tensor B :=
  mkT (upd d n (shp t)) (fun i => f i (fun j => val t (upd d j i))).

(** rfft(x, nmodes=mmax, dim=d, norm="forward") followed by the factor 2 pi
    (sht.py:171, 477).  The wrapper always returns exactly nmodes bins. *)
Definition rfft_dim (mmax d : nat) (x : tensor R) : tensor C :=
  let '(sz, _) := rfft NForward (Some mmax) (dimsz x d) (fun _ => 0) in
  along d sz (fun i v => Cmult (RtoC (2 * PI)) (snd (rfft NForward (Some mmax) (dimsz x d) v) (nth d i 0%nat))) x.

(** irfft(x, n=nlon, dim=d, norm="forward") (sht.py:340, 647) *)
Definition irfft_dim (nlon d : nat) (x : tensor C) : tensor R :=
  along d nlon (fun i v => irfft NForward (Some nlon) (dimsz x d) v (nth d i 0%nat)) x.

(** einsum "...mk,mlk->...lm" of x.transpose(-1,-2) (dims [dk], [dm] of x) with a
    table w[m, l, k], on real and imaginary part (sht.py:175-186).  The same
    function models "...ml,mkl->...km" of the inverse (sht.py:325-337).  einsum
    raises when sizes disagree.  The two transposes of the code only permute
    axes around the contraction and are folded into the choice of [dk], [dm]. *)
Definition einsum_ok (w : tensor R) (dk dm : nat) {A} (x : tensor A) : bool :=
  (ndim w =? 3)%nat && (dimsz w 0 =? dimsz x dm)%nat && (dimsz w 2 =? dimsz x dk)%nat.
Definition legcontract (w : tensor R) (dk dm : nat) (x : tensor C) : option (tensor C) :=
  if einsum_ok w dk dm x then
    Some (along dk (dimsz w 1)
      (fun i v => (rsum (dimsz w 2) (fun k => Re (v k) * val w [nth dm i 0; nth dk i 0; k]%nat),
                   rsum (dimsz w 2) (fun k => Im (v k) * val w [nth dm i 0; nth dk i 0; k]%nat))) x)
  else None.

(** The four contractions of the vector transforms and the stack at dim -3
    (sht.py:479-495, 628-646): dimension [dc] has size 2. *)
Definition veccontract (w0 w1 : tensor R) (dc dk dm : nat) (x : tensor C) : option (tensor C) :=
  if einsum_ok w0 dk dm x && einsum_ok w1 dk dm x && (dimsz w0 1 =? dimsz w1 1)%nat then
    let at_ := fun (c : nat) (i : list nat) (k : nat) => val x (upd dc c (upd dk k i)) in
    let es := fun (w : tensor R) (part : C -> R) (c : nat) (i : list nat) =>
      rsum (dimsz w 2) (fun k => part (at_ c i k) * val w [nth dm i 0; nth dk i 0; k]%nat) in
    Some (mkT (upd dk (dimsz w0 1) (shp x))
      (fun i => if (nth dc i 0 =? 0)%nat
                then (es w0 Re 0%nat i - es w1 Im 1%nat i, es w0 Im 0%nat i + es w1 Re 1%nat i)
                else (- es w1 Im 0%nat i - es w0 Re 1%nat i, es w1 Re 0%nat i - es w0 Im 1%nat i)))
  else None.

(** Quadrature selection of the transform constructors (sht.py:126-133, 280-287,
    422-429, 580-587): the trapezoidal grid is rejected. *)
Definition sht_rule (gl : nat -> rule) (nlat : nat) (g : grid) : option rule :=
  match g with
  | GLegendreGauss => legendre_gauss_weights gl nlat (-1) 1
  | GLobatto => lobatto_default nlat (-1) 1
  | GEquiangular => clenshaw_curtiss_weights nlat (-1) 1
  | _ => None
  end.

(** tq = flip(arccos cost) (sht.py:136, 290, 432, 590) *)
Definition sht_colat (nlat : nat) (q : rule) : nat -> R := flip nlat (fun i => acos (rn q i)).

(** sht.py:113-146 [RealSHT.__init__] *)
Record sht := mkSHT { s_nlat : nat; s_nlon : nat; s_lmax : nat; s_mmax : nat; s_weights : tensor R }.
Definition real_sht_weights (nlat lmax mmax : nat) (q : rule) (nm : shnorm) (csphase : bool) : tensor R :=
  mkT [mmax; lmax; nlat]
      (fun i => let m := nth 0 i 0%nat in let l := nth 1 i 0%nat in let k := nth 2 i 0%nat in
                precompute_legpoly mmax lmax (sht_colat nlat q k) nm false csphase m l * rw q k).
Definition real_sht_init (gl : nat -> rule) (nlat nlon : nat) (lmax mmax : option nat) (g : grid) (nm : shnorm) (csphase : bool) : option sht :=
  do q <- sht_rule gl nlat g;
  do lm <- truncate_sht nlat nlon lmax mmax g;
  let '(lmax, mmax) := lm in
  Some (mkSHT nlat nlon lmax mmax (real_sht_weights nlat lmax mmax q nm csphase)).

(** sht.py:151-186 [RealSHT.forward] *)
Definition sht_check (a b : nat) (mindim : nat) {A} (x : tensor A) : option unit :=
  guard ((mindim <=? ndim x) && (dimsz x (ndim x - 2) =? a) && (dimsz x (ndim x - 1) =? b))%nat.
Definition real_sht (s : sht) (x : tensor R) : option (tensor C) :=
  do _ <- sht_check (s_nlat s) (s_nlon s) 2 x;
  legcontract (s_weights s) (ndim x - 2) (ndim x - 1) (rfft_dim (s_mmax s) (ndim x - 1) x).

(** sht.py:269-301 [InverseRealSHT.__init__]: pct permuted to (m, k, l) *)
Definition inverse_sht_pct (nlat lmax mmax : nat) (q : rule) (nm : shnorm) (csphase : bool) : tensor R :=
  mkT [mmax; nlat; lmax]
      (fun i => let m := nth 0 i 0%nat in let k := nth 1 i 0%nat in let l := nth 2 i 0%nat in
                precompute_legpoly mmax lmax (sht_colat nlat q k) nm true csphase m l).
Definition inverse_sht_init (gl : nat -> rule) (nlat nlon : nat) (lmax mmax : option nat) (g : grid) (nm : shnorm) (csphase : bool) : option sht :=
  do q <- sht_rule gl nlat g;
  do lm <- truncate_sht nlat nlon lmax mmax g;
  let '(lmax, mmax) := lm in
  Some (mkSHT nlat nlon lmax mmax (inverse_sht_pct nlat lmax mmax q nm csphase)).
(** sht.py:306-342 [InverseRealSHT.forward] *)
Definition inverse_sht (s : sht) (x : tensor C) : option (tensor R) :=
  do _ <- sht_check (s_lmax s) (s_mmax s) 2 x;
  do y <- legcontract (s_weights s) (ndim x - 2) (ndim x - 1) x;
  Some (irfft_dim (s_nlon s) (ndim x - 1) y).

(** sht.py:411-449 [RealVectorSHT.__init__]: weights[d, m, l, k] *)
Definition vec_norm_factor (l : nat) : R := if (l =? 0)%nat then 1 else 1 / INR l / (INR l + 1).
Definition vector_sht_weights (nlat lmax mmax : nat) (q : rule) (nm : shnorm) (csphase : bool) : tensor R :=
  mkT [2%nat; mmax; lmax; nlat]
      (fun i => let d := nth 0 i 0%nat in let m := nth 1 i 0%nat in let l := nth 2 i 0%nat in let k := nth 3 i 0%nat in
                let v := precompute_dlegpoly mmax lmax (sht_colat nlat q k) nm false csphase d m l * rw q k * vec_norm_factor l in
                if (d =? 1)%nat then -1 * v else v).
Definition vector_sht_init (gl : nat -> rule) (nlat nlon : nat) (lmax mmax : option nat) (g : grid) (nm : shnorm) (csphase : bool) : option sht :=
  do q <- sht_rule gl nlat g;
  do lm <- truncate_sht nlat nlon lmax mmax g;
  let '(lmax, mmax) := lm in
  Some (mkSHT nlat nlon lmax mmax (vector_sht_weights nlat lmax mmax q nm csphase)).

(** weights[c] of a 4-D buffer *)
Definition select0 {A} (c : nat) (w : tensor A) : tensor A := mkT (tl (shp w)) (fun i => val w (c :: i)).

(** sht.py:454-495 [RealVectorSHT.forward] *)
Definition vec_check (a b : nat) (mindim : nat) {A} (x : tensor A) : option unit :=
  guard ((mindim <=? ndim x) && (dimsz x (ndim x - 3) =? 2) && (dimsz x (ndim x - 2) =? a) && (dimsz x (ndim x - 1) =? b))%nat.
Definition vector_sht (s : sht) (x : tensor R) : option (tensor C) :=
  do _ <- vec_check (s_nlat s) (s_nlon s) 3 x;
  veccontract (select0 0 (s_weights s)) (select0 1 (s_weights s)) (ndim x - 3) (ndim x - 2) (ndim x - 1)
              (rfft_dim (s_mmax s) (ndim x - 1) x).

(** sht.py:569-601 [InverseRealVectorSHT.__init__]: dpct permuted to (d, m, k, l) *)
Definition inverse_vector_dpct (nlat lmax mmax : nat) (q : rule) (nm : shnorm) (csphase : bool) : tensor R :=
  mkT [2%nat; mmax; nlat; lmax]
      (fun i => let d := nth 0 i 0%nat in let m := nth 1 i 0%nat in let k := nth 2 i 0%nat in let l := nth 3 i 0%nat in
                precompute_dlegpoly mmax lmax (sht_colat nlat q k) nm true csphase d m l).
Definition inverse_vector_sht_init (gl : nat -> rule) (nlat nlon : nat) (lmax mmax : option nat) (g : grid) (nm : shnorm) (csphase : bool) : option sht :=
  do q <- sht_rule gl nlat g;
  do lm <- truncate_sht nlat nlon lmax mmax g;
  let '(lmax, mmax) := lm in
  Some (mkSHT nlat nlon lmax mmax (inverse_vector_dpct nlat lmax mmax q nm csphase)).
(** sht.py:606-649 [InverseRealVectorSHT.forward] *)
Definition inverse_vector_sht (s : sht) (x : tensor C) : option (tensor R) :=
  do _ <- vec_check (s_lmax s) (s_mmax s) 3 x;
  do y <- veccontract (select0 0 (s_weights s)) (select0 1 (s_weights s)) (ndim x - 3) (ndim x - 2) (ndim x - 1) x;
  Some (irfft_dim (s_nlon s) (ndim x - 1) y).
