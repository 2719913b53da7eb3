(** Spectral convolution (torch_harmonics/spectral_convolution.py) over exact reals. *)
From Coq Require Import List Arith Lia Bool Reals.
From Coquelicot Require Import Coquelicot.
From Verif Require Import TensorModel BigSum FFTModel TruncModel LegendreModel QuadModel SHTModel.
Import ListNotations.
Local Open Scope nat_scope.

(** Parameters: the two transforms, channel counts, groups, weight
    [groups, in/groups, out/groups, lmax], optional spectral bias [1, in, lmax, mmax].
    Random initialisation of the weight is not modelled: it is a parameter. *)
Record sconv := mkSC { sc_sht : sht; sc_isht : sht; sc_in : nat; sc_out : nat; sc_groups : nat;
  sc_weight : tensor C; sc_bias : option (tensor C); sc_quad : tensor R }.

(** spectral_convolution.py:158-176: group checks and truncation.  Python's
    [in_channels % num_groups] with num_groups = 0 raises too. *)
Definition sconv_trunc (in_h in_w out_h out_w : nat) (g_in g_out : grid) : option nat :=
  do ti <- truncate_sht in_h in_w None None g_in;
  do to <- truncate_sht out_h out_w None None g_out;
  Some (Nat.min (Nat.min (fst ti) (fst to)) (Nat.min (snd ti) (snd to))).
Definition sconv_init (gl : nat -> rule) (in_h in_w out_h out_w cin cout groups : nat) (g_in g_out : grid)
    (weight : tensor C) (bias : option (tensor C)) : option sconv :=
  do _ <- guard (negb (groups =? 0) && (cin mod groups =? 0) && (cout mod groups =? 0));
  do lm <- sconv_trunc in_h in_w out_h out_w g_in g_out;
  do s <- real_sht_init gl in_h in_w (Some lm) (Some lm) g_in Ortho true;
  do i <- inverse_sht_init gl out_h out_w (Some lm) (Some lm) g_out Ortho true;
  (* 186-196: the parameter shapes are fixed by the constructor *)
  do _ <- guard (shape_eqb (shp weight) [groups; cin / groups; cout / groups; s_lmax s]);
  do _ <- guard (match bias with None => true | Some b => shape_eqb (shp b) [1; cin; s_lmax s; s_mmax s] end);
  do q <- quadrature_s2_rule gl in_h g_in;
  Some (mkSC s i cin cout groups weight bias (quad_weight_tensor in_h in_w (rw q) false)).

(** 198-201 [_contract_lwise] with the two reshapes (237-239): channel c of group
    g is entry (g, c mod (C/groups)) of the reshaped tensor.  einsum raises on
    size mismatch. *)
Definition contract_lwise (groups cout : nat) (w : tensor C) (x : tensor C) : option (tensor C) :=
  let ci := dimsz x 1 / groups in
  if (ndim x =? 4) && (ndim w =? 4) && (dimsz w 0 =? groups) && (dimsz w 1 =? ci) && (dimsz w 3 =? dimsz x 2)
     && (groups * dimsz w 2 =? cout) && (groups * ci =? dimsz x 1)
  then let co := dimsz w 2 in
       Some (mkT (upd 1 cout (shp x))
         (fun i => let b := nth 0 i 0 in let o := nth 1 i 0 in let l := nth 2 i 0 in let m := nth 3 i 0 in
            csum ci (fun c => Cmult (val x [b; (o / co) * ci + c; l; m]) (val w [o / co; c; o mod co; l]))))
  else None.

(** 232-234: x + integral.reshape(B, C, 1, 1) * spectral_bias *)
Definition add_bias (integral : tensor R) (bias : tensor C) (x : tensor C) : option (tensor C) :=
  if (ndim x =? 4) && shape_eqb (shp bias) [1; dimsz x 1; dimsz x 2; dimsz x 3] &&
     shape_eqb (shp integral) [dimsz x 0; dimsz x 1]
  then Some (mkT (shp x) (fun i => Cplus (val x i)
         (Cmult (RtoC (val integral [nth 0 i 0; nth 1 i 0])) (val bias [0; nth 1 i 0; nth 2 i 0; nth 3 i 0]))))
  else None.

(** 203-247 [SpectralConvS2.forward] *)
Definition spectral_conv (s : sconv) (x : tensor R) : option (tensor R) :=
  do y <- real_sht (sc_sht s) x;
  do y1 <- match sc_bias s with
           | None => Some y
           | Some b => do q <- integrate_last2 (sc_quad s) x; add_bias q b y
           end;
  do z <- contract_lwise (sc_groups s) (sc_out s) (sc_weight s) y1;
  inverse_sht (sc_isht s) z.
