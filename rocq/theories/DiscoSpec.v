(** Independent specification of the DISCO contraction and of its transpose. *)
From Coq Require Import List Arith Lia Bool Reals Permutation Sorted.
From Verif Require Import TensorModel BigSum DiscoModel.
Import ListNotations.
Local Open Scope R_scope.

(** sum over the nonzeros of psi[k, t, .] of psi * f(theta_i, lambda_q + lambda_p):
    [pscale] input points per output point, [w] input longitudes. *)
Definition disco_sum (w pscale : nat) (es : list entry) (f : nat -> nat -> R) (k t q : nat) : R :=
  rlsum (fun e => if ((ker e =? k) && (row e =? t))%nat%bool
                  then pv e * f (col e / w)%nat ((col e mod w + pscale * q) mod w)%nat else 0) es.
(** Its transpose: each input (k, t, q) is sent to the points the sum reads. *)
Definition disco_adjoint_sum (w pscale n : nat) (es : list entry) (g : nat -> nat -> nat -> R) (h j : nat) : R :=
  rlsum (fun e => if (col e / w =? h)%nat
                  then pv e * rsum n (fun q => if ((col e mod w + pscale * q) mod w =? j)%nat then g (ker e) (row e) q else 0) else 0) es.

(** All indices in range. *)
Definition psi_wf (K Ho N : nat) (es : list entry) : Prop := forall e, In e es -> (ker e < K)%nat /\ (row e < Ho)%nat /\ (col e < N)%nat.
(** Rows appear in nondecreasing order within each kernel (the order in which the
    filter is assembled, output latitude by output latitude). *)
Definition rows_sorted (es : list entry) : Prop := forall k, Sorted le (map row (filter (fun e => ker e =? k)%nat es)).
(** The last row of a kernel differs from the first row of the next non-empty
    kernel. *)
Definition kernels_separated (K : nat) (es : list entry) : Prop :=
  forall k k' e e' a b, (k < k' < K)%nat -> (forall j, (k < j < k')%nat -> filter (fun e => ker e =? j)%nat es = []) ->
    filter (fun e => ker e =? k)%nat es = a ++ [e] -> filter (fun e => ker e =? k')%nat es = e' :: b -> row e <> row e'.

Definition tensor_disco (K Ho Wo : nat) (es : list entry) (x : tensor R) : tensor R :=
  mkT [dimsz x 0; dimsz x 1; K; Ho; Wo]
    (fun i => disco_sum (dimsz x 3) (dimsz x 3 / Wo) es (fun h w => val x [nth 0 i 0; nth 1 i 0; h; w]%nat) (nth 2 i 0%nat) (nth 3 i 0%nat) (nth 4 i 0%nat)).
Definition tensor_disco_adjoint (Ho Wo : nat) (es : list entry) (y : tensor R) : tensor R :=
  mkT [dimsz y 0; dimsz y 1; Ho; Wo]
    (fun i => disco_adjoint_sum Wo (Wo / dimsz y 4) (dimsz y 4) es (fun k t q => val y [nth 0 i 0; nth 1 i 0; k; t; q]%nat) (nth 2 i 0%nat) (nth 3 i 0%nat)).

(** Euclidean inner products of tensors of rank 4 and 5 *)
Definition inner4 (x y : tensor R) : R :=
  rsum (dimsz x 0) (fun b => rsum (dimsz x 1) (fun c => rsum (dimsz x 2) (fun h => rsum (dimsz x 3) (fun w =>
    val x [b; c; h; w] * val y [b; c; h; w])))).
Definition inner5 (x y : tensor R) : R :=
  rsum (dimsz x 0) (fun b => rsum (dimsz x 1) (fun c => rsum (dimsz x 2) (fun k => rsum (dimsz x 3) (fun h => rsum (dimsz x 4) (fun w =>
    val x [b; c; k; h; w] * val y [b; c; k; h; w]))))).

(** ** Layers *)
Definition bias_at (bias : option (tensor R)) (o : nat) : R := match bias with None => 0 | Some b => val b [o] end.
Definition bias_ok (bias : option (tensor R)) (O : nat) : Prop := match bias with None => True | Some b => shp b = [O] end.
(** Reference value of the convolution layer. *)
Definition conv_value (K Og Cg Wi Wo : nat) (es : list entry) (weight : tensor R) (bias : option (tensor R)) (x : tensor R) (b o t q : nat) : R :=
  rsum Cg (fun c => rsum K (fun k => disco_sum Wi (Wi / Wo) es (fun h w => val x [b; o / Og * Cg + c; h; w]%nat) k t q * val weight [o; c; k])) + bias_at bias o.
Definition conv_spec (K Og Cg Ho Wo : nat) (es : list entry) (weight : tensor R) (bias : option (tensor R)) (x : tensor R) : tensor R :=
  mkT [dimsz x 0; dimsz weight 0; Ho; Wo] (fun i => conv_value K Og Cg (dimsz x 3) Wo es weight bias x (nth 0 i 0) (nth 1 i 0) (nth 2 i 0) (nth 3 i 0))%nat.

(** Reference value of the transposed layer. *)
Definition tconv_value (Og Cg wi Wo : nat) (es : list entry) (weight : tensor R) (bias : option (tensor R)) (x : tensor R) (b o h j : nat) : R :=
  disco_adjoint_sum Wo (Wo / wi) wi es (fun k t q => rsum Cg (fun c => val x [b; o / Og * Cg + c; t; q]%nat * val weight [o; c; k])) h j + bias_at bias o.
Definition tconv_spec (Og Cg Ho Wo : nat) (es : list entry) (weight : tensor R) (bias : option (tensor R)) (x : tensor R) : tensor R :=
  mkT [dimsz x 0; dimsz weight 0; Ho; Wo] (fun i => tconv_value Og Cg (dimsz x 3) Wo es weight bias x (nth 0 i 0) (nth 1 i 0) (nth 2 i 0) (nth 3 i 0))%nat.
(** The weight of the transposed layer with the roles of input and output channel
    exchanged within each group. *)
Definition swap_weight (G Og Cg K : nat) (weight : tensor R) : tensor R :=
  mkT [G * Cg; Og; K]%nat (fun i => val weight [nth 0 i 0 / Cg * Og + nth 1 i 0; nth 0 i 0 mod Cg; nth 2 i 0]%nat).

(** What a layer needs: sizes, filter and weights. *)
Record layer_ok (K hi wi ho wo G Og Cg : nat) (weight : tensor R) (bias : option (tensor R)) (es : list entry) : Prop := mkLayerOk {
  lo_K : (1 <= K)%nat; lo_G : (1 <= G)%nat; lo_wi : (1 <= wi)%nat; lo_wo : (1 <= wo)%nat; lo_div : (wi mod wo = 0)%nat;
  lo_wf : psi_wf K ho (hi * wi) es; lo_rows : rows_sorted es; lo_sep : kernels_separated K es; lo_ne : es <> [];
  lo_weight : shp weight = [G * Og; Cg; K]%nat; lo_bias : bias_ok bias (G * Og) }.

Definition inner3 (x y : tensor R) : R :=
  rsum (dimsz x 0) (fun a => rsum (dimsz x 1) (fun b => rsum (dimsz x 2) (fun c => val x [a; b; c] * val y [a; b; c]))).


(** ** Preprocessing *)
(** The entries of one row of one kernel, in order. *)
Definition at_key (k t : nat) (es : list entry) : list entry := filter (fun e => (ker e =? k) && (row e =? t))%nat%bool es.
(** entries number [roff r] to [roff (r+1) - 1] *)
Definition entries_of (roff : list nat) (es : list entry) (r : nat) : list entry :=
  firstn (nth (r + 1) roff 0 - nth r roff 0)%nat (skipn (nth r roff 0%nat) es).
