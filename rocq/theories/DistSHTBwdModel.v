(** What autograd runs for the distributed transforms
    (torch_harmonics/distributed/distributed_sht.py) on a P x A process grid: the forward
    steps in reverse order, each replaced by its gradient.  [x] is the family of forward
    inputs, [g] the family of output gradients, one per rank.  Every rank runs the backward
    pass; the collectives are those of primitives.py:291-347. *)
From Coq Require Import List Arith Lia Bool Reals.
From Coquelicot Require Import Coquelicot.
From Verif Require Import TensorModel BigSum FFTModel TruncModel LegendreModel QuadModel SHTModel SHTGradModel PrimModel DistSHTModel.
Import ListNotations.
Local Open Scope nat_scope.

(** primitives.py:291-311, 327-347: [x] is the input of the forward transposition
    (d0, d1), whose size along d0 the autograd context keeps. *)
Definition az_tr_bwd {X Y} (debug : bool) (A d0 d1 : nat) (x : pfam (tensor X)) (g : pfam (tensor Y)) : pfam (tensor Y) :=
  if 1 <? A then fun p a => do t <- x p a; distributed_transpose_bwd debug A d0 d1 (dimsz t d0) (fun a => g p a) a else g.
Definition po_tr_bwd {X Y} (debug : bool) (P d0 d1 : nat) (x : pfam (tensor X)) (g : pfam (tensor Y)) : pfam (tensor Y) :=
  if 1 <? P then fun p a => do t <- x p a; distributed_transpose_bwd debug P d0 d1 (dimsz t d0) (fun p => g p a) p else g.

(** The gradient of [unpad_and_unflatten_leading_dims] (primitives.py:216-230): reshape
    back, zeros for the rows that were dropped; [n] is the number of rows before. *)
Definition unpad_bwd {X} (zero : X) (n tr : nat) (g : tensor X) : option (tensor X) :=
  do f <- flatten_and_pad_leading_dims zero g n tr; Some (fst (fst f)).
(** The gradient of [flatten_and_pad_leading_dims] (primitives.py:169-213): drop the rows
    that were appended, restore the shape. *)
Definition pad_bwd {X} (lead : list nat) (lead_size : nat) (g : tensor X) : option (tensor X) :=
  unpad_and_unflatten_leading_dims g lead lead_size.

(** Backward of distributed_sht.py:172-222 (tr = 2) and 492-555 (tr = 3) *)
Definition dist_forward_bwd (tr : nat) (check : nat -> nat -> nat -> tensor R -> option unit)
    (contract contract_bwd : dsht -> tensor C -> option (tensor C))
    (debug : bool) (P A : nat) (obj : pfam dsht) (x : pfam (tensor R)) (g : pfam (tensor C)) : pfam (tensor R) :=
  let st := dist_forward_steps tr check contract debug P A obj x in
  let g7 := pzip (fun t u => unpad_bwd (RtoC 0) (dimsz t 0) tr u) (st_x7 st) g in
  let g6 := po_tr_bwd debug P (tr - 1) 0 (st_x6 st) g7 in
  let g5 := pzip contract_bwd obj g6 in
  let g4 := po_tr_bwd debug P 0 (tr - 1) (st_x4 st) g5 in
  let g3 := az_tr_bwd debug A tr 0 (st_x3 st) g4 in
  let g2 := pzip (fun t u => Some (rfft_dim_bwd (dimsz u tr) (dimsz t tr) tr u)) (st_x2 st) g3 in
  let g1 := az_tr_bwd debug A 0 tr (st_x1 st) g2 in
  pzip (fun f u => pad_bwd (snd (fst f)) (snd f) u) (st_flat st) g1.

(** Backward of distributed_sht.py:341-391 (tr = 2) and 655-711 (tr = 3) *)
Definition dist_inverse_bwd (tr : nat) (check : nat -> nat -> nat -> tensor C -> option unit)
    (contract contract_bwd : dsht -> tensor C -> option (tensor C))
    (debug : bool) (P A : nat) (obj : pfam dsht) (x : pfam (tensor C)) (g : pfam (tensor R)) : pfam (tensor C) :=
  let st := dist_inverse_steps tr check contract debug P A obj x in
  let g7 := pzip (fun t u => unpad_bwd 0%R (dimsz t 0) tr u) (st_x7 st) g in
  let g6 := az_tr_bwd debug A tr 0 (st_x6 st) g7 in
  let g5 := pzip (fun t u => Some (irfft_dim_bwd (dimsz u tr) (dimsz t tr) tr u)) (st_x5 st) g6 in
  let g4 := az_tr_bwd debug A 0 tr (st_x4 st) g5 in
  let g3 := po_tr_bwd debug P (tr - 1) 0 (st_x3 st) g4 in
  let g2 := pzip contract_bwd obj g3 in
  let g1 := po_tr_bwd debug P 0 (tr - 1) (st_x1 st) g2 in
  pzip (fun f u => pad_bwd (snd (fst f)) (snd f) u) (st_flat st) g1.

Definition scalar_contract_bwd (o : dsht) (g : tensor C) : option (tensor C) := legcontract_bwd (d_weights o) 1 2 g.
Definition vector_contract_bwd (o : dsht) (g : tensor C) : option (tensor C) :=
  veccontract_bwd (select0 0 (d_weights o)) (select0 1 (d_weights o)) 1 2 3 g.

Definition dist_real_sht_bwd := dist_forward_bwd 2 (fun a b k t => sht_check a b k t) scalar_contract scalar_contract_bwd.
Definition dist_inverse_sht_bwd := dist_inverse_bwd 2 (fun a b k t => sht_check a b k t) scalar_contract scalar_contract_bwd.
Definition dist_vector_sht_bwd := dist_forward_bwd 3 (fun a b k t => vec_check a b k t) vector_contract vector_contract_bwd.
Definition dist_inverse_vector_sht_bwd := dist_inverse_bwd 3 (fun a b k t => vec_check a b k t) vector_contract vector_contract_bwd.
