(** The inner products for gradients of complex tensors: PyTorch's gradient g of a real
    loss with respect to a complex tensor is the vector with dL = sum Re(conj(g) dy). *)
From Coq Require Import List Reals.
From Coquelicot Require Import Coquelicot.
From Verif Require Import TensorModel PrimSpec.
Local Open Scope R_scope.
Definition cpair (a b : C) : R := Re a * Re b + Im a * Im b.
Definition cdot (t u : tensor C) : R := isum (shp t) (fun i => cpair (val t i) (val u i)).
