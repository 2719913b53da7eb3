(** What neighbourhood attention is supposed to compute, without reference to the
    kernels: quadrature-weighted softmax averages over a neighbourhood relation. *)
From Coq Require Import List Arith Lia Bool Reals.
From Verif Require Import TensorModel BigSum.
Import ListNotations.
Local Open Scope R_scope.

(** The average of [f] over [l] with weights w(x) exp(s(x)) *)
Definition softmax_den {X} (s w : X -> R) (l : list X) : R := rlsum (fun x => w x * exp (s x)) l.
Definition softmax_avg {X} (s w f : X -> R) (l : list X) : R := rlsum (fun x => w x * exp (s x) * f x) l / softmax_den s w l.

(** A sparsity pattern: for each row, the stored columns; and its CSR encoding. *)
Definition pattern := list (list nat).
Fixpoint offsets (o : nat) (P : pattern) : list nat :=
  o :: match P with [] => [] | r :: P' => offsets (o + length r)%nat P' end.
Definition columns (P : pattern) : list nat := concat P.
Definition pattern_ok (P : pattern) (rows N : nat) : Prop := length P = rows /\ forall r c, In r P -> In c r -> (c < N)%nat.

(** Row r of the pattern holds points of a grid with W longitudes; for longitude j of
    the other grid (with V longitudes, W a multiple of V) they are rotated along. *)
Definition rotated (P : pattern) (W V : nat) (r j : nat) : list (nat * nat) :=
  map (fun c => (c / W, (c mod W + W / V * j) mod W)%nat) (nth r P []).
(** Rows indexed by output latitudes: the neighbours of an output point *)
Definition nbrs_gather (P : pattern) (Wi Wo : nat) (ho wo : nat) : list (nat * nat) := rotated P Wi Wo ho wo.
(** Rows indexed by input latitudes: the input points whose neighbourhood contains
    the output point *)
Definition pt_eqb (p p' : nat * nat) : bool := ((fst p =? fst p') && (snd p =? snd p'))%nat.
Definition nbrs_scatter (P : pattern) (Hi Wi Wo : nat) (ho wo : nat) : list (nat * nat) :=
  flat_map (fun hi => flat_map (fun wi =>
    map (fun _ => (hi, wi)) (filter (pt_eqb (ho, wo)) (rotated P Wo Wi hi wi))) (seq 0 Wi)) (seq 0 Hi).
(** The direction the library takes from the longitudes *)
Definition nbrs (P : pattern) (Hi Wi Wo : nat) (ho wo : nat) : list (nat * nat) :=
  if (Wi mod Wo =? 0)%nat then nbrs_gather P Wi Wo ho wo else nbrs_scatter P Hi Wi Wo ho wo.

(** Attention of one (folded) batch element at one output point *)
Definition score (C : nat) (k q : nat -> nat -> nat -> R) (ho wo : nat) (p : nat * nat) : R :=
  rsum C (fun c => q ho wo c * k (fst p) (snd p) c).
Definition attn_at (C : nat) (quad : nat -> R) (N : list (nat * nat)) (k v q : nat -> nat -> nat -> R) (ho wo c : nat) : R :=
  softmax_avg (score C k q ho wo) (fun p => quad (fst p)) (fun p => v (fst p) (snd p) c) N.

(** Head [h] of batch [b] of a channels-last tensor with packed heads of C channels *)
Definition head (t : tensor R) (C b h : nat) : nat -> nat -> nat -> R := fun y x c => val t [b; y; x; h * C + c]%nat.
(** The operator on packed tensors *)
Definition attn_packed (nh Ck Cv : nat) (quad : nat -> R) (N : nat -> nat -> list (nat * nat)) (kw vw qw : tensor R) (b y x d : nat) : R :=
  attn_at Ck quad (N y x) (head kw Ck b (d / Cv)) (head vw Cv b (d / Cv)) (head qw Ck b (d / Cv)) y x (d mod Cv).
Definition attn_spec (nh Ck Cv : nat) (quad : nat -> R) (N : nat -> nat -> list (nat * nat)) (Ho Wo : nat) (kw vw qw : tensor R) : tensor R :=
  mkT [dimsz qw 0; Ho; Wo; nh * Cv]%nat
    (fun i => attn_packed nh Ck Cv quad N kw vw qw (nth 0 i 0%nat) (nth 1 i 0%nat) (nth 2 i 0%nat) (nth 3 i 0%nat)).

(** When the operator is well defined: shapes, divisibility, pattern, positive
    weights, and no output point without neighbours. *)
Record attn_ok (B nh Ck Cv Hi Wi Ho Wo : nat) (quad : nat -> R) (P : pattern) (kw vw qw : tensor R) : Prop := mkAttnOk {
  ao_B : (1 <= B)%nat; ao_nh : (1 <= nh)%nat; ao_Hi : (1 <= Hi)%nat; ao_Ho : (1 <= Ho)%nat; ao_Wi : (1 <= Wi)%nat; ao_Wo : (1 <= Wo)%nat;
  ao_k : shp kw = [B; Hi; Wi; nh * Ck]%nat; ao_v : shp vw = [B; Hi; Wi; nh * Cv]%nat; ao_q : shp qw = [B; Ho; Wo; nh * Ck]%nat;
  ao_div : (Wi mod Wo = 0)%nat \/ (Wo mod Wi = 0)%nat;
  ao_P : if (Wi mod Wo =? 0)%nat then pattern_ok P Ho (Hi * Wi) else pattern_ok P Hi (Ho * Wo);
  ao_quad : forall h, (h < Hi)%nat -> 0 < quad h;
  ao_ne : forall ho wo, (ho < Ho)%nat -> (wo < Wo)%nat -> nbrs P Hi Wi Wo ho wo <> [] }.

(** The inner product of channels-last fields *)
Definition pairing (B H W D : nat) (x y : tensor R) : R :=
  rsum B (fun b => rsum H (fun h => rsum W (fun w => rsum D (fun d => val x [b; h; w; d] * val y [b; h; w; d])))).
(** x + t x' *)
Definition along (x x' : tensor R) (t : R) : tensor R := mkT (shp x) (fun i => val x i + t * val x' i).
