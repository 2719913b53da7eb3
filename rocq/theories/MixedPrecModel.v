(** Shapes and element types of the DISCO and attention operators: which type every kernel is
    handed, what comes back, and what the tracing ("fake") versions promise
    (torch_harmonics/disco/optimized/disco_optimized.py and
    torch_harmonics/disco/convolution.py:680-844, 974-1007), and of the attention
    operator (torch_harmonics/attention/optimized/attention_optimized.py).

    A tensor is reduced to its shape and element type; [None] is a raised error.
    Values are the business of the other models.  Strides, memory formats and
    devices other than "CPU or CUDA" are left out.  torch.einsum is modelled for
    equal extents only (its broadcasting of extents 1 is an error here), and its
    work is a batched matrix product, which is on autocast's list of reduced
    precision on both devices. *)
From Coq Require Import List Arith Bool.
Import ListNotations.

Inductive dtype := F16 | BF16 | F32 | F64.
Definition dt_eqb (a b : dtype) : bool :=
  match a, b with F16, F16 | BF16, BF16 | F32, F32 | F64, F64 => true | _, _ => false end.
Definition is_half (t : dtype) : bool := match t with F16 | BF16 => true | _ => false end.

(** disco/_disco_utils.py:38-42 [_compute_dtype]; at::opmath_type in the kernels *)
Definition compute_dtype (t : dtype) : dtype := if is_half t then F32 else t.

(** torch's type promotion for two tensors with dimensions *)
Definition promote (a b : dtype) : dtype :=
  match a, b with
  | F64, _ | _, F64 => F64
  | F32, _ | _, F32 => F32
  | F16, F16 => F16
  | BF16, BF16 => BF16
  | _, _ => F32
  end.

Inductive device := Cpu | Cuda.
Record meta := mk { m_shape : list nat; m_dt : dtype }.
(** Tensor.to(dtype) *)
Definition to_dt (t : dtype) (m : meta) : meta := mk (m_shape m) t.

(** The autocast state of the device at hand: None is off. *)
Definition autocast := option dtype.

Definition bind {A B} (x : option A) (f : A -> option B) : option B :=
  match x with Some a => f a | None => None end.
Definition guard {A} (b : bool) (x : option A) : option A := if b then x else None.

Definition prod (l : list nat) : nat := fold_right Nat.mul 1 l.
(** Tensor.reshape with explicit extents *)
Definition reshape (s : list nat) (m : meta) : option meta :=
  guard (prod s =? prod (m_shape m)) (Some (mk s (m_dt m))).

(** Autocast's rule for operators of reduced precision: a floating-point operand
    other than float64 is cast. *)
Definition ac_cast (ac : autocast) (m : meta) : meta :=
  match ac with
  | Some t => match m_dt m with F64 => m | _ => to_dt t m end
  | None => m
  end.
(** torch.einsum of two operands; [f] is the effect on the shapes.  The operands
    must have the same element type when the product is formed. *)
Definition einsum (ac : autocast) (f : list nat -> list nat -> option (list nat)) (a b : meta) : option meta :=
  let a := ac_cast ac a in
  let b := ac_cast ac b in
  guard (dt_eqb (m_dt a) (m_dt b)) (bind (f (m_shape a) (m_shape b)) (fun s => Some (mk s (m_dt a)))).

(** "bgckxy,gock->bgoxy" *)
Definition ein_out (a b : list nat) : option (list nat) :=
  match a, b with
  | [B; G; C; K; X; Y], [G'; Q; C'; K'] =>
      guard ((G =? G') && (C =? C') && (K =? K')) (Some [B; G; Q; X; Y])
  | _, _ => None
  end.
(** "bgoxy,gock->bgckxy" *)
Definition ein_back (a b : list nat) : option (list nat) :=
  match a, b with
  | [B; G; Q; X; Y], [G'; Q'; C; K] =>
      guard ((G =? G') && (Q =? Q')) (Some [B; G; C; K; X; Y])
  | _, _ => None
  end.
(** "bgoxy,bgckxy->gock" *)
Definition ein_wgrad (a b : list nat) : option (list nat) :=
  match a, b with
  | [B; G; Q; X; Y], [B'; G'; C; K; X'; Y'] =>
      guard ((B =? B') && (G =? G') && (X =? X') && (Y =? Y')) (Some [G; Q; C; K])
  | _, _ => None
  end.
(** "bgokxy,gock->bgcxy" *)
Definition ein_spatial (a b : list nat) : option (list nat) :=
  match a, b with
  | [B; G; Q; K; X; Y], [G'; Q'; C; K'] =>
      guard ((G =? G') && (Q =? Q') && (K =? K')) (Some [B; G; C; X; Y])
  | _, _ => None
  end.
(** "bgcxy,gock->bgokxy" *)
Definition ein_trans (a b : list nat) : option (list nat) :=
  match a, b with
  | [B; G; C; X; Y], [G'; Q; C'; K] =>
      guard ((G =? G') && (C =? C')) (Some [B; G; Q; K; X; Y])
  | _, _ => None
  end.

(** ** The compiled kernels *)

(** The element type the filter values must have when the kernel reads them:
    on the CPU reduced types are widened first, values included
    (disco_cpu_fwd.cpp:55-71, disco_cpu_bwd.cpp:55-72: packed_accessor64<scalar_t>);
    on the GPU data_ptr<compute_t> (disco_cuda_fwd.cu:253-303, disco_cuda_bwd.cu:250-302). *)
Definition vals_ok (d : device) (inp vals : dtype) : bool :=
  match d with
  | Cpu => if is_half inp then true else dt_eqb vals inp
  | Cuda => dt_eqb vals (compute_dtype inp)
  end.

(** disco_kernels::forward (disco_cpu_fwd.cpp:36-76, disco_cuda_fwd.cu:216-309).
    Wo = 0 divides by zero in the check. The bound on Wo of the CUDA launch is in
    the models of the kernels, not here. *)
Definition k_forward (d : device) (inp vals : meta) (K Ho Wo : nat) : option meta :=
  match m_shape inp with
  | [B; C; Hi; Wi] =>
      guard (negb (Wo =? 0) && (Wi mod Wo =? 0) && vals_ok d (m_dt inp) (m_dt vals))
        (Some (mk [B; C; K; Ho; Wo] (m_dt inp)))
  | _ => None
  end.
(** disco_kernels::backward (disco_cpu_bwd.cpp:36-76, disco_cuda_bwd.cu:212-313):
    the GPU kernel allocates its result with the type of the values and writes it
    as compute_t; both then cast to the type of the input. *)
Definition k_backward (d : device) (inp vals : meta) (K Ho Wo : nat) : option meta :=
  match m_shape inp with
  | [B; C; K'; Hi; Wi] =>
      guard (negb (Wi =? 0) && (Wo mod Wi =? 0) && vals_ok d (m_dt inp) (m_dt vals))
        (Some (mk [B; C; Ho; Wo] (m_dt inp)))
  | _ => None
  end.
(** disco_kernels::forward_kpacked under the autocast state [ac]
    (disco_optimized.py:848-852; disco_cuda_fwd_dense_kpacked_sm90.cu:351-390) *)
Definition k_kpacked (ac : autocast) (inp : meta) (kpad K Ho Wo : nat) : option meta :=
  let inp := match ac with Some t => to_dt t inp | None => inp end in
  match m_shape inp with
  | [B; C; Hi; Wi] =>
      guard (is_half (m_dt inp) && negb (Wo =? 0) && (Wi mod Wo =? 0) && (Wo mod 8 =? 0) && ((kpad =? 8) || (kpad =? 16)))
        (Some (mk [B; C; K; Ho; Wo] (m_dt inp)))
  | _ => None
  end.

(** ** The operators of disco_optimized.py *)

(** 294-315 [_disco_s2_contraction_optimized], body *)
Definition contraction_body (d : device) (inp vals : meta) (K Ho Wo : nat) : option meta :=
  bind (k_forward d inp (to_dt (compute_dtype (m_dt inp)) vals) K Ho Wo) (fun out => Some (to_dt (m_dt inp) out)).
(** 416-426: under autocast on either device the input is cast first *)
Definition contraction_op (ac : autocast) (d : device) (inp vals : meta) (K Ho Wo : nat) : option meta :=
  match ac with
  | Some t => contraction_body d (to_dt t inp) vals K Ho Wo
  | None => contraction_body d inp vals K Ho Wo
  end.
(** 341-354, the fake *)
Definition contraction_fake (inp : meta) (K Ho Wo : nat) : meta :=
  mk [nth 0 (m_shape inp) 0; nth 1 (m_shape inp) 0; K; Ho; Wo] (m_dt inp).
(** 383-400: gradient of the input; [nlat_in], [nlon_in] are the input's last extents (374-380) *)
Definition contraction_bwd (d : device) (inp vals grad : meta) (K : nat) : option meta :=
  match m_shape inp with
  | [_; _; Hi; Wi] =>
      bind (k_backward d grad (to_dt (compute_dtype (m_dt grad)) vals) K Hi Wi) (fun g => Some (to_dt (m_dt grad) g))
  | _ => None
  end.

(** 317-338, 453-463, 357-370, 430-447: the transposed operator *)
Definition transpose_body (d : device) (inp vals : meta) (K Ho Wo : nat) : option meta :=
  bind (k_backward d inp (to_dt (compute_dtype (m_dt inp)) vals) K Ho Wo) (fun out => Some (to_dt (m_dt inp) out)).
Definition transpose_op (ac : autocast) (d : device) (inp vals : meta) (K Ho Wo : nat) : option meta :=
  match ac with
  | Some t => transpose_body d (to_dt t inp) vals K Ho Wo
  | None => transpose_body d inp vals K Ho Wo
  end.
Definition transpose_fake (inp : meta) (Ho Wo : nat) : meta :=
  mk [nth 0 (m_shape inp) 0; nth 1 (m_shape inp) 0; Ho; Wo] (m_dt inp).
Definition transpose_bwd (d : device) (inp vals grad : meta) (K : nat) : option meta :=
  match m_shape inp with
  | [_; _; _; Hi; Wi] =>
      bind (k_forward d grad (to_dt (compute_dtype (m_dt grad)) vals) K Hi Wi) (fun g => Some (to_dt (m_dt grad) g))
  | _ => None
  end.

(** The weight contraction shared by the fused, save-x and K-packed operators
    (499-505, 727-730, 940-943, 1094-1097); [itype] is the type the weight is cast to. *)
Definition weight_contract (ac : autocast) (itype : dtype) (x weight : meta) (groups groupsize : nat) : option meta :=
  match m_shape x, m_shape weight with
  | [B; C; K; H; W], [_; Og; _; _] =>
      bind (reshape [B; groups; groupsize; K; H; W] x) (fun xr =>
      bind (einsum ac ein_out xr (to_dt itype weight)) (fun out =>
      reshape [B; groups * Og; H; W] out))
  | _, _ => None
  end.

(** 472-505 [_disco_s2_fused_conv_optimized], body, under the autocast state [ac];
    also the forward of _DiscoSaveXConvFn (690-732), which is the same computation. *)
Definition fused_body (ac : autocast) (d : device) (inp weight vals : meta) (K Ho Wo groups groupsize : nat) : option meta :=
  bind (k_forward d inp (to_dt (compute_dtype (m_dt inp)) vals) K Ho Wo) (fun x =>
  weight_contract ac (m_dt inp) (to_dt (m_dt inp) x) weight groups groupsize).
(** 632-678: only the AutocastCUDA key is registered; on the CPU the body runs
    with autocast still on. *)
Definition fused_op (ac : autocast) (d : device) (inp weight vals : meta) (K Ho Wo groups groupsize : nat) : option meta :=
  match d, ac with
  | Cuda, Some t => fused_body None d (to_dt t inp) (to_dt t weight) vals K Ho Wo groups groupsize
  | _, _ => fused_body ac d inp weight vals K Ho Wo groups groupsize
  end.
(** The type of the input (or weight) saved for the backward pass (535-565): the
    inner operator saves what it is handed, which on the GPU is already cast. *)
Definition fused_saved (ac : autocast) (d : device) (t : dtype) : dtype :=
  match d, ac with Cuda, Some a => a | _, _ => t end.
(** 508-532, the fake *)
Definition fused_fake (inp weight : meta) (Ho Wo groups : nat) : meta :=
  mk [nth 0 (m_shape inp) 0; groups * nth 1 (m_shape weight) 0; Ho; Wo] (m_dt inp).

(** 897-943, 1057-1097: forwards of the K-packed functions *)
Definition kpacked_fused (ac : autocast) (inp weight : meta) (kpad K Ho Wo groups groupsize : nat) : option meta :=
  bind (k_kpacked ac inp kpad K Ho Wo) (fun x => weight_contract ac (m_dt inp) x weight groups groupsize).

(** 206-253 [_disco_s2_fused_conv_spatial_first_dgrad]: one transposed launch per
    kernel index with entries ([has k]), zeros otherwise; the parts are stacked on
    dimension 3 and must agree. *)
Definition spatial_part (d : device) (g vals : meta) (B G Og H W Hi Wi : nat) (has : bool) : option meta :=
  if has then bind (reshape [B; G * Og; 1; H; W] g) (fun small =>
              bind (k_backward d small vals 1 Hi Wi) (fun p => reshape [B; G; Og; Hi; Wi] p))
  else Some (mk [B; G; Og; Hi; Wi] (m_dt g)).
Definition meta_eqb (a b : meta) : bool :=
  (if list_eq_dec Nat.eq_dec (m_shape a) (m_shape b) then true else false) && dt_eqb (m_dt a) (m_dt b).
Fixpoint all_same (m : meta) (l : list (option meta)) : bool :=
  match l with [] => true | Some a :: l => meta_eqb a m && all_same m l | None :: _ => false end.
Definition spatial_first (ac : autocast) (d : device) (g weight vals : meta) (has : nat -> bool) (K Hi Wi : nat) : option meta :=
  match m_shape g, m_shape weight with
  | [B; G; Og; H; W], [_; _; Cg; _] =>
      match map (fun k => spatial_part d g vals B G Og H W Hi Wi (has k)) (seq 0 K) with
      | Some p :: l =>
          guard (all_same p l)
            (match m_shape p with
             | [b; gg; o; x; y] =>
                 bind (einsum ac ein_spatial (mk [b; gg; o; S (length l); x; y] (m_dt p)) weight) (fun r =>
                 reshape [B; G * Cg; Hi; Wi] r)
             | _ => None
             end)
      | _ => None
      end
  | _, _ => None
  end.

(** 568-622, 735-782, 945-994, 1100-1147: the combined backward passes, run under
    the autocast state [ac] of the caller of backward().  [sf] is the choice of
    [_use_spatial_first_dgrad].  The gradient of the input: *)
Definition conv_bwd_inp (ac : autocast) (d : device) (weight vals grad : meta) (sf : bool) (has : nat -> bool)
  (K Ho Wo groups groupsize Hi Wi : nat) : option meta :=
  match m_shape grad, m_shape weight with
  | B :: _, [_; Og; _; _] =>
      let itype := m_dt grad in
      let vals_c := to_dt (compute_dtype itype) vals in
      bind (reshape [B; groups; Og; Ho; Wo] grad) (fun gr =>
      bind (if sf then spatial_first ac d gr (to_dt itype weight) vals_c has K Hi Wi
            else bind (einsum ac ein_back gr (to_dt itype weight)) (fun gx =>
                 bind (reshape [B; groups * groupsize; K; Ho; Wo] gx) (fun gx =>
                 k_backward d gx vals_c K Hi Wi))) (fun gi =>
      Some (to_dt itype gi)))
  | _, _ => None
  end.
(** The gradient of the weight from the expanded input [x] as recomputed by
    the fused functions (614-620, 1142-1145: [inp] is the saved input) ... *)
Definition conv_bwd_weight (ac : autocast) (x weight grad : meta) (K Ho Wo groups groupsize : nat) : option meta :=
  match m_shape grad, m_shape weight with
  | B :: _, [_; Og; _; _] =>
      let itype := m_dt grad in
      bind (reshape [B; groups; Og; Ho; Wo] grad) (fun gr =>
      bind (reshape [B; groups; groupsize; K; Ho; Wo] (to_dt itype x)) (fun xr =>
      einsum ac ein_wgrad gr xr))
  | _, _ => None
  end.
Definition fused_bwd_weight (ac : autocast) (d : device) (inp weight vals grad : meta) (K Ho Wo groups groupsize : nat) : option meta :=
  bind (k_forward d inp (to_dt (compute_dtype (m_dt grad)) vals) K Ho Wo) (fun x =>
  conv_bwd_weight ac x weight grad K Ho Wo groups groupsize).
(** ... or as saved by the save-x functions (778-780, 990-992). *)
Definition save_x_bwd_weight := conv_bwd_weight.

(** ** The layer: convolution.py:680-844 [DiscreteContinuousConvS2.forward] *)
Record layer := mklayer {
  l_opt : bool;            (* optimized_kernel *)
  l_fused : bool;          (* fused and optimized_kernel, convolution.py:553 *)
  l_savex : bool;          (* _save_x_spatial_first_ok, 660: optimized_kernel and ... *)
  l_kpad : option nat;     (* psi_kpacked_K_pad *)
  l_kdev : bool;           (* kpacked_device_supported *)
  l_K : nat; l_Hi : nat; l_Wi : nat; l_Ho : nat; l_Wo : nat;
  l_groups : nat; l_groupsize : nat; l_outper : nat;
  l_wdt : dtype;           (* type of the weight: shape (groups*outper, groupsize, K) *)
  l_bias : option dtype    (* type of the bias, if there is one *)
}.
Definition l_weight (l : layer) : meta := mk [l_groups l; l_outper l; l_groupsize l; l_K l] (l_wdt l).

(** 696-698 *)
Definition kpacked_dtype (ac : autocast) (d : device) (x : meta) : dtype :=
  match d, ac with Cuda, Some t => t | _, _ => m_dt x end.
(** 700-708 *)
Definition kpacked_ok (l : layer) (ac : autocast) (d : device) (x : meta) : bool :=
  l_opt l && (match l_kpad l with Some p => (p =? 8) || (p =? 16) | None => false end)
  && is_half (kpacked_dtype ac d x) && (match d with Cuda => true | Cpu => false end)
  && (l_Wo l mod 8 =? 0) && (l_Wi l mod l_Wo l =? 0) && l_kdev l.
Definition kpad_of (l : layer) : nat := match l_kpad l with Some p => p | None => 0 end.

(** The reference contraction in torch (kernels_torch/disco_torch.py:49-90): both
    operands in the compute type, the result back in the type of x; the filter
    buffer has the layer's extents. *)
Definition torch_contraction (l : layer) (x : meta) : option meta :=
  match m_shape x with
  | [B; C; Hi; Wi] =>
      guard ((l_Hi l * l_Wi l =? Hi * Wi) && negb (l_Wo l =? 0) && (Wi mod l_Wo l =? 0) && (l_Ho l <=? Wi))
        (Some (mk [B; C; l_K l; l_Ho l; l_Wo l] (m_dt x)))
  | _ => None
  end.

(** 832-839: the weight multiplication of the unfused paths *)
Definition unfused_tail (l : layer) (ac : autocast) (x : meta) : option meta :=
  match m_shape x with
  | [B; C; K; H; W] =>
      bind (reshape [B; l_groups l; l_groupsize l; K; H; W] x) (fun xr =>
      bind (einsum ac ein_out xr (l_weight l)) (fun out =>
      reshape [B; l_groups l * l_outper l; H; W] out))
  | _ => None
  end.

Definition layer_conv (l : layer) (ac : autocast) (d : device) (x vals : meta) : option meta :=
  let kx := to_dt (kpacked_dtype ac d x) x in
  if l_fused l && kpacked_ok l ac d x then
    kpacked_fused ac kx (l_weight l) (kpad_of l) (l_K l) (l_Ho l) (l_Wo l) (l_groups l) (l_groupsize l)
  else if l_fused l then
    fused_op ac d x (l_weight l) vals (l_K l) (l_Ho l) (l_Wo l) (l_groups l) (l_groupsize l)
  else if l_savex l && kpacked_ok l ac d x then
    kpacked_fused ac kx (l_weight l) (kpad_of l) (l_K l) (l_Ho l) (l_Wo l) (l_groups l) (l_groupsize l)
  else if l_savex l then
    fused_body ac d kx (l_weight l) vals (l_K l) (l_Ho l) (l_Wo l) (l_groups l) (l_groupsize l)
  else if kpacked_ok l ac d x then
    bind (k_kpacked ac kx (kpad_of l) (l_K l) (l_Ho l) (l_Wo l)) (unfused_tail l ac)
  else if l_opt l then
    bind (contraction_op ac d x vals (l_K l) (l_Ho l) (l_Wo l)) (unfused_tail l ac)
  else bind (torch_contraction l x) (unfused_tail l ac).

(** 841-844: adding the bias promotes *)
Definition layer_forward (l : layer) (ac : autocast) (d : device) (x vals : meta) : option meta :=
  bind (layer_conv l ac d x vals) (fun out =>
  match l_bias l with Some t => Some (to_dt (promote (m_dt out) t) out) | None => Some out end).

(** convolution.py:974-1007 [DiscreteContinuousConvTransposeS2.forward] on the
    optimised operator *)
Definition transpose_layer (l : layer) (ac : autocast) (d : device) (x vals : meta) : option meta :=
  match m_shape x with
  | [B; C; H; W] =>
      bind (reshape [B; l_groups l; l_groupsize l; H; W] x) (fun xr =>
      bind (einsum ac ein_trans xr (l_weight l)) (fun e =>
      bind (reshape [B; l_groups l * l_outper l; l_K l; H; W] e) (fun e =>
      bind (transpose_op ac d e vals (l_K l) (l_Ho l) (l_Wo l)) (fun out =>
      match l_bias l with Some t => Some (to_dt (promote (m_dt out) t) out) | None => Some out end))))
  | _ => None
  end.

(** ** The attention operator *)

(** The checks of the entry points (attention_cpu_fwd.cpp:78-98,
    attention_cuda_fwd.cu:550-570, attention_cpu_bwd.cpp:62-84,
    attention_cuda_bwd.cu:871-893); [grad] is absent in the forward pass. *)
Definition attn_checks (k v q : meta) (grad : option meta) (qc vc nh nlon_in nlon_out : nat) : bool :=
  negb (nlon_in =? 0) && negb (nlon_out =? 0) && ((nlon_in mod nlon_out =? 0) || (nlon_out mod nlon_in =? 0))
  && (1 <=? nh) && (qc mod nh =? 0) && (vc mod nh =? 0)
  && dt_eqb (m_dt k) (m_dt q) && dt_eqb (m_dt v) (m_dt q)
  && match grad with Some g => dt_eqb (m_dt g) (m_dt q) | None => true end.

(** attention_kernels::forward: the CPU version folds the heads into the batch,
    computes in float32 and casts back (attention_cpu_fwd.cpp:104-140), the CUDA
    version allocates nchans_out * num_heads channels in the type of k and casts to
    the type of q (attention_cuda_fwd.cu:572-632). *)
Definition attn_forward (d : device) (k v q : meta) (nh nlon_in nlat_out nlon_out : nat) : option meta :=
  match m_shape k, m_shape v, m_shape q with
  | [B; _; _; _], [_; _; _; vc], [_; _; _; qc] =>
      guard (attn_checks k v q None qc vc nh nlon_in nlon_out)
        (Some (mk [B; nlat_out; nlon_out; vc / nh * nh] (m_dt q)))
  | _, _, _ => None
  end.
(** attention_kernels::backward: gradients of k, v and q; the CPU version allocates
    them from the arguments (attention_cpu_bwd.cpp:101-138), the CUDA version like
    the inputs (attention_cuda_bwd.cu:920-955). *)
Definition attn_backward (d : device) (k v q grad : meta) (nh nlon_in nlat_out nlon_out : nat) : option (meta * meta * meta) :=
  match m_shape k, m_shape v, m_shape q with
  | [B; Hi; _; _], [_; _; _; vc], [_; _; _; qc] =>
      guard (attn_checks k v q (Some grad) qc vc nh nlon_in nlon_out)
        (match d with
         | Cpu => Some (mk [B; Hi; nlon_in; qc / nh * nh] (m_dt q), mk [B; Hi; nlon_in; vc / nh * nh] (m_dt q),
                        mk [B; nlat_out; nlon_out; qc / nh * nh] (m_dt q))
         | Cuda => Some (mk (m_shape k) (m_dt k), mk (m_shape v) (m_dt v), mk (m_shape q) (m_dt q))
         end)
  | _, _, _ => None
  end.
(** attention_optimized.py:229-254 and the autocast rules of both devices (310-322) *)
Definition attn_op (ac : autocast) (d : device) (k v q : meta) (nh nlon_in nlat_out nlon_out : nat) : option meta :=
  match ac with
  | Some t => attn_forward d (to_dt t k) (to_dt t v) (to_dt t q) nh nlon_in nlat_out nlon_out
  | None => attn_forward d k v q nh nlon_in nlat_out nlon_out
  end.
(** attention_optimized.py:43-59, 257-271, the fakes *)
Definition attn_fake (k v : meta) (nlat_out nlon_out : nat) : meta :=
  mk [nth 0 (m_shape k) 0; nlat_out; nlon_out; nth 3 (m_shape v) 0] (m_dt k).
(** attention_optimized.py:274-291 with the saved tensors of _attention_utils.py:94-100:
    the gradients of the (under autocast: converted) inputs of the kernel. *)
Definition attn_op_backward (ac : autocast) (d : device) (k v q grad : meta) (nh nlon_in nlat_out nlon_out : nat) : option (meta * meta * meta) :=
  match ac with
  | Some t => attn_backward d (to_dt t k) (to_dt t v) (to_dt t q) grad nh nlon_in nlat_out nlon_out
  | None => attn_backward d k v q grad nh nlon_in nlat_out nlon_out
  end.
