(** C74: element types and shapes of the DISCO layers and operators. *)
From Coq Require Import List Arith Lia Bool.
From Verif Require Import MixedPrecModel MixedPrecSpec MixedPrecProofs.
Import ListNotations.

(** Whichever path the layer takes, the output has the same shape and type, and no
    kernel refuses the types it is handed. *)
Theorem C74_layer : forall l ac d B t v, layer_wf l -> types_ok ac t (l_wdt l) ->
  layer_forward l ac d (mk [B; l_groups l * l_groupsize l; l_Hi l; l_Wi l] t) v =
  Some (mk [B; l_groups l * l_outper l; l_Ho l; l_Wo l] (biased (conv_dt ac t) (l_bias l))).
Proof. exact layer_forward_ok. Qed.
Print Assumptions C74_layer.

Theorem C74_transpose_layer : forall l ac d B t v, 1 <= l_Wi l -> l_Wo l mod l_Wi l = 0 -> types_ok ac t (l_wdt l) ->
  transpose_layer l ac d (mk [B; l_groups l * l_groupsize l; l_Hi l; l_Wi l] t) v =
  Some (mk [B; l_groups l * l_outper l; l_Ho l; l_Wo l] (biased (conv_dt ac t) (l_bias l))).
Proof. exact transpose_layer_ok. Qed.
Print Assumptions C74_transpose_layer.

(** The tracing versions promise what the operators return, for all inputs. *)
Theorem C74_fake_contraction : forall d inp v K Ho Wo m,
  contraction_op None d inp v K Ho Wo = Some m -> contraction_fake inp K Ho Wo = m.
Proof. exact contraction_fake_ok. Qed.
Print Assumptions C74_fake_contraction.
Theorem C74_fake_transpose : forall d inp v K Ho Wo m,
  transpose_op None d inp v K Ho Wo = Some m -> transpose_fake inp Ho Wo = m.
Proof. exact transpose_fake_ok. Qed.
Print Assumptions C74_fake_transpose.
Theorem C74_fake_fused : forall d inp w v K Ho Wo G Cg m,
  fused_op None d inp w v K Ho Wo G Cg = Some m -> fused_fake inp w Ho Wo G = m.
Proof. exact fused_fake_ok. Qed.
Print Assumptions C74_fake_fused.
(** On the GPU also under autocast, on the cast inputs. *)
Theorem C74_fake_fused_cuda : forall a inp w v K Ho Wo G Cg m,
  fused_op (Some a) Cuda inp w v K Ho Wo G Cg = Some m -> fused_fake (to_dt a inp) (to_dt a w) Ho Wo G = m.
Proof. exact fused_fake_cuda. Qed.
Print Assumptions C74_fake_fused_cuda.

(** Backward of the contraction: a gradient of the type of the output, in any
    type, gives one of the shape of the input. *)
Theorem C74_backward_contraction : forall d B C K Hi Wi Ho Wo t v g, 1 <= Wo -> Wi mod Wo = 0 ->
  contraction_bwd d (mk [B; C; Hi; Wi] t) v (mk [B; C; K; Ho; Wo] g) K = Some (mk [B; C; Hi; Wi] g).
Proof. exact contraction_bwd_plain. Qed.
Print Assumptions C74_backward_contraction.
Theorem C74_backward_transpose : forall d B C K Hi Wi Ho Wo t v g, 1 <= Wi -> Wo mod Wi = 0 ->
  transpose_bwd d (mk [B; C; K; Hi; Wi] t) v (mk [B; C; Ho; Wo] g) K = Some (mk [B; C; K; Hi; Wi] g).
Proof. exact transpose_bwd_plain. Qed.
Print Assumptions C74_backward_transpose.

(** Backward of the fused operator: the gradient arrives in the type [g] of the
    output, which under autocast need not be the type of the saved input; the
    values are cast by the type of the gradient, yet every kernel gets the type it
    reads, and both gradients have the shape of what they belong to, under any
    autocast state at the time of the backward pass. *)
Theorem C74_backward_fused : forall ac acb d B G Cg Og K Hi Wi Ho Wo t w v out sf has,
  1 <= K -> 1 <= Wo -> Wi mod Wo = 0 -> ac <> Some F64 -> acb <> Some F64 ->
  fused_op ac d (mk [B; G * Cg; Hi; Wi] t) (mk [G; Og; Cg; K] w) v K Ho Wo G Cg = Some out ->
  let saved := fused_saved ac d t in
  let wsaved := fused_saved ac d w in
  conv_bwd_inp acb d (mk [G; Og; Cg; K] wsaved) v out sf has K Ho Wo G Cg Hi Wi = Some (mk [B; G * Cg; Hi; Wi] (m_dt out)) /\
  exists t', fused_bwd_weight acb d (mk [B; G * Cg; Hi; Wi] saved) (mk [G; Og; Cg; K] wsaved) v out K Ho Wo G Cg = Some (mk [G; Og; Cg; K] t').
Proof.
  intros ac acb d B G Cg Og K Hi Wi Ho Wo t w v out sf has HK HW HD Ha Hb H. rewrite fused_op_mk in H by auto.
  inversion H; subst out. cbv zeta. split.
  - apply (conv_bwd_inp_mk B G Cg Og K Hi Wi Ho Wo); auto.
  - eexists. apply (fused_bwd_weight_mk B G Cg Og K Hi Wi Ho Wo); auto. now apply compute_fused.
Qed.
Print Assumptions C74_backward_fused.

(** The same for the function that saves the expanded input: it runs with autocast
    on, so the saved tensor and the gradient may differ in type. *)
Theorem C74_backward_save_x : forall ac acb d B G Cg Og K Hi Wi Ho Wo t w v out sf has,
  1 <= K -> 1 <= Wo -> Wi mod Wo = 0 -> ac <> Some F64 -> acb <> Some F64 ->
  fused_body ac d (mk [B; G * Cg; Hi; Wi] t) (mk [G; Og; Cg; K] w) v K Ho Wo G Cg = Some out ->
  conv_bwd_inp acb d (mk [G; Og; Cg; K] w) v out sf has K Ho Wo G Cg Hi Wi = Some (mk [B; G * Cg; Hi; Wi] (m_dt out)) /\
  exists t', save_x_bwd_weight acb (mk [B; G * Cg; K; Ho; Wo] t) (mk [G; Og; Cg; K] w) out K Ho Wo G Cg = Some (mk [G; Og; Cg; K] t').
Proof.
  intros ac acb d B G Cg Og K Hi Wi Ho Wo t w v out sf has HK HW HD Ha Hb H. rewrite fused_body_mk in H by auto.
  inversion H; subst out. split.
  - apply (conv_bwd_inp_mk B G Cg Og K Hi Wi Ho Wo); auto.
  - eexists. apply conv_bwd_weight_mk.
Qed.
Print Assumptions C74_backward_save_x.

(** The K-packed fused function saves the half-precision input the layer hands it
    and recomputes with the plain kernel. *)
Theorem C74_backward_kpacked : forall ac acb B G Cg Og K Hi Wi Ho Wo t w v kpad out sf has,
  1 <= K -> 1 <= Wo -> Wi mod Wo = 0 -> Wo mod 8 = 0 -> kpad = 8 \/ kpad = 16 ->
  is_half t = true -> (forall a, ac = Some a -> t = a) -> acb <> Some F64 ->
  kpacked_fused ac (mk [B; G * Cg; Hi; Wi] t) (mk [G; Og; Cg; K] w) kpad K Ho Wo G Cg = Some out ->
  conv_bwd_inp acb Cuda (mk [G; Og; Cg; K] w) v out sf has K Ho Wo G Cg Hi Wi = Some (mk [B; G * Cg; Hi; Wi] (m_dt out)) /\
  exists t', fused_bwd_weight acb Cuda (mk [B; G * Cg; Hi; Wi] t) (mk [G; Og; Cg; K] w) v out K Ho Wo G Cg = Some (mk [G; Og; Cg; K] t').
Proof.
  intros ac acb B G Cg Og K Hi Wi Ho Wo t w v kpad out sf has HK HW HD H8 Hk Hh Ha Hb H.
  rewrite kpacked_fused_mk in H; auto. 2:{ destruct ac; auto. rewrite <- (Ha d eq_refl). auto. }
  inversion H; subst out. split.
  - apply (conv_bwd_inp_mk B G Cg Og K Hi Wi Ho Wo); auto.
  - eexists. apply (fused_bwd_weight_mk B G Cg Og K Hi Wi Ho Wo); auto.
Qed.
Print Assumptions C74_backward_kpacked.

(** The attention operator: the tracing version promises what the kernels return. *)
Theorem C74_fake_attention : forall d k v q nh nlon_in nlat_out nlon_out m,
  attn_forward d k v q nh nlon_in nlat_out nlon_out = Some m -> attn_fake k v nlat_out nlon_out = m.
Proof. exact attn_fake_ok. Qed.
Print Assumptions C74_fake_attention.

(** Forward and backward pass of the attention operator: with inputs of one type,
    or of any types under autocast, no check fails, the output has autocast's type
    or the one of the inputs, and its gradient comes back as gradients of the
    shapes of k, v and q in that type. *)
Theorem C74_attention : forall ac d B Hi Wi Ho Wo nh qc vc tk tv tq,
  1 <= nh -> 1 <= Wi -> 1 <= Wo -> Wi mod Wo = 0 \/ Wo mod Wi = 0 ->
  (ac = None -> tk = tq /\ tv = tq) ->
  let k := mk [B; Hi; Wi; nh * qc] tk in let v := mk [B; Hi; Wi; nh * vc] tv in let q := mk [B; Ho; Wo; nh * qc] tq in
  exists y dk dv dq, attn_op ac d k v q nh Wi Ho Wo = Some y /\ y = mk [B; Ho; Wo; nh * vc] (conv_dt ac tq) /\
    attn_op_backward ac d k v q y nh Wi Ho Wo = Some (dk, dv, dq) /\
    dk = mk (m_shape k) (conv_dt ac tq) /\ dv = mk (m_shape v) (conv_dt ac tq) /\ dq = mk (m_shape q) (conv_dt ac tq).
Proof. exact attn_op_run. Qed.
Print Assumptions C74_attention.

(** Refuted: on the CPU the fused operator has no autocast rule, so its body runs
    with autocast on and returns bfloat16 where the tracing version promises the
    type of the input. *)
Theorem C74_fused_cpu_autocast_refuted : forall B G Cg Og K Hi Wi Ho Wo w v, 1 <= Wo -> Wi mod Wo = 0 ->
  exists m, fused_op (Some BF16) Cpu (mk [B; G * Cg; Hi; Wi] F32) (mk [G; Og; Cg; K] w) v K Ho Wo G Cg = Some m /\
    m_dt m = BF16 /\ m_dt (fused_fake (mk [B; G * Cg; Hi; Wi] F32) (mk [G; Og; Cg; K] w) Ho Wo G) = F32.
Proof. intros. eexists. rewrite fused_op_mk by auto. repeat split; reflexivity. Qed.
Print Assumptions C74_fused_cpu_autocast_refuted.

(** Refuted: a half-precision input of a float32 layer without autocast works with
    fused=True and raises an error with fused=False. *)
Theorem C74_path_refuted : exists l l' x v,
  layer_wf l /\ layer_wf l' /\ l_fused l = true /\ l_fused l' = false /\
  layer_conv l None Cuda x v <> None /\ layer_conv l' None Cuda x v = None.
Proof.
  exists (demo true None), (demo false None), (mk [1; 4; 8; 16] F16), (mk [] F32).
  unfold layer_wf. simpl. repeat split; try lia; try discriminate; reflexivity.
Qed.
Print Assumptions C74_path_refuted.

(** Refuted: under autocast the type of the output depends on whether the layer
    has a bias. *)
Theorem C74_bias_refuted : exists l l' x v m m',
  layer_wf l /\ layer_wf l' /\ types_ok (Some F16) (m_dt x) (l_wdt l) /\
  l_bias l = None /\ l_bias l' = Some F32 /\
  layer_forward l (Some F16) Cuda x v = Some m /\ layer_forward l' (Some F16) Cuda x v = Some m' /\
  m_dt m = F16 /\ m_dt m' = F32.
Proof.
  exists (demo true None), (demo true (Some F32)), (mk [1; 4; 8; 16] F32), (mk [] F32). do 2 eexists.
  unfold layer_wf. simpl. repeat split; try lia; try discriminate; reflexivity.
Qed.
Print Assumptions C74_bias_refuted.

(** The hypotheses are met by a layer on each path. *)
Example C74_case : layer_wf (mklayer true true true (Some 8) true 3 8 16 8 16 2 2 2 F32 None) /\
  kpacked_ok (mklayer true true true (Some 8) true 3 8 16 8 16 2 2 2 F32 None) (Some BF16) Cuda (mk [1; 4; 8; 16] F32) = true /\
  layer_wf (mklayer false false false None false 3 8 16 8 16 2 2 2 F32 None).
Proof. unfold layer_wf. simpl. repeat split; try lia; try discriminate. Qed.

Example C74_attention_case : attn_op (Some BF16) Cuda (mk [2; 4; 8; 6] F32) (mk [2; 4; 8; 10] F16) (mk [2; 3; 4; 6] F32) 2 8 3 4
  = Some (mk [2; 3; 4; 10] BF16) /\
  attn_op None Cuda (mk [2; 4; 8; 6] F32) (mk [2; 4; 8; 10] F16) (mk [2; 3; 4; 6] F32) 2 8 3 4 = None.
Proof. split; reflexivity. Qed.
