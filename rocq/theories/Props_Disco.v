(** DISCO convolutions: kernels (C34), preprocessing (C35), gradients (C36),
    rotations (C37). *)
From Coq Require Import List Arith Lia Bool Reals Lra Permutation Sorted.
From Verif Require Import TensorModel TensorProofs BigSum SHTSpec DiscoModel DiscoGradModel DiscoSpec DiscoTensorProofs DiscoLayerProofs DiscoGradProofs DiscoTransposeProofs DiscoPackProofs DiscoExProofs.
Import ListNotations.
Local Open Scope R_scope.

(** *** C34 *)
(** The CPU forward kernel on preprocessed data is the defining sum, whatever the
    scratch arrays contain. *)
Theorem C34_cpu_forward : forall junk junk' K Ho Wo es roff es' (x : tensor R) B C Hi Wi,
  (1 <= K)%nat -> psi_wf K Ho (Hi * Wi) es -> rows_sorted es -> kernels_separated K es -> es <> [] ->
  preprocess_psi junk K Ho es = Some (roff, es') ->
  shp x = [B; C; Hi; Wi] -> (1 <= Wi)%nat -> (1 <= Wo)%nat -> (Wi mod Wo = 0)%nat ->
  exists y, disco_cpu_fwd junk' K Ho Wo roff es' x = Some y /\ teq y (tensor_disco K Ho Wo es x).
Proof. exact cpu_fwd_spec. Qed.
Theorem C34_cpu_backward : forall junk Ho Wo es roff es' (y : tensor R) B C K Hi Wi,
  (1 <= K)%nat -> psi_wf K Hi (Ho * Wo) es -> rows_sorted es -> kernels_separated K es -> es <> [] ->
  preprocess_psi junk K Hi es = Some (roff, es') ->
  shp y = [B; C; K; Hi; Wi] -> (1 <= Wo)%nat -> (1 <= Wi)%nat -> (Wo mod Wi = 0)%nat ->
  exists x, disco_cpu_bwd K Ho Wo roff es' y = Some x /\ teq x (tensor_disco_adjoint Ho Wo es y).
Proof. exact cpu_bwd_spec. Qed.
(** The reference contractions are the same sums, for any list of entries. *)
Theorem C34_reference_forward : forall K Ho Wo es (x : tensor R) B C Hi Wi,
  psi_wf K Ho (Hi * Wi) es -> shp x = [B; C; Hi; Wi] -> (1 <= Wi)%nat -> (1 <= Wo)%nat -> (Wi mod Wo = 0)%nat -> (Ho <= Wi)%nat ->
  exists y, disco_torch (coalesce K Ho (Hi * Wi) es) Wo x = Some y /\ teq y (tensor_disco K Ho Wo es x).
Proof. exact torch_fwd_spec. Qed.
Theorem C34_reference_transpose : forall K Ho Wo es (y : tensor R) B C Hi Wi,
  psi_wf K Hi (Ho * Wo) es -> shp y = [B; C; K; Hi; Wi] -> (1 <= Wi)%nat -> (1 <= Wo)%nat -> (Wo mod Wi = 0)%nat ->
  exists psi x, get_psi_semi K es Hi Wi Ho Wo = Some psi /\ disco_transpose_torch psi Wo y = Some x /\ teq x (tensor_disco_adjoint Ho Wo es y).
Proof. exact torch_transpose_spec. Qed.
(** The layers return the same with and without compiled kernels; with bias and
    channel groups, for every batch size. *)
Theorem C34_layer : forall junk junk' hi wi ho wo G Og Cg K weight bias es d (x : tensor R) B,
  layer_ok K hi wi ho wo G Og Cg weight bias es -> conv_s2_init junk hi wi ho wo G K weight bias es = Some d -> shp x = [B; G * Cg; hi; wi]%nat ->
  exists z, conv_s2_opt junk' d x = Some z /\ teq z (conv_spec K Og Cg ho wo es weight bias x).
Proof. exact conv_opt_spec. Qed.
Theorem C34_layer_paths_agree : forall junk junk' hi wi ho wo G Og Cg K weight bias es d (x : tensor R) B,
  layer_ok K hi wi ho wo G Og Cg weight bias es -> conv_s2_init junk hi wi ho wo G K weight bias es = Some d -> shp x = [B; G * Cg; hi; wi]%nat -> (ho <= wi)%nat ->
  exists z z', conv_s2_opt junk' d x = Some z /\ conv_s2_torch d x = Some z' /\ teq z z'.
Proof. exact conv_paths_agree. Qed.
Theorem C34_transpose_layer : forall junk hi wi ho wo G Og Cg K weight bias es d (x : tensor R) B,
  layer_ok K ho wo hi wi G Og Cg weight bias es -> conv_transpose_s2_init junk hi wi ho wo G K weight bias es = Some d -> shp x = [B; G * Cg; hi; wi]%nat ->
  exists z, conv_transpose_s2_opt d x = Some z /\ teq z (tconv_spec Og Cg ho wo es weight bias x).
Proof. exact tconv_opt_spec. Qed.
Theorem C34_transpose_paths_agree : forall junk hi wi ho wo G Og Cg K weight bias es d (x : tensor R) B,
  layer_ok K ho wo hi wi G Og Cg weight bias es -> conv_transpose_s2_init junk hi wi ho wo G K weight bias es = Some d -> shp x = [B; G * Cg; hi; wi]%nat ->
  exists z z', conv_transpose_s2_opt d x = Some z /\ conv_transpose_s2_torch d x = Some z' /\ teq z z'.
Proof. exact tconv_paths_agree. Qed.
(** Construction succeeds on every such layer. *)
Theorem C34_constructor : forall junk hi wi ho wo G Og Cg K weight bias es, layer_ok K hi wi ho wo G Og Cg weight bias es ->
  exists d, conv_s2_init junk hi wi ho wo G K weight bias es = Some d.
Proof. exact conv_init_ok. Qed.
(** Finding: with more output rings than input longitudes the reference path raises
    although the layer is valid and the compiled path works. *)
Theorem C34_reference_rejects_refuted : forall junk junk' d,
  layer_ok 1 1 2 3 2 1 1 1 tall_weight None tall_es /\
  (conv_s2_init junk 1 2 3 2 1 1 tall_weight None tall_es = Some d -> forall x, shp x = [1; 1; 1; 2]%nat ->
   conv_s2_torch d x = None /\ exists z, conv_s2_opt junk' d x = Some z).
Proof.
  intros. split; [exact tall_ok|]. intros I x Sx. split; [eapply reference_rejects; eauto|].
  destruct (conv_opt_spec junk junk' 1 2 3 2 1 1 1 1 tall_weight None tall_es d x 1 tall_ok I Sx) as (z & E & _). eauto.
Qed.
(** Outside the row condition the CPU kernel loses entries. *)
Theorem C34_unsorted_rows_refuted : forall junk junk', exists roff es' y, preprocess_psi junk 1 3 back_es = Some (roff, es') /\ disco_cpu_fwd junk' 1 3 1 roff es' flat_x = Some y /\
  val y [0; 0; 0; 0; 0]%nat = 1 /\ disco_sum 1 1 back_es (fun h w => val flat_x [0; 0; h; w]%nat) 0 0 0 = 2.
Proof. exact back_wrong. Qed.

(** *** C35 *)
(** Permutation, stable sort by kernel, and a partition into the maximal runs of
    equal rows. *)
Theorem C35_preprocess : forall junk K Ho N es, (1 <= K)%nat -> psi_wf K Ho N es -> rows_sorted es -> es <> [] ->
  exists roff es', preprocess_psi junk K Ho es = Some (roff, es') /\
    Permutation es' es /\ StronglySorted le (map ker es') /\ (forall k, (k < K)%nat -> filter (fun e => ker e =? k)%nat es' = filter (fun e => ker e =? k)%nat es) /\
    (2 <= length roff)%nat /\ nth 0 roff 0%nat = 0%nat /\ nth (length roff - 1) roff 0%nat = length es' /\
    (forall r, (r + 1 < length roff)%nat -> (nth r roff 0 < nth (r + 1) roff 0)%nat) /\
    concat (map (entries_of roff es') (seq 0 (length roff - 1))) = es' /\
    (forall r e e', (r + 1 < length roff)%nat -> In e (entries_of roff es' r) -> In e' (entries_of roff es' r) -> row e = row e') /\
    (forall r e e', (r + 2 < length roff)%nat -> nth_error es' (nth (r + 1) roff 0 - 1)%nat = Some e -> nth_error es' (nth (r + 1) roff 0%nat) = Some e' -> row e <> row e').
Proof. exact preprocess_success. Qed.
(** When the kernels are separated each run is exactly the entries of one (kernel,
    row), in their original order, and each non-empty (kernel, row) is one run. *)
Theorem C35_runs : forall junk K Ho N es roff es', (1 <= K)%nat -> psi_wf K Ho N es -> rows_sorted es -> es <> [] -> kernels_separated K es ->
  preprocess_psi junk K Ho es = Some (roff, es') ->
  (forall r e, (r + 1 < length roff)%nat -> In e (entries_of roff es' r) -> entries_of roff es' r = at_key (ker e) (row e) es) /\
  (forall k t, at_key k t es <> [] -> exists r, (r + 1 < length roff)%nat /\ entries_of roff es' r = at_key k t es /\
     forall r', (r' + 1 < length roff)%nat -> entries_of roff es' r' = at_key k t es -> r' = r).
Proof. exact preprocess_separated. Qed.
(** ... and separation is exactly the condition for that. *)
Theorem C35_separation_exact : forall junk K Ho N es roff es', (1 <= K)%nat -> psi_wf K Ho N es -> rows_sorted es -> es <> [] ->
  preprocess_psi junk K Ho es = Some (roff, es') ->
  (forall r e e', (r + 1 < length roff)%nat -> In e (entries_of roff es' r) -> In e' (entries_of roff es' r) -> ker e = ker e') -> kernels_separated K es.
Proof. exact separated_exact. Qed.
(** Finding: one output ring and two kernels are not separated; the CPU kernel then
    adds the second kernel's entries to the first. *)
Theorem C35_merged_rows_refuted : forall junk junk', exists roff es' y, preprocess_psi junk 2 1 flat_es = Some (roff, es') /\ disco_cpu_fwd junk' 2 1 1 roff es' flat_x = Some y /\
  val y [0; 0; 0; 0; 0]%nat = 2 /\ val y [0; 0; 1; 0; 0]%nat = 0 /\ disco_sum 1 1 flat_es (fun h w => val flat_x [0; 0; h; w]%nat) 0 0 0 = 1 /\ disco_sum 1 1 flat_es (fun h w => val flat_x [0; 0; h; w]%nat) 1 0 0 = 1.
Proof. exact flat_wrong. Qed.
(** Finding: without any nonzero the preprocessing succeeds but kernels and packing
    read beyond the arrays. *)
Theorem C35_empty_refuted : forall junk junk' K Ho Wo Hi Wi B C x, (1 <= K)%nat -> shp x = [S B; S C; Hi; Wi]%nat ->
  exists roff, preprocess_psi junk K Ho [] = Some (roff, []) /\ disco_cpu_fwd junk' K Ho Wo roff [] x = None /\ pack_psi_dense K Ho Wi roff [] = None.
Proof. exact empty_wrong. Qed.
(** pack_psi_dense: slot j of (k, t) is the j-th entry of that row, zeros after. *)
Theorem C35_pack : forall junk K Ho Hi Wi es roff es', (1 <= K)%nat -> (1 <= Wi)%nat -> psi_wf K Ho (Hi * Wi) es -> rows_sorted es -> kernels_separated K es -> es <> [] ->
  preprocess_psi junk K Ho es = Some (roff, es') ->
  exists p, pack_psi_dense K Ho Wi roff es' = Some p /\ forall k t, (k < K)%nat -> pk_count p k t = length (at_key k t es) /\
    forall j, match nth_error (at_key k t es) j with
              | Some e => (j < pk_pad p /\ pk_hi p k t j = col e / Wi /\ pk_wi p k t j = col e mod Wi)%nat /\ pk_val p k t j = pv e
              | None => (pk_hi p k t j = 0 /\ pk_wi p k t j = 0)%nat /\ pk_val p k t j = 0
              end.
Proof.
  intros junk K Ho Hi Wi es roff es' HK HW W RS SP NE E. destruct (pack_spec junk K Ho Hi Wi es roff es' HK HW W RS SP NE E) as (p & Ep & V).
  exists p. split; [exact Ep|]. intros k t Hk. destruct (V k t Hk) as [C P]. split; [exact C|]. intros j. specialize (P j).
  destruct (nth_error (at_key k t es) j); tauto.
Qed.
(** The shared-support packing exists exactly when the supports agree and is
    lossless. *)
Theorem C35_kpack : forall n_align K Ho p, (1 <= n_align)%nat -> (1 <= K)%nat ->
  ((exists q, maybe_kpack n_align K Ho p = Some q) <->
   forall k h, (k < K)%nat -> (h < Ho)%nat -> pk_count p k h = pk_count p 0%nat h /\ forall j, (j < pk_pad p)%nat -> pk_hi p k h j = pk_hi p 0%nat h j /\ pk_wi p k h j = pk_wi p 0%nat h j) /\
  forall q, maybe_kpack n_align K Ho p = Some q ->
   (K <= kp_K q)%nat /\ (kp_K q mod n_align = 0)%nat /\ (kp_K q < K + n_align)%nat /\
   forall h j, (h < Ho)%nat -> (j < pk_pad p)%nat ->
     (forall k, (k < K)%nat -> kp_val q h j k = pk_val p k h j /\ kp_hi q h j = pk_hi p k h j /\ kp_wi q h j = pk_wi p k h j /\ kp_count q h = pk_count p k h) /\
     (forall k, (K <= k)%nat -> kp_val q h j k = 0).
Proof. exact kpack_spec. Qed.
(** The per-kernel split holds exactly the entries of its kernel. *)
Theorem C35_split : forall junk K Ho N es roff es' k, (1 <= K)%nat -> psi_wf K Ho N es -> rows_sorted es -> kernels_separated K es -> es <> [] ->
  preprocess_psi junk K Ho es = Some (roff, es') -> (k < K)%nat ->
  let s := build_split_csr roff es' K in
  firstn (nth (k + 1) (sc_nnzoff s) 0 - nth k (sc_nnzoff s) 0)%nat (skipn (nth k (sc_nnzoff s) 0%nat) (sc_es s)) = map zero_ker (filter (fun e => ker e =? k)%nat es).
Proof. exact split_spec. Qed.

(** *** C36 *)
(** <fwd x, y> = <x, bwd y> for what the kernels return *)
Theorem C36_contraction_adjoint : forall junk junk' K Hi Wi Ho Wo es roff es' (x y : tensor R) B C,
  (1 <= K)%nat -> psi_wf K Ho (Hi * Wi) es -> rows_sorted es -> kernels_separated K es -> es <> [] ->
  preprocess_psi junk K Ho es = Some (roff, es') -> shp x = [B; C; Hi; Wi] -> shp y = [B; C; K; Ho; Wo] ->
  (1 <= Wi)%nat -> (1 <= Wo)%nat -> (Wi mod Wo = 0)%nat ->
  exists u v, disco_cpu_fwd junk' K Ho Wo roff es' x = Some u /\ disco_cpu_bwd K Hi Wi roff es' y = Some v /\ inner5 u y = inner4 x v.
Proof. exact contraction_adjoint. Qed.
(** The input gradient of the layer, on whichever of its two paths is taken: for
    any two inputs the change of <output, g> is <change of input, gradient>. *)
Theorem C36_input_gradient : forall junk junk' hi wi ho wo G Og Cg K weight bias es d (x x' g : tensor R) B,
  layer_ok K hi wi ho wo G Og Cg weight bias es -> conv_s2_init junk hi wi ho wo G K weight bias es = Some d ->
  shp x = [B; G * Cg; hi; wi]%nat -> shp x' = [B; G * Cg; hi; wi]%nat -> shp g = [B; G * Og; ho; wo]%nat ->
  exists z z' v, conv_s2_opt junk' d x = Some z /\ conv_s2_opt junk' d x' = Some z' /\ conv_s2_dgrad d g = Some v /\
    shp v = shp x /\ inner4 z' g - inner4 z g = inner4 x' v - inner4 x v.
Proof. exact conv_input_gradient. Qed.
Theorem C36_gradient_paths_agree : forall junk hi wi ho wo G Og Cg K weight bias es d (g : tensor R) B,
  layer_ok K hi wi ho wo G Og Cg weight bias es -> conv_s2_init junk hi wi ho wo G K weight bias es = Some d -> shp g = [B; G * Og; ho; wo]%nat ->
  exists v v', weight_first_dgrad d g = Some v /\ spatial_first_dgrad d g = Some v' /\ teq v v'.
Proof. exact dgrad_paths_agree. Qed.
(** The weight gradient, against two layers that differ in their weights only. *)
Theorem C36_weight_gradient : forall junk junk' hi wi ho wo G Og Cg K weight weight' bias es d d' (x g : tensor R) B,
  layer_ok K hi wi ho wo G Og Cg weight bias es -> layer_ok K hi wi ho wo G Og Cg weight' bias es ->
  conv_s2_init junk hi wi ho wo G K weight bias es = Some d -> conv_s2_init junk hi wi ho wo G K weight' bias es = Some d' ->
  shp x = [B; G * Cg; hi; wi]%nat -> shp g = [B; G * Og; ho; wo]%nat ->
  exists z z' V, conv_s2_opt junk' d x = Some z /\ conv_s2_opt junk' d' x = Some z' /\ conv_s2_wgrad junk' d x g = Some V /\
    shp V = shp weight /\ inner4 z' g - inner4 z g = inner3 weight' V - inner3 weight V.
Proof. exact conv_weight_gradient. Qed.
(** The transposed layer with channels exchanged is the adjoint of the layer. *)
Theorem C36_layers_adjoint : forall junk junk' junk'' hi wi ho wo G Og Cg K weight es d dt (x y : tensor R) B,
  layer_ok K hi wi ho wo G Og Cg weight None es ->
  conv_s2_init junk hi wi ho wo G K weight None es = Some d ->
  conv_transpose_s2_init junk' ho wo hi wi G K (swap_weight G Og Cg K weight) None es = Some dt ->
  shp x = [B; G * Cg; hi; wi]%nat -> shp y = [B; G * Og; ho; wo]%nat ->
  exists z v, conv_s2_opt junk'' d x = Some z /\ conv_transpose_s2_opt dt y = Some v /\ inner4 z y = inner4 x v.
Proof. exact layers_adjoint. Qed.

(** *** C37 *)
Theorem C37_layer : forall junk junk' hi wi ho wo G Og Cg K weight bias es d (x : tensor R) B s,
  layer_ok K hi wi ho wo G Og Cg weight bias es -> conv_s2_init junk hi wi ho wo G K weight bias es = Some d -> shp x = [B; G * Cg; hi; wi]%nat ->
  exists z z', conv_s2_opt junk' d x = Some z /\ conv_s2_opt junk' d (roll_last (wi / wo * s) x) = Some z' /\ teq z' (roll_last s z).
Proof. exact conv_opt_roll. Qed.
Theorem C37_reference : forall junk hi wi ho wo G Og Cg K weight bias es d (x : tensor R) B s,
  layer_ok K hi wi ho wo G Og Cg weight bias es -> conv_s2_init junk hi wi ho wo G K weight bias es = Some d -> shp x = [B; G * Cg; hi; wi]%nat -> (ho <= wi)%nat ->
  exists z z', conv_s2_torch d x = Some z /\ conv_s2_torch d (roll_last (wi / wo * s) x) = Some z' /\ teq z' (roll_last s z).
Proof. exact conv_torch_roll. Qed.
Theorem C37_transpose_layer : forall junk hi wi ho wo G Og Cg K weight bias es d (x : tensor R) B s,
  layer_ok K ho wo hi wi G Og Cg weight bias es -> conv_transpose_s2_init junk hi wi ho wo G K weight bias es = Some d -> shp x = [B; G * Cg; hi; wi]%nat ->
  exists z z', conv_transpose_s2_opt d x = Some z /\ conv_transpose_s2_opt d (roll_last s x) = Some z' /\ teq z' (roll_last (wo / wi * s) z).
Proof. exact tconv_opt_roll. Qed.
Theorem C37_transpose_reference : forall junk hi wi ho wo G Og Cg K weight bias es d (x : tensor R) B s,
  layer_ok K ho wo hi wi G Og Cg weight bias es -> conv_transpose_s2_init junk hi wi ho wo G K weight bias es = Some d -> shp x = [B; G * Cg; hi; wi]%nat ->
  exists z z', conv_transpose_s2_torch d x = Some z /\ conv_transpose_s2_torch d (roll_last s x) = Some z' /\ teq z' (roll_last (wo / wi * s) z).
Proof. exact tconv_torch_roll. Qed.

(** Two groups, two kernels, bias, 2 x 4 points in and 2 x 2 out, interleaved
    entries: everything above applies, on both layers. *)
Example C34_ex : forall junk, layer_ok 2 2 4 2 2 2 2 1 ex_weight ex_bias ex_es /\ layer_ok 2 2 4 2 2 2 2 1 ex_weight None ex_es /\
  (exists d, conv_s2_init junk 2 4 2 2 2 2 ex_weight ex_bias ex_es = Some d) /\ (exists d, conv_transpose_s2_init junk 2 2 2 4 2 2 ex_weight ex_bias ex_es = Some d).
Proof.
  intros. assert (L := ex_layer_ok ex_bias eq_refl). split; [exact L|]. split; [apply ex_layer_ok; exact I|].
  split; [eapply conv_init_ok; eauto|eapply tconv_init_ok; eauto].
Qed.
Example C35_ex : forall junk, preprocess_psi junk 2 2 ex_es = Some ([0; 1; 2; 3; 5]%nat, [mkE 0 0 1 (/ 2); mkE 0 1 5 (- 1); mkE 1 0 2 3; mkE 1 1 0 2; mkE 1 1 6 (/ 3)]%nat).
Proof.
  intros. rewrite (DiscoRunProofs.preprocess_spec junk 2 2 8 ex_es); [reflexivity|lia| |exact ex_rows|discriminate].
  intros e [<-|[<-|[<-|[<-|[<-|[]]]]]]; cbn; lia.
Qed.

Print Assumptions C34_cpu_forward.
Print Assumptions C34_cpu_backward.
Print Assumptions C34_reference_forward.
Print Assumptions C34_reference_transpose.
Print Assumptions C34_layer.
Print Assumptions C34_layer_paths_agree.
Print Assumptions C34_transpose_layer.
Print Assumptions C34_transpose_paths_agree.
Print Assumptions C34_constructor.
Print Assumptions C34_reference_rejects_refuted.
Print Assumptions C34_unsorted_rows_refuted.
Print Assumptions C35_preprocess.
Print Assumptions C35_runs.
Print Assumptions C35_separation_exact.
Print Assumptions C35_merged_rows_refuted.
Print Assumptions C35_empty_refuted.
Print Assumptions C35_pack.
Print Assumptions C35_kpack.
Print Assumptions C35_split.
Print Assumptions C36_contraction_adjoint.
Print Assumptions C36_input_gradient.
Print Assumptions C36_gradient_paths_agree.
Print Assumptions C36_weight_gradient.
Print Assumptions C36_layers_adjoint.
Print Assumptions C37_layer.
Print Assumptions C37_reference.
Print Assumptions C37_transpose_layer.
Print Assumptions C37_transpose_reference.
