(** Property C56: the gradients of the distributed DISCO convolutions; and the gradients of
    the serial transposed layer (C36). *)
From Coq Require Import List Arith Lia Bool Reals Lra.
From Verif Require Import TensorModel BigSum TruncModel QuadModel PrimModel PrimSpec PrimProofs DistSHTModel DistSHTProofs DiscoModel DiscoSpec DiscoLayerProofs DiscoTransposeProofs FilterModel FilterSpec PsiModel PsiSpec DiscoGradModel
  DistDiscoModel DistDiscoSpec DistDiscoProofs6 DistDiscoBwdModel DistDiscoBwdSpec DistDiscoBwdProofs2 DistDiscoBwdProofs3 DistDiscoBwdProofs4 DistDiscoBwdProofs5 Props_DistDisco.
Import ListNotations.
Local Open Scope nat_scope.

(** *** C36: the serial transposed layer *)
Theorem C36_transposed_input_gradient : forall junk junk' hi wi ho wo G Og Cg K weight bias es s (x x' g : tensor R) B,
  layer_ok K ho wo hi wi G Og Cg weight bias es -> conv_transpose_s2_init junk hi wi ho wo G K weight bias es = Some s ->
  shp x = [B; G * Cg; hi; wi] -> shp x' = [B; G * Cg; hi; wi] -> shp g = [B; G * Og; ho; wo] ->
  exists z z' v, conv_transpose_s2_opt s x = Some z /\ conv_transpose_s2_opt s x' = Some z' /\ conv_transpose_s2_dgrad junk' s g = Some v /\
    shp v = shp x /\ (inner4 z' g - inner4 z g = inner4 x' v - inner4 x v)%R.
Proof. exact tconv_input_gradient. Qed.
Theorem C36_transposed_parameter_gradient : forall junk junk' hi wi ho wo G Og Cg K weight weight' bias bias' es d d' (x g : tensor R) B,
  layer_ok K ho wo hi wi G Og Cg weight bias es -> layer_ok K ho wo hi wi G Og Cg weight' bias' es ->
  conv_transpose_s2_init junk hi wi ho wo G K weight bias es = Some d -> conv_transpose_s2_init junk hi wi ho wo G K weight' bias' es = Some d' ->
  shp x = [B; G * Cg; hi; wi] -> shp g = [B; G * Og; ho; wo] ->
  exists z z' V, conv_transpose_s2_opt d x = Some z /\ conv_transpose_s2_opt d' x = Some z' /\ conv_transpose_s2_wgrad junk' d x g = Some V /\
    (inner4 z' g - inner4 z g = (inner3 weight' V - inner3 weight V) + rsum (G * Og) (fun o => (bias_at bias' o - bias_at bias o) * val (bias_grad g) [o]))%R.
Proof. exact tconv_parameter_gradient. Qed.
(** the layer itself, weight and bias changed together *)
Theorem C36_parameter_gradient : forall junk junk' junk'' hi wi ho wo G Og Cg K weight weight' bias bias' es d d' (x g : tensor R) B,
  layer_ok K hi wi ho wo G Og Cg weight bias es -> layer_ok K hi wi ho wo G Og Cg weight' bias' es ->
  conv_s2_init junk hi wi ho wo G K weight bias es = Some d -> conv_s2_init junk hi wi ho wo G K weight' bias' es = Some d' ->
  shp x = [B; G * Cg; hi; wi] -> shp g = [B; G * Og; ho; wo] ->
  exists z z' V, conv_s2_opt junk' d x = Some z /\ conv_s2_opt junk' d' x = Some z' /\ conv_s2_wgrad junk'' d x g = Some V /\
    (inner4 z' g - inner4 z g = (inner3 weight' V - inner3 weight V) + rsum (G * Og) (fun o => (bias_at bias' o - bias_at bias o) * val (bias_grad g) [o]))%R.
Proof. exact conv_parameter_gradient. Qed.

(** *** C56 *)
(** Both schedules: every rank's input gradient is its block of the serial layer's input
    gradient; the ranks' weight and bias gradients add up to the serial ones. *)
Theorem C56_standard : forall junk junk' junk'' debug P A hi wi ho wo G Og Cg K B weight bias es s (X Y : tensor R) x g,
  layer_ok K hi wi ho wo G Og Cg weight bias es -> conv_s2_init junk hi wi ho wo G K weight bias es = Some s ->
  slices_filled hi wi P es -> slices_separated K hi wi P es ->
  1 <= P <= hi -> P <= ho -> 1 <= A <= wi -> A <= wo -> A <= G * Cg ->
  shp X = [B; G * Cg; hi; wi] -> shp Y = [B; G * Og; ho; wo] ->
  holds2 P A x (fun p a => shard 2 P p (shard 3 A a X)) -> holds2 P A g (fun p a => shard 2 P p (shard 3 A a Y)) ->
  let d := dist_conv_init junk true P A hi wi ho wo G K weight bias es in
  exists V W, conv_s2_dgrad s Y = Some V /\ conv_s2_wgrad junk'' s X Y = Some W /\
    holds2 P A (dist_conv_dgrad junk' debug P A d x g) (fun p a => shard 2 P p (shard 3 A a V)) /\
    grid_total P A (dist_conv_wgrad junk' debug P A d x g) W /\ grid_total P A (dist_bias_grad g) (bias_grad Y).
Proof. exact dist_conv_bwd_serial. Qed.
Theorem C56_reordered : forall junk junk' junk'' debug P A hi wi ho wo G Og Cg K B weight bias es s (X Y : tensor R) x g,
  layer_ok K hi wi ho wo G Og Cg weight bias es -> conv_s2_init junk hi wi ho wo G K weight bias es = Some s ->
  slices_filled hi wi P es -> slices_separated K hi wi P es ->
  1 <= P <= hi -> P <= ho -> 1 <= A <= wi -> A <= wo -> A <= G * Cg ->
  shp X = [B; G * Cg; hi; wi] -> shp Y = [B; G * Og; ho; wo] ->
  holds2 P A x (fun p a => shard 2 P p (shard 3 A a X)) -> holds2 P A g (fun p a => shard 2 P p (shard 3 A a Y)) ->
  let d := dist_conv_init junk true P A hi wi ho wo G K weight bias es in
  exists V W, conv_s2_dgrad s Y = Some V /\ conv_s2_wgrad junk'' s X Y = Some W /\
    holds2 P A (dist_conv_reordered_dgrad junk' debug P A d x g) (fun p a => shard 2 P p (shard 3 A a V)) /\
    grid_total P A (dist_conv_reordered_wgrad junk' debug P A d x g) W.
Proof. exact dist_conv_reordered_bwd_serial. Qed.
Theorem C56_transpose : forall junk junk' junk'' debug P A hi wi ho wo G Og Cg K B weight bias es s (X Y : tensor R) x g,
  layer_ok K ho wo hi wi G Og Cg weight bias es -> conv_transpose_s2_init junk hi wi ho wo G K weight bias es = Some s ->
  slices_filled ho wo P es -> slices_separated K ho wo P es ->
  1 <= P <= hi -> P <= ho -> 1 <= A <= wi -> A <= wo -> A <= G * Og ->
  shp X = [B; G * Cg; hi; wi] -> shp Y = [B; G * Og; ho; wo] ->
  holds2 P A x (fun p a => shard 2 P p (shard 3 A a X)) -> holds2 P A g (fun p a => shard 2 P p (shard 3 A a Y)) ->
  let d := dist_tconv_init junk true P A hi wi ho wo G K weight bias es in
  exists V W, conv_transpose_s2_dgrad junk'' s Y = Some V /\ conv_transpose_s2_wgrad junk'' s X Y = Some W /\
    holds2 P A (dist_tconv_dgrad junk' debug P A d x g) (fun p a => shard 2 P p (shard 3 A a V)) /\
    grid_total P A (dist_tconv_wgrad junk' debug P A d x g) W /\ grid_total P A (dist_bias_grad g) (bias_grad Y).
Proof. exact dist_tconv_bwd_serial. Qed.

(** They are derivatives of the distributed forward passes, with no serial layer in the
    statement. *)
Theorem C56_input_derivative : forall junk junk' debug P A hi wi ho wo G Og Cg K B weight bias es (X X' Y : tensor R) x x' g,
  layer_ok K hi wi ho wo G Og Cg weight bias es -> slices_filled hi wi P es -> slices_separated K hi wi P es ->
  1 <= P <= hi -> P <= ho -> 1 <= A <= wi -> A <= wo -> A <= G * Cg ->
  shp X = [B; G * Cg; hi; wi] -> shp X' = [B; G * Cg; hi; wi] -> shp Y = [B; G * Og; ho; wo] ->
  holds2 P A x (fun p a => shard 2 P p (shard 3 A a X)) -> holds2 P A x' (fun p a => shard 2 P p (shard 3 A a X')) -> holds2 P A g (fun p a => shard 2 P p (shard 3 A a Y)) ->
  let d := dist_conv_init junk true P A hi wi ho wo G K weight bias es in
  grid_input_gradient P A (dist_conv junk' true debug P A d) (dist_conv_dgrad junk' debug P A d x) x x' g /\
  grid_input_gradient P A (dist_conv_reordered junk' debug P A d) (dist_conv_reordered_dgrad junk' debug P A d x) x x' g.
Proof. exact dist_conv_input_gradient. Qed.
Theorem C56_parameter_derivative : forall junk junk' debug P A hi wi ho wo G Og Cg K B weight weight' bias bias' es (X Y : tensor R) x g,
  layer_ok K hi wi ho wo G Og Cg weight bias es -> layer_ok K hi wi ho wo G Og Cg weight' bias' es -> slices_filled hi wi P es -> slices_separated K hi wi P es ->
  1 <= P <= hi -> P <= ho -> 1 <= A <= wi -> A <= wo -> A <= G * Cg ->
  shp X = [B; G * Cg; hi; wi] -> shp Y = [B; G * Og; ho; wo] ->
  holds2 P A x (fun p a => shard 2 P p (shard 3 A a X)) -> holds2 P A g (fun p a => shard 2 P p (shard 3 A a Y)) ->
  let d := dist_conv_init junk true P A hi wi ho wo G K weight bias es in
  let d' := dist_conv_init junk true P A hi wi ho wo G K weight' bias' es in
  grid_parameter_gradient P A (G * Og) (dist_conv junk' true debug P A d x) (dist_conv junk' true debug P A d' x) (dist_conv_wgrad junk' debug P A d x g) (dist_bias_grad g) g weight weight' bias bias' /\
  grid_parameter_gradient P A (G * Og) (dist_conv_reordered junk' debug P A d x) (dist_conv_reordered junk' debug P A d' x) (dist_conv_reordered_wgrad junk' debug P A d x g) (dist_bias_grad g) g weight weight' bias bias'.
Proof. exact dist_conv_parameter_gradient. Qed.
Theorem C56_transpose_input_derivative : forall junk junk' debug P A hi wi ho wo G Og Cg K B weight bias es (X X' Y : tensor R) x x' g,
  layer_ok K ho wo hi wi G Og Cg weight bias es -> slices_filled ho wo P es -> slices_separated K ho wo P es ->
  1 <= P <= hi -> P <= ho -> 1 <= A <= wi -> A <= wo -> A <= G * Og ->
  shp X = [B; G * Cg; hi; wi] -> shp X' = [B; G * Cg; hi; wi] -> shp Y = [B; G * Og; ho; wo] ->
  holds2 P A x (fun p a => shard 2 P p (shard 3 A a X)) -> holds2 P A x' (fun p a => shard 2 P p (shard 3 A a X')) -> holds2 P A g (fun p a => shard 2 P p (shard 3 A a Y)) ->
  let d := dist_tconv_init junk true P A hi wi ho wo G K weight bias es in
  grid_input_gradient P A (dist_tconv true debug P A d) (dist_tconv_dgrad junk' debug P A d x) x x' g.
Proof. exact dist_tconv_input_gradient. Qed.
Theorem C56_transpose_parameter_derivative : forall junk junk' debug P A hi wi ho wo G Og Cg K B weight weight' bias bias' es (X Y : tensor R) x g,
  layer_ok K ho wo hi wi G Og Cg weight bias es -> layer_ok K ho wo hi wi G Og Cg weight' bias' es -> slices_filled ho wo P es -> slices_separated K ho wo P es ->
  1 <= P <= hi -> P <= ho -> 1 <= A <= wi -> A <= wo -> A <= G * Og ->
  shp X = [B; G * Cg; hi; wi] -> shp Y = [B; G * Og; ho; wo] ->
  holds2 P A x (fun p a => shard 2 P p (shard 3 A a X)) -> holds2 P A g (fun p a => shard 2 P p (shard 3 A a Y)) ->
  let d := dist_tconv_init junk true P A hi wi ho wo G K weight bias es in
  let d' := dist_tconv_init junk true P A hi wi ho wo G K weight' bias' es in
  grid_parameter_gradient P A (G * Og) (dist_tconv true debug P A d x) (dist_tconv true debug P A d' x) (dist_tconv_wgrad junk' debug P A d x g) (dist_bias_grad g) g weight weight' bias bias'.
Proof. exact dist_tconv_parameter_gradient. Qed.

(** From the arguments of the constructors: a filter basis without a gap, equiangular grids
    and the default cutoff. *)
Theorem C56_full_basis : forall gl junk junk' junk'' debug P A hi wi ho wo G Og Cg B fb f mode weight bias es (X Y : tensor R) x g,
  basis_of fb f -> basis_full fb -> 1 <= fb_size fb -> conv_psi gl hi wi ho wo fb GEquiangular GEquiangular None mode = Some es ->
  2 <= hi -> 2 <= ho -> 1 <= G -> shp weight = [G * Og; Cg; fb_size fb] -> bias_ok bias (G * Og) ->
  1 <= P <= hi -> P <= ho -> 1 <= A <= wi -> A <= wo -> A <= G * Cg ->
  shp X = [B; G * Cg; hi; wi] -> shp Y = [B; G * Og; ho; wo] ->
  holds2 P A x (fun p a => shard 2 P p (shard 3 A a X)) -> holds2 P A g (fun p a => shard 2 P p (shard 3 A a Y)) ->
  let d := dist_conv_init junk true P A hi wi ho wo G (fb_size fb) weight bias es in
  exists s V W, conv_s2_init junk hi wi ho wo G (fb_size fb) weight bias es = Some s /\ conv_s2_dgrad s Y = Some V /\ conv_s2_wgrad junk'' s X Y = Some W /\
    holds2 P A (dist_conv_dgrad junk' debug P A d x g) (fun p a => shard 2 P p (shard 3 A a V)) /\ grid_total P A (dist_conv_wgrad junk' debug P A d x g) W /\
    holds2 P A (dist_conv_reordered_dgrad junk' debug P A d x g) (fun p a => shard 2 P p (shard 3 A a V)) /\ grid_total P A (dist_conv_reordered_wgrad junk' debug P A d x g) W /\
    grid_total P A (dist_bias_grad g) (bias_grad Y).
Proof.
  intros gl junk junk' junk'' debug P A hi wi ho wo G Og Cg B fb f mode weight bias es X Y x g Bo Bf Sz Ep H1 H2 HG Sw Bi HP HPo HA HAo HAC SX SY Hx Hg d.
  destruct (full_basis_splits gl hi wi ho wo fb f mode es G Og Cg weight bias P Bo Bf Sz H1 H2 ltac:(lia) Ep HG Sw Bi HP) as (L & F & S).
  destruct (conv_init_ok junk _ _ _ _ _ _ _ _ _ _ _ L) as (s & Es).
  destruct (dist_conv_bwd_serial junk junk' junk'' debug P A hi wi ho wo G Og Cg _ B weight bias es s X Y x g L Es F S HP HPo HA HAo HAC SX SY Hx Hg) as (V & W & E1 & E2 & D1 & D2 & D3).
  destruct (dist_conv_reordered_bwd_serial junk junk' junk'' debug P A hi wi ho wo G Og Cg _ B weight bias es s X Y x g L Es F S HP HPo HA HAo HAC SX SY Hx Hg) as (V' & W' & E1' & E2' & D1' & D2').
  rewrite E1 in E1'. rewrite E2 in E2'. injection E1' as <-. injection E2' as <-. exists s, V, W. auto 10.
Qed.
Theorem C56_full_basis_transpose : forall gl junk junk' junk'' debug P A hi wi ho wo G Og Cg B fb f mode weight bias es (X Y : tensor R) x g,
  basis_of fb f -> basis_full fb -> 1 <= fb_size fb -> tconv_psi gl hi wi ho wo fb GEquiangular GEquiangular None mode = Some es ->
  2 <= hi -> 2 <= ho -> 1 <= G -> shp weight = [G * Og; Cg; fb_size fb] -> bias_ok bias (G * Og) ->
  1 <= P <= hi -> P <= ho -> 1 <= A <= wi -> A <= wo -> A <= G * Og ->
  shp X = [B; G * Cg; hi; wi] -> shp Y = [B; G * Og; ho; wo] ->
  holds2 P A x (fun p a => shard 2 P p (shard 3 A a X)) -> holds2 P A g (fun p a => shard 2 P p (shard 3 A a Y)) ->
  let d := dist_tconv_init junk true P A hi wi ho wo G (fb_size fb) weight bias es in
  exists s V W, conv_transpose_s2_init junk hi wi ho wo G (fb_size fb) weight bias es = Some s /\ conv_transpose_s2_dgrad junk'' s Y = Some V /\ conv_transpose_s2_wgrad junk'' s X Y = Some W /\
    holds2 P A (dist_tconv_dgrad junk' debug P A d x g) (fun p a => shard 2 P p (shard 3 A a V)) /\ grid_total P A (dist_tconv_wgrad junk' debug P A d x g) W /\
    grid_total P A (dist_bias_grad g) (bias_grad Y).
Proof.
  intros gl junk junk' junk'' debug P A hi wi ho wo G Og Cg B fb f mode weight bias es X Y x g Bo Bf Sz Ep H1 H2 HG Sw Bi HP HPo HA HAo HAC SX SY Hx Hg d.
  destruct (full_basis_tsplits gl hi wi ho wo fb f mode es G Og Cg weight bias P Bo Bf Sz H1 H2 ltac:(lia) Ep HG Sw Bi ltac:(lia)) as (L & F & S).
  destruct (tconv_init_ok junk _ _ _ _ _ _ _ _ _ _ _ L) as (s & Es).
  destruct (dist_tconv_bwd_serial junk junk' junk'' debug P A hi wi ho wo G Og Cg _ B weight bias es s X Y x g L Es F S HP HPo HA HAo HAC SX SY Hx Hg) as (V & W & E1 & E2 & D1 & D2 & D3).
  exists s, V, W. auto 10.
Qed.

(** What the backward pass recomputes is what the forward pass computed: the forward models
    of C17 are these intermediate values followed by their last steps. *)
Theorem C56_recomputation : forall junk debug P A d x,
  dist_conv junk true debug P A d x = pzip (fun o t => bindo (weight_contract (d_groups o) (d_weight o) t) (fun z => add_chan_bias (d_bias o) z)) d (conv_x4 junk debug P A d x) /\
  dist_conv_reordered junk debug P A d x = pzip (fun o t => add_chan_bias (d_bias o) t) d
    (if 1 <? A then az_reduce_scatter A 3 (po_reduce_scatter P 2 (reordered_x2 junk debug A d x)) else po_reduce_scatter P 2 (reordered_x2 junk debug A d x)) /\
  (forall a o t, reordered_local junk A a o t =
     bindo (reordered_prepare A a o t) (fun r => bindo (disco_cpu_fwd junk (d_K o) (d_nlat_out o) (d_nlon_out o) (d_roff o) (d_es o) (re_input r)) (fun y => bindo (weight_contract (re_groups r) (re_weight r) y) (fun z =>
       Some (if d_groups o =? 1 then z else mkT (upd 1 (dimsz (d_weight o) 0) (shp z))
         (fun i => if (re_out_off r <=? nth 1 i 0) && (nth 1 i 0 <? re_out_off r + re_groups r * (dimsz (d_weight o) 0 / d_groups o)) then val z (upd 1 (nth 1 i 0 - re_out_off r) i) else 0%R)))))) /\
  dist_tconv true debug P A d x = pzip (fun o t => add_chan_bias (d_bias o) t) d
    (az_transpose debug A 3 1 (pmap (fun t => compute_split_shapes (dimsz t 1) A) (tconv_x0 d x)) (tconv_x3 debug P A d x)).
Proof.
  intros. split; [apply conv_x4_forward|]. split; [apply reordered_x2_forward|]. split; [intros; apply reordered_local_prepared|]. apply tconv_x3_forward.
Qed.

(** The hypotheses are met: the Zernike layer of C17 on 3 x 2 ranks, with two groups, so
    that in the reordered schedule each azimuth rank holds one of them. *)
Example C56_ex : forall (junk : nat -> entry) (junk' : nat -> R) debug, exists es s V W,
  let weight := mkT [2; 1; 3] (fun i => INR (nth 2 i 0)) in
  let X := mkT [1; 2; 4; 4] (fun i => INR (nth 2 i 0)) in let Y := mkT [1; 2; 4; 4] (fun i => INR (nth 3 i 0)) in
  let x : pfam (tensor R) := fun p a => Some (shard 2 3 p (shard 3 2 a X)) in let g : pfam (tensor R) := fun p a => Some (shard 2 3 p (shard 3 2 a Y)) in
  let d := dist_conv_init junk true 3 2 4 4 4 4 2 3 weight None es in
  layer_ok 3 4 4 4 4 2 1 1 weight None es /\ conv_s2_init junk 4 4 4 4 2 3 weight None es = Some s /\ conv_s2_dgrad s Y = Some V /\ conv_s2_wgrad junk' s X Y = Some W /\
  holds2 3 2 (dist_conv_reordered_dgrad junk' debug 3 2 d x g) (fun p a => shard 2 3 p (shard 3 2 a V)) /\ grid_total 3 2 (dist_conv_reordered_wgrad junk' debug 3 2 d x g) W.
Proof.
  intros junk junk' debug. destruct (C17_ex (fun _ => mkRule (fun _ => 0%R) (fun _ => 0%R)) junk) as (fb & f & es & _ & _ & _ & _ & L & F & S & s & I).
  set (weight := mkT [2; 1; 3] (fun i => INR (nth 2 i 0))) in *. set (X := mkT [1; 2; 4; 4] (fun i => INR (nth 2 i 0))). set (Y := mkT [1; 2; 4; 4] (fun i => INR (nth 3 i 0))).
  destruct (dist_conv_reordered_bwd_serial junk junk' junk' debug 3 2 4 4 4 4 2 1 1 3 1 weight None es s X Y (fun p a => Some (shard 2 3 p (shard 3 2 a X))) (fun p a => Some (shard 2 3 p (shard 3 2 a Y)))) as (V & W & EV & EW & HV & HW); auto; try lia.
  - intros p a _ _. apply returns_Some. apply TensorProofs.teq_refl.
  - intros p a _ _. apply returns_Some. apply TensorProofs.teq_refl.
  - exists es, s, V, W. cbv zeta. auto 8.
Qed.

Print Assumptions C36_transposed_input_gradient.
Print Assumptions C36_transposed_parameter_gradient.
Print Assumptions C36_parameter_gradient.
Print Assumptions C56_standard.
Print Assumptions C56_reordered.
Print Assumptions C56_transpose.
Print Assumptions C56_input_derivative.
Print Assumptions C56_parameter_derivative.
Print Assumptions C56_transpose_input_derivative.
Print Assumptions C56_transpose_parameter_derivative.
Print Assumptions C56_recomputation.
Print Assumptions C56_full_basis.
Print Assumptions C56_full_basis_transpose.
