(** C17: DISCO convolutions on a grid of ranks. *)
From Coq Require Import List Arith ZArith Lia Bool Reals Lra.
From Verif Require Import TensorModel BigSum TruncModel QuadModel PrimModel PrimSpec DistSHTModel DistSHTProofs DiscoModel DiscoSpec DiscoLayerProofs FilterModel FilterSpec PsiModel PsiSpec PsiProofs PsiUseProofs PsiExProofs
  DistDiscoModel DistDiscoSpec DistDiscoProofs DistDiscoProofs2 DistDiscoProofs3 DistDiscoProofs4 DistDiscoProofs5 DistDiscoProofs6 DistDiscoProofs7.
Import ListNotations.
Local Open Scope nat_scope.

(** standard schedule, optimised kernels: every rank ends up with its block of the
    serial layer's output *)
Theorem C17_standard : forall junk junk' junk'' debug P A hi wi ho wo G Og Cg K B weight bias es s (X : tensor R) x,
  layer_ok K hi wi ho wo G Og Cg weight bias es -> conv_s2_init junk hi wi ho wo G K weight bias es = Some s ->
  slices_filled hi wi P es -> slices_separated K hi wi P es ->
  1 <= P <= hi -> P <= ho -> 1 <= A <= wi -> A <= wo -> A <= G * Cg ->
  shp X = [B; G * Cg; hi; wi] -> holds2 P A x (fun p a => shard 2 P p (shard 3 A a X)) ->
  exists Y, conv_s2_opt junk'' s X = Some Y /\
    holds2 P A (dist_conv junk' true debug P A (dist_conv_init junk true P A hi wi ho wo G K weight bias es) x) (fun p a => shard 2 P p (shard 3 A a Y)).
Proof. exact dist_conv_serial. Qed.
(** the same with the reference kernels *)
Theorem C17_reference : forall junk junk' debug P A hi wi ho wo G Og Cg K B weight bias es s (X : tensor R) x,
  layer_ok K hi wi ho wo G Og Cg weight bias es -> conv_s2_init junk hi wi ho wo G K weight bias es = Some s ->
  slices_filled hi wi P es -> ho <= wi ->
  1 <= P <= hi -> P <= ho -> 1 <= A <= wi -> A <= wo -> A <= G * Cg ->
  shp X = [B; G * Cg; hi; wi] -> holds2 P A x (fun p a => shard 2 P p (shard 3 A a X)) ->
  exists Y, conv_s2_torch s X = Some Y /\
    holds2 P A (dist_conv junk' false debug P A (dist_conv_init junk false P A hi wi ho wo G K weight bias es) x) (fun p a => shard 2 P p (shard 3 A a Y)).
Proof. exact dist_conv_torch_serial. Qed.
(** the reordered schedule *)
Theorem C17_reordered : forall junk junk' junk'' debug P A hi wi ho wo G Og Cg K B weight bias es s (X : tensor R) x,
  layer_ok K hi wi ho wo G Og Cg weight bias es -> conv_s2_init junk hi wi ho wo G K weight bias es = Some s ->
  slices_filled hi wi P es -> slices_separated K hi wi P es ->
  1 <= P <= hi -> P <= ho -> 1 <= A <= wi -> A <= wo -> A <= G * Cg ->
  shp X = [B; G * Cg; hi; wi] -> holds2 P A x (fun p a => shard 2 P p (shard 3 A a X)) ->
  exists Y, conv_s2_opt junk'' s X = Some Y /\
    holds2 P A (dist_conv_reordered junk' debug P A (dist_conv_init junk true P A hi wi ho wo G K weight bias es) x) (fun p a => shard 2 P p (shard 3 A a Y)).
Proof. exact dist_conv_reordered_serial. Qed.
(** the transposed layer *)
Theorem C17_transpose : forall junk debug P A hi wi ho wo G Og Cg K B weight bias es s (X : tensor R) x,
  layer_ok K ho wo hi wi G Og Cg weight bias es -> conv_transpose_s2_init junk hi wi ho wo G K weight bias es = Some s ->
  slices_filled ho wo P es -> slices_separated K ho wo P es ->
  1 <= P <= hi -> P <= ho -> 1 <= A <= wi -> A <= wo -> A <= G * Og ->
  shp X = [B; G * Cg; hi; wi] -> holds2 P A x (fun p a => shard 2 P p (shard 3 A a X)) ->
  exists Y, conv_transpose_s2_opt s X = Some Y /\
    holds2 P A (dist_tconv true debug P A (dist_tconv_init junk true P A hi wi ho wo G K weight bias es) x) (fun p a => shard 2 P p (shard 3 A a Y)).
Proof. exact dist_tconv_serial. Qed.
Theorem C17_transpose_reference : forall junk debug P A hi wi ho wo G Og Cg K B weight bias es s (X : tensor R) x,
  layer_ok K ho wo hi wi G Og Cg weight bias es -> conv_transpose_s2_init junk hi wi ho wo G K weight bias es = Some s ->
  slices_filled ho wo P es ->
  1 <= P <= hi -> P <= ho -> 1 <= A <= wi -> A <= wo -> A <= G * Og ->
  shp X = [B; G * Cg; hi; wi] -> holds2 P A x (fun p a => shard 2 P p (shard 3 A a X)) ->
  exists Y, conv_transpose_s2_torch s X = Some Y /\
    holds2 P A (dist_tconv false debug P A (dist_tconv_init junk false P A hi wi ho wo G K weight bias es) x) (fun p a => shard 2 P p (shard 3 A a Y)).
Proof. exact dist_tconv_torch_serial. Qed.

(** From the constructor arguments: with a basis whose functions share one support
    (Zernike, Fourier-Bessel, harmonic), equiangular grids and the default cutoff, both
    schedules return the blocks of the serial result on every grid of ranks. *)
Theorem C17_full_basis : forall gl junk junk' junk'' debug P A hi wi ho wo G Og Cg B fb f mode weight bias es (X : tensor R) x,
  basis_of fb f -> basis_full fb -> 1 <= fb_size fb -> conv_psi gl hi wi ho wo fb GEquiangular GEquiangular None mode = Some es ->
  2 <= hi -> 2 <= ho -> 1 <= G -> shp weight = [G * Og; Cg; fb_size fb] -> bias_ok bias (G * Og) ->
  1 <= P <= hi -> P <= ho -> 1 <= A <= wi -> A <= wo -> A <= G * Cg ->
  shp X = [B; G * Cg; hi; wi] -> holds2 P A x (fun p a => shard 2 P p (shard 3 A a X)) ->
  exists s Y, conv_s2_init junk hi wi ho wo G (fb_size fb) weight bias es = Some s /\ conv_s2_opt junk'' s X = Some Y /\
    holds2 P A (dist_conv junk' true debug P A (dist_conv_init junk true P A hi wi ho wo G (fb_size fb) weight bias es) x) (fun p a => shard 2 P p (shard 3 A a Y)) /\
    holds2 P A (dist_conv_reordered junk' debug P A (dist_conv_init junk true P A hi wi ho wo G (fb_size fb) weight bias es) x) (fun p a => shard 2 P p (shard 3 A a Y)).
Proof.
  intros gl junk junk' junk'' debug P A hi wi ho wo G Og Cg B fb f mode weight bias es X x Bo Bf Sz Ep H1 H2 HG Sw Bi HP HPo HA HAo HAC SX Hx.
  destruct (full_basis_splits gl hi wi ho wo fb f mode es G Og Cg weight bias P Bo Bf Sz H1 H2 ltac:(lia) Ep HG Sw Bi HP) as (L & F & S).
  destruct (conv_init_ok junk _ _ _ _ _ _ _ _ _ _ _ L) as (s & Es). exists s.
  destruct (dist_conv_serial junk junk' junk'' debug P A hi wi ho wo G Og Cg _ B weight bias es s X x L Es F S HP HPo HA HAo HAC SX Hx) as (Y & E1 & D1).
  destruct (dist_conv_reordered_serial junk junk' junk'' debug P A hi wi ho wo G Og Cg _ B weight bias es s X x L Es F S HP HPo HA HAo HAC SX Hx) as (Y' & E2 & D2).
  exists Y. assert (Y' = Y) by congruence. subst Y'. auto.
Qed.
Theorem C17_full_basis_transpose : forall gl junk debug P A hi wi ho wo G Og Cg B fb f mode weight bias es (X : tensor R) x,
  basis_of fb f -> basis_full fb -> 1 <= fb_size fb -> tconv_psi gl hi wi ho wo fb GEquiangular GEquiangular None mode = Some es ->
  2 <= hi -> 2 <= ho -> 1 <= G -> shp weight = [G * Og; Cg; fb_size fb] -> bias_ok bias (G * Og) ->
  1 <= P <= hi -> P <= ho -> 1 <= A <= wi -> A <= wo -> A <= G * Og ->
  shp X = [B; G * Cg; hi; wi] -> holds2 P A x (fun p a => shard 2 P p (shard 3 A a X)) ->
  exists s Y, conv_transpose_s2_init junk hi wi ho wo G (fb_size fb) weight bias es = Some s /\ conv_transpose_s2_opt s X = Some Y /\
    holds2 P A (dist_tconv true debug P A (dist_tconv_init junk true P A hi wi ho wo G (fb_size fb) weight bias es) x) (fun p a => shard 2 P p (shard 3 A a Y)).
Proof.
  intros gl junk debug P A hi wi ho wo G Og Cg B fb f mode weight bias es X x Bo Bf Sz Ep H1 H2 HG Sw Bi HP HPo HA HAo HAC SX Hx.
  destruct (full_basis_tsplits gl hi wi ho wo fb f mode es G Og Cg weight bias P Bo Bf Sz H1 H2 ltac:(lia) Ep HG Sw Bi ltac:(lia)) as (L & F & S).
  destruct (DiscoTransposeProofs.tconv_init_ok junk _ _ _ _ _ _ _ _ _ _ _ L) as (s & Es). exists s.
  destruct (dist_tconv_serial junk debug P A hi wi ho wo G Og Cg _ B weight bias es s X x L Es F S HP HPo HA HAo HAC SX Hx) as (Y & E1 & D1). eauto.
Qed.

(** Without separation within the slices the optimised layer differs from the serial
    one although the serial one is right ... *)
Theorem C17_merged_kernels_refuted : forall junk junk' junk'' debug,
  layer_ok 2 2 1 2 1 1 1 1 mg_weight None mg_es /\ slices_filled 2 1 2 mg_es /\
  exists s Y Z, conv_s2_init junk 2 1 2 1 1 2 mg_weight None mg_es = Some s /\ conv_s2_opt junk'' s mg_x = Some Y /\ val Y [0; 0; 0; 0] = 1%R /\
    dist_conv junk' true debug 2 1 (dist_conv_init junk true 2 1 2 1 2 1 1 2 mg_weight None mg_es) mg_shards 0 0 = Some Z /\ val Z [0; 0; 0; 0] = 0%R.
Proof. intros. split; [exact mg_ok|]. split; [exact mg_filled|]. apply mg_wrong. Qed.
(** ... and the library's default basis, cutoff and grids lead there: 4 latitudes to 3 on
    three polar ranks. *)
Theorem C17_default_basis_refuted : forall gl Wi Wo fb mode es, pl_basis (KInt 3) = Some fb -> 1 <= Wi -> conv_psi gl 4 Wi 3 Wo fb GEquiangular GEquiangular None mode = Some es ->
  fb_size fb = 2 /\ kernels_separated 2 es /\ slices_filled 4 Wi 3 es /\ ~ slices_separated 2 4 Wi 3 es.
Proof.
  intros gl Wi Wo fb mode es E W H. destruct (default_merged gl Wi Wo fb mode es E W H) as (A & B & C & D). split; auto. split; auto. split; auto.
  intros S. apply D. apply S. lia.
Qed.
(** A polar rank whose slice has exactly one entry cannot construct the layer; one with
    an empty slice constructs it but its first forward pass fails. *)
Theorem C17_single_entry_refuted : forall junk opt P A hi wi ho wo G K weight bias es p a, 1 <= P -> P <= hi -> p < P -> length (lat_slice hi wi P p es) = 1 ->
  dist_conv_init junk opt P A hi wi ho wo G K weight bias es p a = None.
Proof. exact single_fails. Qed.
Theorem C17_empty_slice_refuted : forall junk junk' P A hi wi ho wo G K weight bias es p a o t B C, 1 <= P -> P <= hi -> p < P -> 1 <= K -> lat_slice hi wi P p es = [] ->
  dist_conv_init junk true P A hi wi ho wo G K weight bias es p a = Some o -> shp t = [S B; S C; chunk_len hi P p; wi] -> local_contraction junk' true o t = None.
Proof. exact empty_fails. Qed.

(** The hypotheses are met: a Zernike layer on a 4 x 4 equiangular grid, on 3 x 2 ranks
    (both dimensions split unevenly or evenly). *)
Example C17_ex : forall gl junk, exists fb f es, basis_of fb f /\ basis_full fb /\ fb_size fb = 3 /\ conv_psi gl 4 4 4 4 fb GEquiangular GEquiangular None NNodal = Some es /\
  let weight := mkT [2; 1; 3] (fun i => INR (nth 2 i 0)) in
  layer_ok 3 4 4 4 4 2 1 1 weight None es /\ slices_filled 4 4 3 es /\ slices_separated 3 4 4 3 es /\ exists s, conv_s2_init junk 4 4 4 4 2 3 weight None es = Some s.
Proof.
  intros gl junk. destruct (zk_basis (KInt 2)) as [fb|] eqn:EB; [|discriminate]. destruct (zk_basis_of (KInt 2) 2 fb (or_introl eq_refl) ltac:(cbn; lra) EB) as (B & F & MO & SZ).
  change (length (zernike_orders 2)) with 3 in SZ. set (weight := mkT [2; 1; 3] (fun i => INR (nth 2 i 0))).
  destruct (zernike_same_grid gl 4 4 2 fb ltac:(lia) ltac:(lia) ltac:(lia) ltac:(cbn; lra) EB NNodal weight None 2 1 1 ltac:(discriminate) ltac:(lia) ltac:(rewrite SZ; reflexivity) I) as (es & Ep & _).
  exists fb, (zk_fun 2), es. split; auto. split; auto. split; auto. split; auto. cbv zeta.
  destruct (full_basis_splits gl 4 4 4 4 fb (zk_fun 2) NNodal es 2 1 1 weight None 3 B F ltac:(rewrite SZ; lia) ltac:(lia) ltac:(lia) ltac:(lia) Ep ltac:(lia) ltac:(rewrite SZ; reflexivity) I ltac:(lia)) as (L & Fi & S).
  rewrite SZ in *. split; auto. split; auto. split; auto. destruct (conv_init_ok junk _ _ _ _ _ _ _ _ _ _ _ L) as (s & Es). eauto.
Qed.
(** The default basis also constructs. *)
Example C17_default_ex : forall gl, exists fb es, pl_basis (KInt 3) = Some fb /\ conv_psi gl 4 8 3 4 fb GEquiangular GEquiangular None NNodal = Some es.
Proof.
  intros gl. destruct (pl_basis (KInt 3)) as [fb|] eqn:EB; [|discriminate]. exists fb. pose proof PI_RGT_0 as PP.
  destruct (pl_basis_of (KInt 3) 3 1 fb (or_introl (conj eq_refl eq_refl)) ltac:(lia) EB) as (B & MO).
  destruct (eq_lats gl 4 ltac:(lia)) as (qi & Ei & _). destruct (eq_lats gl 3 ltac:(lia)) as (qo & Eo & _). cbn in EB.
  assert (C0 : (0 < PI / (INR 3 - 1))%R) by (cbn [INR]; apply Rdiv_lt_0_compat; lra).
  destruct (pre_total gl 4 8 3 4 fb (pl_fun 3 1) GEquiangular GEquiangular (PI / (INR 3 - 1))%R false NNodal true qi qo (pl_mask 3 1) ltac:(lia) C0 B Ei Eo ltac:(lia)) as ((es & roff) & E); auto; try discriminate.
  - injection EB as <-. reflexivity.
  - injection EB as <-. cbn [fb_support]. discriminate.
  - exists es. split; auto. unfold conv_psi. cbn [Nat.leb Nat.modulo Nat.divmod fst snd Nat.sub Nat.eqb andb negb guard bindo default_cutoff]. rewrite (proj2 (ResampleProofs.Rltb_true _ _)) by exact C0. cbn [guard bindo]. rewrite E. reflexivity.
Qed.

Print Assumptions C17_standard.
Print Assumptions C17_reference.
Print Assumptions C17_reordered.
Print Assumptions C17_transpose.
Print Assumptions C17_transpose_reference.
Print Assumptions C17_full_basis.
Print Assumptions C17_full_basis_transpose.
Print Assumptions C17_merged_kernels_refuted.
Print Assumptions C17_default_basis_refuted.
Print Assumptions C17_single_entry_refuted.
Print Assumptions C17_empty_slice_refuted.
