(** Layers with concrete sizes; counterexamples outside the stated conditions. *)
From Coq Require Import List Arith Lia Bool Reals Lra Permutation Sorted.
From Verif Require Import TensorModel TensorProofs BigSum DistSpectralProofs SHTSpec DiscoModel DiscoGradModel DiscoSpec DiscoSortProofs DiscoRunProofs DiscoKernelProofs DiscoTensorProofs DiscoLayerProofs DiscoGradProofs DiscoTransposeProofs.
Import ListNotations.
Local Open Scope R_scope.

(** Two kernels, two groups; 2 x 4 points in, 2 x 2 out. *)
Definition ex_es : list entry := [mkE 0 0 1 (/ 2); mkE 1 0 2 3; mkE 0 1 5 (- 1); mkE 1 1 0 2; mkE 1 1 6 (/ 3)]%nat.
Definition ex_weight : tensor R := mkT [4; 1; 2]%nat (fun i => INR (nth 0 i 0%nat) + 2 * INR (nth 2 i 0%nat)).
Definition ex_bias : option (tensor R) := Some (mkT [4%nat] (fun i => INR (nth 0 i 0%nat))).

Lemma ex_rows : rows_sorted ex_es.
Proof. intros k. destruct k as [|[|k]]; cbn; repeat (constructor; try lia). Qed.
Lemma ex_sep : kernels_separated 2 ex_es.
Proof.
  intros k k' e e' a b Hk HM Ha Hb. assert (k = 0 /\ k' = 1)%nat as [-> ->] by lia. cbn in Ha, Hb. injection Hb as <- _.
  destruct a as [|x [|y [|z a]]]; cbn in Ha; try discriminate; injection Ha; intros; subst; cbn; try lia; try discriminate.
Qed.
Lemma ex_layer_ok : forall bias, bias_ok bias 4 -> layer_ok 2 2 4 2 2 2 2 1 ex_weight bias ex_es.
Proof.
  intros bias BO. split; try lia; try reflexivity.
  - intros e [<-|[<-|[<-|[<-|[<-|[]]]]]]; cbn; lia.
  - apply ex_rows.
  - apply ex_sep.
  - discriminate.
  - exact BO.
Qed.
(** ... and the same filter on the transposed layer (2 x 2 in, 2 x 4 out). *)

(** With more output rings than input longitudes the reference raises. *)
Lemma reference_rejects : forall junk hi wi ho wo G K weight bias es d (x : tensor R) B C,
  conv_s2_init junk hi wi ho wo G K weight bias es = Some d -> shp x = [B; C; hi; wi]%nat -> (wi < ho)%nat -> conv_s2_torch d x = None.
Proof.
  intros junk hi wi ho wo G K weight bias es d x B C I Sx HW. destruct (conv_init_inv _ _ _ _ _ _ _ _ _ _ _ I) as (roff & es' & PP & ->).
  unfold conv_s2_torch. cbn [d_K d_nlat_out d_nlon_out d_nlat_in d_nlon_in d_raw d_groups d_weight d_bias].
  unfold get_psi. destruct (guard _); [cbn [bindo]|reflexivity]. destruct (shape4 _ _ _ _ _ Sx) as (N4 & D0 & D1 & D2 & D3).
  unfold disco_torch. rewrite N4, D3. cbn [Nat.eqb guard bindo coalesce sp_h].
  destruct (Nat.leb_spec ho wi); [lia|]. rewrite !andb_false_r. reflexivity.
Qed.
Definition tall_es : list entry := [mkE 0 0 0 1; mkE 0 1 1 1; mkE 0 2 0 2]%nat.
Definition tall_weight : tensor R := mkT [1; 1; 1]%nat (fun _ => 1).
Lemma tall_ok : layer_ok 1 1 2 3 2 1 1 1 tall_weight None tall_es.
Proof.
  split; try lia; try reflexivity.
  - intros e [<-|[<-|[<-|[]]]]; cbn; lia.
  - intros k. destruct k as [|k]; cbn; repeat (constructor; try lia).
  - intros k k'. intros; lia.
  - discriminate.
Qed.

(** One output ring, two kernels: the rows of the two kernels are merged. *)
Definition flat_es : list entry := [mkE 0 0 0 1; mkE 1 0 0 1]%nat.
Definition flat_x : tensor R := mkT [1; 1; 1; 1]%nat (fun _ => 1).
Lemma flat_rows : rows_sorted flat_es.
Proof. intros k. destruct k as [|[|k]]; cbn; repeat (constructor; try lia). Qed.
Lemma flat_wrong : forall junk junk', exists roff es' y, preprocess_psi junk 2 1 flat_es = Some (roff, es') /\ disco_cpu_fwd junk' 2 1 1 roff es' flat_x = Some y /\
  val y [0; 0; 0; 0; 0]%nat = 2 /\ val y [0; 0; 1; 0; 0]%nat = 0 /\ disco_sum 1 1 flat_es (fun h w => val flat_x [0; 0; h; w]%nat) 0 0 0 = 1 /\ disco_sum 1 1 flat_es (fun h w => val flat_x [0; 0; h; w]%nat) 1 0 0 = 1.
Proof.
  intros. rewrite (preprocess_spec junk 2 1 1 flat_es) by (try lia; try discriminate; try apply flat_rows; intros e [<-|[<-|[]]]; cbn; lia).
  eexists. eexists. eexists. split; [reflexivity|]. split; [reflexivity|]. cbn. lra.
Qed.

(** Rows out of order: a later run for the same row overwrites the earlier one. *)
Definition back_es : list entry := [mkE 0 0 0 1; mkE 0 1 0 1; mkE 0 0 0 1]%nat.
Lemma back_wrong : forall junk junk', exists roff es' y, preprocess_psi junk 1 3 back_es = Some (roff, es') /\ disco_cpu_fwd junk' 1 3 1 roff es' flat_x = Some y /\
  val y [0; 0; 0; 0; 0]%nat = 1 /\ disco_sum 1 1 back_es (fun h w => val flat_x [0; 0; h; w]%nat) 0 0 0 = 2.
Proof.
  intros. unfold preprocess_psi. rewrite psi_sort_spec by (intros e [<-|[<-|[<-|[]]]]; cbn; lia).
  eexists. eexists. eexists. split; [reflexivity|]. split; [reflexivity|]. cbn. lra.
Qed.

(** No nonzeros: the kernels read past the end. *)
Lemma empty_wrong : forall junk junk' K Ho Wo Hi Wi B C x, (1 <= K)%nat -> shp x = [S B; S C; Hi; Wi]%nat ->
  exists roff, preprocess_psi junk K Ho [] = Some (roff, []) /\ disco_cpu_fwd junk' K Ho Wo roff [] x = None /\ pack_psi_dense K Ho Wi roff [] = None.
Proof.
  intros junk junk' K Ho Wo Hi Wi B C x HK Sx. destruct (shape4 _ _ _ _ _ Sx) as (N4 & D0 & D1 & D2 & D3).
  exists [0; 0]%nat. split.
  - unfold preprocess_psi. cbn [forallb andb]. destruct (Nat.leb_spec 1 K); [|lia]. cbn [guard bindo]. reflexivity.
  - split.
    + unfold disco_cpu_fwd. rewrite N4, D0, D1, D2, D3. cbn [Nat.eqb guard bindo]. destruct (guard _); [cbn [bindo]|reflexivity].
      cbn [Nat.mul Nat.add seq mapM]. reflexivity.
    + unfold pack_psi_dense. destruct (guard _); reflexivity.
Qed.
