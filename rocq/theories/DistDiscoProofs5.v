(** Which filters can be split by latitude. *)
From Coq Require Import List Arith ZArith Lia Bool Reals Lra Sorted.
From Verif Require Import TensorModel TensorProofs BigSum ResampleModel ResampleProofs TruncModel QuadModel PrimModel PrimSpec PrimProofs PrimProofs2 DistSHTModel DistSHTProofs DiscoModel DiscoSpec DiscoTensorProofs DiscoLayerProofs DiscoTransposeProofs DiscoSortProofs DiscoRunProofs DiscoKernelProofs DiscoExProofs PrimPropProofs DistSpectralProofs
  FilterModel FilterSpec FilterProofs PsiModel PsiSpec PsiGeoProofs PsiProofs PsiPreProofs PsiLayerProofs PsiUseProofs PsiExProofs
  DistDiscoModel DistDiscoSpec DistDiscoProofs DistDiscoProofs2 DistDiscoProofs3 DistDiscoProofs4.
Import ListNotations.
Local Open Scope nat_scope.

(** ** Constructors and empty slices *)
Lemma split_one : forall P p h w es, 1 <= P -> P <= h -> p < P -> length (lat_slice h w P p es) = 1 -> split_psi P p h w es = None.
Proof.
  intros P p h w es HP Hh Hp L. unfold split_psi. rewrite css_some by auto. cbn [bindo]. rewrite !chunk_lo_sum by lia. replace (p + 1) with (S p) by lia.
  assert (F : filter (fun e => (col e / w <? chunk_lo h P (S p)) && (chunk_lo h P p <=? col e / w)) es = lat_slice h w P p es) by (unfold lat_slice; apply filter_ext; intros e; apply andb_comm).
  rewrite F, L. reflexivity.
Qed.
Lemma split_zero : forall P p h w es, 1 <= P -> P <= h -> p < P -> lat_slice h w P p es = [] -> split_psi P p h w es = Some [].
Proof.
  intros P p h w es HP Hh Hp L. unfold split_psi. rewrite css_some by auto. cbn [bindo]. rewrite !chunk_lo_sum by lia. replace (p + 1) with (S p) by lia.
  assert (F : filter (fun e => (col e / w <? chunk_lo h P (S p)) && (chunk_lo h P p <=? col e / w)) es = lat_slice h w P p es) by (unfold lat_slice; apply filter_ext; intros e; apply andb_comm).
  rewrite F, L. reflexivity.
Qed.
Lemma single_fails : forall junk opt P A hi wi ho wo G K weight bias es p a, 1 <= P -> P <= hi -> p < P -> length (lat_slice hi wi P p es) = 1 ->
  dist_conv_init junk opt P A hi wi ho wo G K weight bias es p a = None.
Proof.
  intros. unfold dist_conv_init. rewrite split_one by auto. destruct (compute_split_shapes hi P); [|reflexivity]. cbn [bindo]. destruct (compute_split_shapes wi A); [|reflexivity]. cbn [bindo]. destruct (compute_split_shapes ho P); [|reflexivity]. cbn [bindo]. destruct (compute_split_shapes wo A); reflexivity.
Qed.
Lemma empty_fails : forall junk junk' P A hi wi ho wo G K weight bias es p a o t B C, 1 <= P -> P <= hi -> p < P -> 1 <= K -> lat_slice hi wi P p es = [] ->
  dist_conv_init junk true P A hi wi ho wo G K weight bias es p a = Some o -> shp t = [S B; S C; chunk_len hi P p; wi] -> local_contraction junk' true o t = None.
Proof.
  intros junk junk' P A hi wi ho wo G K weight bias es p a o t B C HP Hh Hp HK L E St. destruct (empty_wrong junk junk' K ho wo (chunk_len hi P p) wi B C t HK St) as (roff & PP & F & _).
  unfold dist_conv_init in E. rewrite split_zero in E by auto. destruct (compute_split_shapes hi P) as [s|]; [|discriminate]. cbn [bindo] in E. destruct (compute_split_shapes wi A); [|discriminate]. cbn [bindo] in E. destruct (compute_split_shapes ho P); [|discriminate]. cbn [bindo] in E. destruct (compute_split_shapes wo A); [|discriminate]. cbn [bindo] in E.
  rewrite PP in E. cbn [bindo fst snd] in E. injection E as <-. exact F.
Qed.

(** ** A slice in which two kernels are merged *)
Definition mg_es : list entry := [mkE 0 0 0 1; mkE 0 0 1 1; mkE 1 0 0 1; mkE 1 0 1 1; mkE 0 1 0 1; mkE 1 1 1 1]%R.
Definition mg_weight : tensor R := mkT [1; 1; 2] (fun i => INR (nth 2 i 0)).
Definition mg_x : tensor R := mkT [1; 1; 2; 1] (fun i => INR (nth 2 i 0)).
Lemma mg_ok : layer_ok 2 2 1 2 1 1 1 1 mg_weight None mg_es.
Proof.
  split; try lia; try reflexivity.
  - intros e [<-|[<-|[<-|[<-|[<-|[<-|[]]]]]]]; cbn; lia.
  - intros k. destruct k as [|[|k]]; cbn; repeat (constructor; try lia).
  - intros k k' e e' a b Hk HM Ha Hb. assert (k = 0 /\ k' = 1)%nat as [-> ->] by lia. cbn in Ha, Hb. injection Hb as <- _.
    destruct a as [|x [|y [|z [|u a]]]]; cbn in Ha; try discriminate; injection Ha; intros; subst; cbn; try lia; try discriminate.
  - discriminate.
Qed.
Lemma mg_filled : slices_filled 2 1 2 mg_es.
Proof. intros [|[|p]] Hp; cbn; lia. Qed.
Definition mg_shards : pfam (tensor R) := fun p a => Some (shard 2 2 p (shard 3 1 a mg_x)).
Lemma mg_pre : forall junk p a, p < 2 -> exists roff es', dist_conv_init junk true 2 1 2 1 2 1 1 2 mg_weight None mg_es p a = Some (mkD 2 1 1 2 1 1 mg_weight None roff es' (map (local_entry p 1) (lat_slice 2 1 2 p mg_es))) /\
  roff = starts 0 (cuts es') /\ es' = ksorted 2 (map (local_entry p 1) (lat_slice 2 1 2 p mg_es)).
Proof.
  intros junk p a Hp. destruct (rank_init junk true 2 1 2 1 2 1 1 1 1 2 mg_weight None mg_es p a mg_ok mg_filled) as (roff & es' & E & PP); try lia.
  specialize (PP eq_refl). assert (CL : chunk_lo 2 2 p = p) by (destruct p as [|[|p]]; [reflexivity|reflexivity|lia]). rewrite CL in *. rewrite (preprocess_spec junk 2 2 (1 * 1)) in PP.
  - injection PP as <- <-. eexists _, _. split; [|split; reflexivity]. rewrite E. destruct p as [|[|p]]; [reflexivity|reflexivity|lia].
  - lia.
  - clear. destruct p as [|[|p]]; [intros e He; cbn in He; destruct He as [<-|[<-|[<-|[]]]]; cbn; lia|intros e He; cbn in He; destruct He as [<-|[<-|[<-|[]]]]; cbn; lia|].
    intros e He. cbn in He. destruct He.
  - clear. destruct p as [|[|p]]; [| |intros k; cbn; constructor]; intros [|[|k]]; cbn; repeat (constructor; try lia).
  - destruct p as [|[|p]]; [discriminate|discriminate|lia].
Qed.
Lemma mg_rank : forall junk junk' p, p < 2 -> exists o t y, dist_conv_init junk true 2 1 2 1 2 1 1 2 mg_weight None mg_es p 0 = Some o /\ d_groups o = 1 /\ d_weight o = mg_weight /\ d_bias o = None /\
  mg_shards p 0 = Some t /\ local_contraction junk' true o t = Some y /\ shp y = [1; 1; 2; 2; 1] /\ val y [0; 0; 1; 0; 0] = 0%R.
Proof.
  intros junk junk' p Hp. destruct (mg_pre junk p 0 Hp) as (r0 & e0 & E0 & -> & ->). destruct p as [|[|p]]; [| |lia].
  - eexists _, _, _. split; [exact E0|]. do 3 (split; [reflexivity|]). split; [reflexivity|]. split; [reflexivity|]. split; [reflexivity|]. cbn. lra.
  - eexists _, _, _. split; [exact E0|]. do 3 (split; [reflexivity|]). split; [reflexivity|]. split; [reflexivity|]. split; [reflexivity|]. cbn. lra.
Qed.
Lemma mg_wrong : forall junk junk' junk'' debug,
  exists s Y Z, conv_s2_init junk 2 1 2 1 1 2 mg_weight None mg_es = Some s /\ conv_s2_opt junk'' s mg_x = Some Y /\ val Y [0; 0; 0; 0] = 1%R /\
    dist_conv junk' true debug 2 1 (dist_conv_init junk true 2 1 2 1 2 1 1 2 mg_weight None mg_es) mg_shards 0 0 = Some Z /\ val Z [0; 0; 0; 0] = 0%R.
Proof.
  intros. destruct (conv_init_ok junk 2 1 2 1 1 1 1 2 mg_weight None mg_es mg_ok) as (s & Es). exists s.
  destruct (conv_opt_spec junk junk'' 2 1 2 1 1 1 1 2 mg_weight None mg_es s mg_x 1 mg_ok Es eq_refl) as (Y & EY & TY). exists Y.
  destruct (mg_rank junk junk' 0 ltac:(lia)) as (o0 & t0 & y0 & E0 & G0 & W0 & B0 & T0 & L0 & S0 & V0).
  destruct (mg_rank junk junk' 1 ltac:(lia)) as (o1 & t1 & y1 & E1 & _ & _ & _ & T1 & L1 & S1 & V1).
  assert (Q : exists Z, dist_conv junk' true debug 2 1 (dist_conv_init junk true 2 1 2 1 2 1 1 2 mg_weight None mg_es) mg_shards 0 0 = Some Z /\ val Z [0; 0; 0; 0] = 0%R).
  { unfold dist_conv. set (d := dist_conv_init _ _ _ _ _ _ _ _ _ _ _ _ _) in *. clearbody d. set (x := mg_shards) in *. clearbody x. unfold az_transpose. cbn [Nat.ltb Nat.leb].
    unfold po_reduce_scatter. set (x2 := fun p => pzip (local_contraction junk' true) d x p 0).
    assert (H2 : holds 2 x2 (fun p => if p =? 0 then y0 else y1)).
    { intros p Hp. unfold x2, pzip. destruct p as [|[|p]]; [rewrite E0, T0; cbn [bindo]; exists y0; split; [exact L0|apply teq_refl]|rewrite E1, T1; cbn [bindo]; exists y1; split; [exact L1|apply teq_refl]|lia]. }
    destruct (rs_sum 2 3 x2 (fun p => if p =? 0 then y0 else y1)) with (r := 0) as (z & Ez & Tz); auto.
    - unfold ndim. cbn [Nat.eqb]. rewrite S0. cbn. lia.
    - unfold dimsz. cbn [Nat.eqb]. rewrite S0. cbn. lia.
    - intros [|[|r]] Hr; [reflexivity|cbn [Nat.eqb]; congruence|lia].
    - unfold pzip. fold x2. cbn beta. change (fun p : nat => do u <- d p 0; do v <- x p 0; local_contraction junk' true u v) with x2. rewrite E0, Ez. cbn [bindo]. rewrite G0, W0, B0.
      assert (Sz : shp z = [1; 1 * 1; 2; 1; 1]) by (rewrite (teq_shp _ _ _ Tz); unfold shard, narrow, dimsz; cbn [shp Nat.eqb]; rewrite S0; reflexivity).
      rewrite (contract_value 1 1 1 2 1 1 1 mg_weight z) by (auto; reflexivity). cbn [bindo add_chan_bias]. eexists. split; [reflexivity|]. cbn [val nth bsum_ mg_weight INR Nat.div Nat.mul Nat.add fst snd Nat.divmod].
      rewrite (proj2 Tz [0; 0; 1; 0; 0]) by (rewrite Sz; apply valid5_intro; lia). unfold shard, narrow. cbn [val nth upd]. unfold chunk_lo. cbn [Nat.mul Nat.add Nat.min bsum_ Nat.eqb]. rewrite V0, V1. ring. }
  destruct Q as (Z & EZ & VZ). exists Z. split; [auto|]. split; [auto|]. split; [|auto].
  rewrite (proj2 TY) by (rewrite (proj1 TY); apply valid4_intro; cbn; lia). unfold conv_spec, conv_value, disco_sum. cbn. ring.
Qed.
