(** The passes of a rank on the GPU in the upsampling direction, for the ranks of a layer: their results are the blocks of the serial ones. *)
From Coq Require Import List Arith Lia Bool ZArith Reals Lra Permutation Sorted.
From Verif Require Import TensorModel TensorProofs BigSum PrimModel PrimSpec PrimProofs DistSHTModel DistSHTProofs DistStateModel AttnModel AttnLayerModel AttnLayerSpec AttnLayerProofs AttnCoreProofs AttnExProofs DistAttnModel DistAttnSpec DistAttnBwdModel DistAttnBwdSpec DistSpectralProofs DistAttnProofs DistAttnProofs2 DistAttnProofs4 DistAttnProofs5 DistAttnBwdProofs3 DistAttnBwdProofs4 GpuModel GpuSpec CudaDiscoModel CudaRescaleSpec CudaRingUpModel CudaRingUpSpec CudaRingUpProofs3 CudaRankSpec CudaRankProofs2 CudaRankProofs3 CudaRankUpModel CudaRankUpSpec CudaRankUpProofs.
From Verif Require Import AttnKernelProofs AttnGradProofs AttnOpProofs AttnOpValProofs AttnBwdProofs AttnSpec.
Import ListNotations.
Local Open Scope nat_scope.

Section Layer.
Variables (argsort : list nat -> list nat) (L : weights) (B Ck Cv nh Hi Wi Ho Wo : nat) (quad : nat -> R) (P : pattern) (Np A : nat) (ranks : nat -> list nat).
Let obj := dist_na_init argsort Np A (na_layer L Hi Wi Ho Wo nh quad P).
Hypothesis HArg : forall l, Permutation (argsort l) (seq 0 (length l)).
Hypothesis HG : grid_ok Hi Wi Ho Wo Np A ranks.
Hypothesis HF : halo_fits P Hi Wi Ho Wo Np.
Hypothesis Hup : na_upsample Wi Wo = true.
Variables (kw vw qw : tensor R) (kf vf qf : pfam (tensor R)).
Hypothesis OK : attn_ok B nh Ck Cv Hi Wi Ho Wo quad P kw vw qw.
Hypothesis Hk : holds2 Np A kf (block Np A (folded_heads nh Ck kw)).
Hypothesis Hv : holds2 Np A vf (block Np A (folded_heads nh Cv vw)).
Hypothesis Hq : holds2 Np A qf (block Np A (folded_heads nh Ck qw)).
Let proj := triples kf vf qf.

Lemma up_rank_facts : forall p a, p < Np -> a < A -> exists o x own visits qn P', obj p a = Some o /\ proj p a = Some x /\ dist_chunk Np obj proj p a = Some own /\ dist_visits ranks (dist_chunk Np obj proj) p a o = Some visits /\
  da_L o = na_layer L Hi Wi Ho Wo nh quad P /\ da_up o = true /\ nth p (da_lat_out o) 0 = chunk_len Ho Np p /\ nth a (da_lon_out o) 0 = chunk_len Wo A a /\ da_lon_in o = bal Wi A /\
  da_roff o = offsets 0 P' /\ da_col o = columns P' /\ pattern_ok P' (chunk_len Hi Np p + 2 * da_r_lat o) (chunk_len Ho Np p * Wo) /\
  rows_inside (chunk_len Hi Np p + 2 * da_r_lat o) (Z.of_nat (nth p (split_starts (da_lat_in o)) 0) - Z.of_nat (da_r_lat o)) P' Hi /\
  shp (snd x) = [B * nh; Ck; chunk_len Ho Np p; chunk_len Wo A a] /\ to_nhwc (snd x) = Some qn /\ match visits with [] => False | _ => True end /\
  shp (fst own) = [B * nh; chunk_len Hi Np p + 2 * da_r_lat o; chunk_len Wi A a; Ck] /\ shp (snd own) = [B * nh; chunk_len Hi Np p + 2 * da_r_lat o; chunk_len Wi A a; Cv] /\
  forall s, In s visits -> fst s < A /\ shp (fst (snd s)) = [B * nh; chunk_len Hi Np p + 2 * da_r_lat o; nth (fst s) (da_lon_in o) 0; Ck] /\ shp (snd (snd s)) = [B * nh; chunk_len Hi Np p + 2 * da_r_lat o; nth (fst s) (da_lon_in o) 0; Cv].
Proof.
  intros p a Hp Ha. pose proof HG as [(G1 & G2 & G3) (G4 & G5 & G6) HS HR]. pose proof OK as [HB Hn HHi HHo HWi HWo Sk Sv Sq Hd HPt Hqd Hne].
  pose proof (HH argsort L B Ck Cv nh Hi Wi Ho Wo quad P Np A ranks HArg HG HF kw vw qw OK) as HH'. pose proof (HP B Ck Cv nh Hi Wi Ho Wo quad P Np A ranks HG kw vw qw kf vf qf OK Hk Hv Hq) as HPr.
  pose proof (na_dummy B Ck Cv nh Hi Wi Ho Wo quad P kw vw qw OK) as ND.
  destruct (op_init argsort L B 1 Ck Cv nh Hi Wi Ho Wo quad P _ _ _ Np A ND HArg G1 G2 G3 G4 G5 G6 HS p a Hp Ha) as (row & EO & _).
  rewrite Hup in EO. cbv iota in EO. assert (Nd : (Wi mod Wo =? 0) = false) by (unfold na_upsample in Hup; apply andb_true_iff in Hup; destruct Hup as [_ E]; now apply negb_true_iff in E). rewrite Nd in HPt.
  assert (Lc : chunk_lo Wo A a <= Wo) by (pose proof (chunk_bound Wo A a G4 Ha); lia).
  set (rl := compute_r_lat_up Np Wo Hi (bal Hi Np) (bal Ho Np) (offsets 0 P) (columns P)) in EO.
  pose proof (layer_rows P Hi Ho Wo (bal Hi Np) (bal Ho Np) p (chunk_lo Wo A a) rl HPt ltac:(lia) Lc) as LR. cbv zeta in LR. rewrite !chunk_len_nth in LR by auto. destruct LR as (P' & EP' & E4 & IN). rewrite EP' in EO. cbn [fst snd] in EO.
  match type of EO with _ = Some ?t => set (o := t) in EO end. destruct (HPr p a Hp Ha) as (kt & vt & qt & EP & _ & _ & Tq).
  destruct (shard_cf Hi Wi Ho Wo P Np A G1 G2 G3 G4 G5 G6 qt (mk_cf (B * nh) Ck Ho Wo (ffld nh Ck qw)) _ _ _ _ p a eq_refl Tq) as (Sqt & _). destruct (to_nhwc_val _ _ _ _ _ Sqt) as (qn & EQ & _).
  destruct (op_chunk argsort L B 1 Ck Cv nh Hi Wi Ho Wo quad P _ _ _ Np A ND HArg G1 G2 G3 G4 G5 G6 HS HH' _ _ _ _ HPr p a Hp Ha) as (kc & vc & EC & S1 & S2 & _). rewrite Hup in S1, S2. cbv iota in S1, S2. fold rl in S1, S2.
  assert (Lo : nth p (da_lat_out o) 0 = chunk_len Ho Np p) by (cbn [da_lat_out o]; now apply chunk_len_nth). assert (Lw : nth a (da_lon_out o) 0 = chunk_len Wo A a) by (cbn [da_lon_out o]; now apply chunk_len_nth).
  pose proof (rank_visits argsort L B 1 Ck Cv nh Hi Wi Ho Wo quad P _ _ _ Np A ranks ND HArg G1 G2 G3 G4 G5 G6 HS HR HH' _ _ _ _ HPr p a Hp Ha o eq_refl) as EV.
  match type of EV with _ = Some ?v => set (vs := v) in EV end.
  exists o, (kt, vt, qt), (kc, vc), vs, qn, P'. repeat (split; [first [exact EO|exact EP|exact EC|exact EV|exact Lo|exact Lw|reflexivity|exact E4|exact IN|exact Sqt|exact EQ]|]).
  split. { subst vs. destruct A; [lia|]. cbn [seq map]. exact I. } split; [exact S1|]. split; [exact S2|].
  intros s Hin. subst vs. apply in_map_iff in Hin. destruct Hin as (i & <- & Hin). apply in_map_iff in Hin. destruct Hin as (j & <- & Hj). cbn [fst snd].
  assert (Hi' : (a + j) mod A < A) by (apply Nat.mod_upper_bound; lia). split; [exact Hi'|].
  destruct (rank_chunks argsort L B 1 Ck Cv nh Hi Wi Ho Wo quad P _ _ _ Np A ND HArg G1 G2 G3 G4 G5 G6 HS HH' _ _ _ _ HPr p Hp _ Hi') as (_ & R1 & R2 & _). rewrite Hup in R1, R2. cbv iota in R1, R2. fold rl in R1, R2.
  assert (Lc' : nth ((a + j) mod A) (da_lon_in o) 0 = chunk_len Wi A ((a + j) mod A)) by (cbn [da_lon_in o]; now apply chunk_len_nth). rewrite Lc'. split; [exact R1|exact R2].
Qed.
Lemma wide : forall i, i < A -> 1 <= chunk_len Wi A i.
Proof. intros i Hi'. pose proof HG as [_ (G4 & G5 & _) _ _]. apply chunk_len_pos; auto. Qed.

Theorem gpu_up_forward : exists y, attn_torch kw vw qw quad (columns P) (offsets 0 P) nh Wi Ho Wo = Some y /\
  forall p a, p < Np -> a < A -> exists o x visits qn, obj p a = Some o /\ proj p a = Some x /\ dist_visits ranks (dist_chunk Np obj proj) p a o = Some visits /\ to_nhwc (snd x) = Some qn /\
  let len := chunk_len Ho Np p in let wid := chunk_len Wo A a in
  forall ws dev ninf, 32 <= ws ->
  (forall s, In s visits -> scores_above ninf (B * nh) (chunk_len Hi Np p + 2 * da_r_lat o) (chunk_len Wi A (fst s)) len wid Ck (hwc (fst (snd s))) (hwc qn)) ->
  (forall s, In s visits -> up_fwd_launches dev ninf o p a qn (B * nh) Ck Cv s <> None) ->
  up_round_ends ws (B * nh * len * wid) (up_fwd_launches dev ninf o p a qn (B * nh) Ck Cv) visits (up_empty_bufs ninf o p a (B * nh))
    (fun fo => same4 (B * nh) len wid Cv (up_y_of o p a (B * nh) Cv fo) (cf (block Np A (folded_heads nh Cv y) p a))).
Proof.
  destruct (op_fwd argsort L B Ck Cv nh Hi Wi Ho Wo quad P Np A ranks HArg HG HF kw vw qw kf vf qf OK Hk Hv Hq) as (y & E & _ & G). exists y. split; [exact E|].
  intros p a Hp Ha. destruct (up_rank_facts p a Hp Ha) as (o & x & own & visits & qn & P' & F1 & F2 & F3 & F4 & FL & F5 & F6 & F7 & F8 & F9 & F10 & F11 & F14 & F15 & F16 & F17 & F18 & F19 & F20).
  exists o, x, visits, qn. do 4 (split; [assumption|]). cbv zeta. intros ws dev ninf Hw HSc HLa.
  destruct (G p a Hp Ha) as (out & EG & TG). unfold dist_op in EG. fold obj proj in EG. rewrite F1, F2 in EG. cbn [bindo] in EG. rewrite F4 in EG. cbn [bindo] in EG.
  pose proof HG as [(G1 & G2 & G3) (G4 & G5 & G6) HS HR].
  assert (HV : forall s, In s visits -> 1 <= nth (fst s) (da_lon_in o) 0 /\ shp (fst (snd s)) = [B * nh; chunk_len Hi Np p + 2 * da_r_lat o; nth (fst s) (da_lon_in o) 0; Ck] /\ shp (snd (snd s)) = [B * nh; chunk_len Hi Np p + 2 * da_r_lat o; nth (fst s) (da_lon_in o) 0; Cv] /\
    scores_above ninf (B * nh) (chunk_len Hi Np p + 2 * da_r_lat o) (nth (fst s) (da_lon_in o) 0) (chunk_len Ho Np p) (chunk_len Wo A a) Ck (hwc (fst (snd s))) (hwc qn)).
  { intros s Hin. destruct (F20 s Hin) as (Hs & S1 & S2). specialize (HSc s Hin). rewrite F8, chunk_len_nth in * by auto. split; [now apply wide|]. auto. }
  assert (Q := up_rank_forward ws dev ninf o p a visits (B * nh) Ck Cv (chunk_len Hi Np p + 2 * da_r_lat o) P' (snd x) qn F5 F9 F10). rewrite FL, F6, F7 in Q. cbn [na_layer na_Hi na_Wi na_Wo] in Q.
  eapply up_round_mono; [|apply (Q F11 F14 Hw F15 F16 HV HLa F17 out EG)]. cbv beta. intros fo [So Hfo].
  apply same4_sym. eapply same4_trans; [|exact Hfo]. apply same4_sym. exact (teq_cf out _ (B * nh) Cv (chunk_len Ho Np p) (chunk_len Wo A a) TG So).
Qed.

Variables (dyw : tensor R) (dyf : pfam (tensor R)).
Hypothesis Sdy : shp dyw = [B; Ho; Wo; nh * Cv].
Hypothesis Hdy : holds2 Np A dyf (block Np A (folded_heads nh Cv dyw)).
Theorem gpu_up_backward : exists dk dv dq, attn_bwd_torch kw vw qw dyw quad (columns P) (offsets 0 P) nh Wi Ho Wo = Some (dk, dv, dq) /\
  forall p a, p < Np -> a < A -> exists o x visits qn g dyn dkl dvl dql, obj p a = Some o /\ proj p a = Some x /\ dist_visits ranks (dist_chunk Np obj proj) p a o = Some visits /\ to_nhwc (snd x) = Some qn /\
  dyf p a = Some g /\ to_nhwc g = Some dyn /\ dist_op_local Np ranks obj proj dyf p a = Some (dkl, dvl, dql) /\
  let len := chunk_len Ho Np p in let wid := chunk_len Wo A a in let H := chunk_len Hi Np p + 2 * da_r_lat o in
  forall ws dev ninf, 32 <= ws ->
  (forall s, In s visits -> scores_above ninf (B * nh) H (chunk_len Wi A (fst s)) len wid Ck (hwc (fst (snd s))) (hwc qn)) ->
  (forall s, In s visits -> up_fwd_launches dev ninf o p a qn (B * nh) Ck Cv s <> None) ->
  (forall fo s, In s visits -> up_p1_launches dev o p a qn dyn (B * nh) Ck Cv fo s <> None) ->
  (forall fo bo s, In s visits -> up_p2_launches dev o p a qn dyn (B * nh) Ck Cv fo bo s <> None) ->
  up_round_ends ws (B * nh * len * wid) (up_fwd_launches dev ninf o p a qn (B * nh) Ck Cv) visits (up_empty_bufs ninf o p a (B * nh)) (fun fo =>
  chain_ends (up_p1_launches dev o p a qn dyn (B * nh) Ck Cv fo) visits (fun _ => 0%R) (fun bo =>
  up_each_ends (up_p2_launches dev o p a qn dyn (B * nh) Ck Cv fo bo) visits (fun gs =>
    let f := up_full_of o (B * nh) Ck Cv H visits gs in
    teq dkl (mk_hwc (B * nh) H Wi Ck (fst f)) /\ teq dvl (mk_hwc (B * nh) H Wi Cv (snd f)) /\
    same4 (B * nh) len wid Ck (up_dq_of o p a (B * nh) Ck fo bo) (cf (block Np A (folded_heads nh Ck dq) p a))))).
Proof.
  destruct (op_bwd argsort L B Ck Cv nh Hi Wi Ho Wo quad P Np A ranks HArg HG HF kw vw qw kf vf qf OK Hk Hv Hq dyw dyf Sdy Hdy) as (dk & dv & dq & E & _ & G). cbv zeta in G. destruct G as (_ & _ & G). exists dk, dv, dq. split; [exact E|].
  intros p a Hp Ha. destruct (up_rank_facts p a Hp Ha) as (o & x & own & visits & qn & P' & F1 & F2 & F3 & F4 & FL & F5 & F6 & F7 & F8 & F9 & F10 & F11 & F14 & F15 & F16 & F17 & F18 & F19 & F20).
  pose proof HG as [(G1 & G2 & G3) (G4 & G5 & G6) HS HR]. pose proof OK as [HB Hn HHi HHo HWi HWo Sk Sv Sq Hd HPt Hqd Hne].
  destruct (Hdy p a Hp Ha) as (g & Eg & Tg). assert (Td : teq g (shard 2 Np p (shard 3 A a (mk_cf (B * nh) Cv Ho Wo (ffld nh Cv dyw))))) by (eapply teq_trans; [exact Tg|]; apply block_teq; auto; now apply folded_cf).
  destruct (shard_cf Hi Wi Ho Wo P Np A G1 G2 G3 G4 G5 G6 g (mk_cf (B * nh) Cv Ho Wo (ffld nh Cv dyw)) _ _ _ _ p a eq_refl Td) as (Sg & _). destruct (to_nhwc_val _ _ _ _ _ Sg) as (dyn & Edn & _).
  destruct (G p a Hp Ha) as (out & EG & TG). unfold dist_op_bwd in EG. cbn [snd] in EG. unfold pmap in EG. fold obj proj in EG.
  destruct (dist_op_local Np ranks obj proj dyf p a) as [[[dkl dvl] dql]|] eqn:EL; [|discriminate EG]. cbn [bindo snd] in EG. injection EG as <-.
  exists o, x, visits, qn, g, dyn, dkl, dvl, dql. do 7 (split; [first [assumption|reflexivity]|]). cbv zeta. intros ws dev ninf Hw HSc L0 L1 L2.
  unfold dist_op_local in EL. rewrite F1, F2, Eg in EL. cbn [bindo] in EL. rewrite F3 in EL. cbn [bindo] in EL. rewrite F4 in EL. cbn [bindo] in EL.
  assert (HV : forall s, In s visits -> 1 <= nth (fst s) (da_lon_in o) 0 /\ shp (fst (snd s)) = [B * nh; chunk_len Hi Np p + 2 * da_r_lat o; nth (fst s) (da_lon_in o) 0; Ck] /\ shp (snd (snd s)) = [B * nh; chunk_len Hi Np p + 2 * da_r_lat o; nth (fst s) (da_lon_in o) 0; Cv] /\
    scores_above ninf (B * nh) (chunk_len Hi Np p + 2 * da_r_lat o) (nth (fst s) (da_lon_in o) 0) (chunk_len Ho Np p) (chunk_len Wo A a) Ck (hwc (fst (snd s))) (hwc qn)).
  { intros s Hin. destruct (F20 s Hin) as (Hs & S1 & S2). specialize (HSc s Hin). rewrite F8, chunk_len_nth in * by auto. split; [now apply wide|]. auto. }
  assert (Q := up_rank_backward ws dev ninf o p a visits (B * nh) Ck Cv (chunk_len Hi Np p + 2 * da_r_lat o) P' (snd x) g qn dyn F5 F9 F10). rewrite FL, F6, F7 in Q. cbn [na_layer na_Hi na_Wi na_Wo] in Q.
  eapply up_round_mono; [|apply (Q F11 F14 Hw F15 F16 HV L0 Sg Edn L1 L2 own _ F18 F19 ltac:(rewrite EL; discriminate))]. cbv beta. intros fo Hfo.
  eapply chain_mono; [|exact Hfo]. cbv beta. intros bo Hbo. eapply up_each_mono; [|exact Hbo]. cbv beta. intros gs Hgs. specialize (Hgs dkl dvl dql EL). cbv zeta in Hgs. rewrite F6, F7, F8 in Hgs. rewrite bal_sum in Hgs by auto. destruct Hgs as (T1 & T2 & T3 & T4 & T5 & T6).
  split; [|split].
  - split; [exact T1|]. intros i Vi. rewrite T1 in Vi. destruct (valid4 _ _ _ _ _ Vi) as (b & h & w & c & -> & Hb & Hh & Hw' & Hc). exact (T4 b h w c Hb Hh Hw' Hc).
  - split; [exact T2|]. intros i Vi. rewrite T2 in Vi. destruct (valid4 _ _ _ _ _ Vi) as (b & h & w & c & -> & Hb & Hh & Hw' & Hc). exact (T5 b h w c Hb Hh Hw' Hc).
  - apply same4_sym. eapply same4_trans; [|exact T6]. apply same4_sym. exact (teq_cf dql _ (B * nh) Ck (chunk_len Ho Np p) (chunk_len Wo A a) TG T3).
Qed.
End Layer.

(** rank (0, 1) of 2 x 2 ranks, upsampling from 2x2 to 2x4 with two heads *)
Definition ex_up_obj : pfam dattn := dist_na_init down 2 2 (na_layer ex_W 2 2 2 4 2 ex_quad ex_P2).
Definition ex_up_dev : device := mkDev (16 * 1024) (16 * 1024) (16 * 1024).
Theorem ex_up_launch : exists o, ex_up_obj 0 1 = Some o /\ da_col o <> [] /\
  forall ninf qn dyn fo bo s, shp (fst (snd s)) = [2; 1 + 2 * da_r_lat o; 1; 1] -> up_fwd_launches ex_up_dev ninf o 0 1 qn 2 1 2 s <> None /\ up_p1_launches ex_up_dev o 0 1 qn dyn 2 1 2 fo s <> None /\ up_p2_launches ex_up_dev o 0 1 qn dyn 2 1 2 fo bo s <> None.
Proof.
  assert (D : exists o, ex_up_obj 0 1 = Some o /\ da_col o <> [] /\ da_r_lat o = 1 /\ nth 0 (da_lat_out o) 0 = 1 /\ nth 1 (da_lon_out o) 0 = 2) by (eexists; split; [reflexivity|]; split; [vm_compute; discriminate|]; vm_compute; auto).
  destruct D as (o & E & D1 & D2 & D3 & D4). exists o. split; [exact E|]. split; [exact D1|]. intros ninf qn dyn fo bo s Ss.
  unfold up_fwd_launches, up_p1_launches, up_p2_launches. cbv zeta. rewrite D3, D4. unfold dimsz. rewrite Ss, D2. repeat split; apply some_ne; vm_compute; exact I.
Qed.
