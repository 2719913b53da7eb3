(** The passes of a rank on the GPU, for the ranks of a layer: their results are the blocks of the serial ones. *)
From Coq Require Import List Arith Lia Bool ZArith Reals Lra Permutation Sorted.
From Verif Require Import TensorModel TensorProofs BigSum PrimModel PrimSpec PrimProofs DistSHTModel DistSHTProofs DistStateModel AttnModel AttnLayerModel AttnLayerSpec AttnLayerProofs AttnCoreProofs DistAttnModel DistAttnSpec DistAttnBwdModel DistAttnBwdSpec DistSpectralProofs DistAttnProofs DistAttnProofs4 DistAttnProofs5 DistAttnBwdProofs3 DistAttnBwdProofs4 GpuModel GpuSpec CudaDiscoModel CudaAttnModel CudaAttnSpec CudaUtilsModel CudaRescaleSpec CudaRingUpSpec CudaRingSpec CudaRingModel CudaRingProofs8 CudaRingBwdModel CudaRingBwdSpec CudaRingBwdProofs5 CudaRankModel CudaRankSpec CudaRankProofs.
From Verif Require Import AttnKernelProofs AttnGradProofs AttnOpProofs AttnOpValProofs AttnBwdProofs AttnSpec.
Import ListNotations.
Local Open Scope nat_scope.

Lemma each_mono : forall A (ks : A -> option (option kernel * option kernel)) l (Q Q' : list (nat -> R) -> Prop), (forall gs, Q gs -> Q' gs) -> each_ends ks l Q -> each_ends ks l Q'.
Proof.
  intros A ks. induction l as [|c l IH]; intros Q Q' HQ H; [now apply HQ|]. cbn [each_ends] in *. destruct (ks c) as [k|]; [|exact H]. eapply pass2_mono; [|exact H]. cbv beta. intros o Ho. eapply IH; [|exact Ho]. cbv beta. intros gs. apply HQ.
Qed.

Section Layer.
Variables (argsort : list nat -> list nat) (L : weights) (B Ck Cv nh Hi Wi Ho Wo : nat) (quad : nat -> R) (P : pattern) (Np A : nat) (ranks : nat -> list nat).
Let obj := dist_na_init argsort Np A (na_layer L Hi Wi Ho Wo nh quad P).
Hypothesis HArg : forall l, Permutation (argsort l) (seq 0 (length l)) /\ StronglySorted (fun x y => nth y l 0 <= nth x l 0) (argsort l).
Hypothesis HG : grid_ok Hi Wi Ho Wo Np A ranks.
Hypothesis HF : halo_fits P Hi Wi Ho Wo Np.
Hypothesis Hdown : Wi mod Wo = 0.
Variables (kw vw qw : tensor R) (kf vf qf : pfam (tensor R)).
Hypothesis OK : attn_ok B nh Ck Cv Hi Wi Ho Wo quad P kw vw qw.
Hypothesis Hk : holds2 Np A kf (block Np A (folded_heads nh Ck kw)).
Hypothesis Hv : holds2 Np A vf (block Np A (folded_heads nh Cv vw)).
Hypothesis Hq : holds2 Np A qf (block Np A (folded_heads nh Ck qw)).
Let proj := triples kf vf qf.
Lemma HArg1 : forall l, Permutation (argsort l) (seq 0 (length l)).
Proof. intros l. exact (proj1 (HArg l)). Qed.

Lemma rank_facts : forall p a, p < Np -> a < A -> exists o x own visits qn P', obj p a = Some o /\ proj p a = Some x /\ dist_chunk Np obj proj p a = Some own /\ dist_visits ranks (dist_chunk Np obj proj) p a o = Some visits /\
  da_L o = na_layer L Hi Wi Ho Wo nh quad P /\ da_up o = false /\ nth p (da_lat_out o) 0 = chunk_len Ho Np p /\ nth a (da_lon_out o) 0 = chunk_len Wo A a /\ da_lon_in o = bal Wi A /\
  da_roff o = offsets 0 P' /\ da_col o = columns P' /\ pattern_ok P' (chunk_len Ho Np p) (Hi * Wi) /\ Permutation (da_row o) (seq 0 (chunk_len Ho Np p)) /\ StronglySorted (fun x y => length (nth y P' []) <= length (nth x P' [])) (da_row o) /\
  rows_in_chunk (chunk_len Hi Np p + 2 * da_r_lat o) Wi (Z.of_nat (nth p (split_starts (da_lat_in o)) 0) - Z.of_nat (da_r_lat o)) P' /\
  shp (snd x) = [B * nh; Ck; chunk_len Ho Np p; chunk_len Wo A a] /\ to_nhwc (snd x) = Some qn /\ match visits with [] => False | _ => True end /\
  shp (fst own) = [B * nh; chunk_len Hi Np p + 2 * da_r_lat o; chunk_len Wi A a; Ck] /\ shp (snd own) = [B * nh; chunk_len Hi Np p + 2 * da_r_lat o; chunk_len Wi A a; Cv] /\
  forall s, In s visits -> shp (fst (snd s)) = [B * nh; chunk_len Hi Np p + 2 * da_r_lat o; nth (fst s) (da_lon_in o) 0; Ck] /\ shp (snd (snd s)) = [B * nh; chunk_len Hi Np p + 2 * da_r_lat o; nth (fst s) (da_lon_in o) 0; Cv].
Proof.
  intros p a Hp Ha. pose proof HG as [(G1 & G2 & G3) (G4 & G5 & G6) HS HR]. pose proof OK as [HB Hn HHi HHo HWi HWo Sk Sv Sq Hd HPt Hqd Hne].
  pose proof (HH argsort L B Ck Cv nh Hi Wi Ho Wo quad P Np A ranks HArg1 HG HF kw vw qw OK) as HH'. pose proof (HP B Ck Cv nh Hi Wi Ho Wo quad P Np A ranks HG kw vw qw kf vf qf OK Hk Hv Hq) as HPr.
  pose proof (na_dummy B Ck Cv nh Hi Wi Ho Wo quad P kw vw qw OK) as ND.
  destruct (op_init argsort L B 1 Ck Cv nh Hi Wi Ho Wo quad P _ _ _ Np A ND HArg1 G1 G2 G3 G4 G5 G6 HS p a Hp Ha) as (row & EO & _).
  assert (Eup : na_upsample Wi Wo = false) by (unfold na_upsample; rewrite Hdown; cbn; now rewrite andb_false_r).
  match type of EO with _ = Some ?t => set (o := t) in EO end. destruct (HPr p a Hp Ha) as (kt & vt & qt & EP & _ & _ & Tq).
  destruct (shard_cf Hi Wi Ho Wo P Np A G1 G2 G3 G4 G5 G6 qt (mk_cf (B * nh) Ck Ho Wo (ffld nh Ck qw)) _ _ _ _ p a eq_refl Tq) as (Sqt & _). destruct (to_nhwc_val _ _ _ _ _ Sqt) as (qn & EQ & _).
  destruct (op_chunk argsort L B 1 Ck Cv nh Hi Wi Ho Wo quad P _ _ _ Np A ND HArg1 G1 G2 G3 G4 G5 G6 HS HH' _ _ _ _ HPr p a Hp Ha) as (kc & vc & EC & S1 & S2 & _).
  rewrite Hdown, Nat.eqb_refl in HPt.
  destruct (layer_init argsort Np A (na_layer L Hi Wi Ho Wo nh quad P) p a o P Hi EO Eup eq_refl eq_refl HPt (conj G1 G3) Hp HArg) as (P' & E1 & E2 & E3 & E4 & E5 & E6 & E7).
  assert (Lo : nth p (da_lat_out o) 0 = chunk_len Ho Np p) by (cbn [da_lat_out o]; now apply chunk_len_nth). assert (Lw : nth a (da_lon_out o) 0 = chunk_len Wo A a) by (cbn [da_lon_out o]; now apply chunk_len_nth). rewrite Lo in *.
  pose proof (layer_inside argsort Np A (na_layer L Hi Wi Ho Wo nh quad P) p a o P P' EO Eup eq_refl eq_refl HPt G1 G3 G2 Hp E2 E3 ltac:(rewrite Lo; exact (proj1 E4))) as IN.
  assert (Li : nth p (da_lat_in o) 0 = chunk_len Hi Np p) by (cbn [da_lat_in o]; now apply chunk_len_nth). rewrite Li in IN.
  pose proof (rank_visits argsort L B 1 Ck Cv nh Hi Wi Ho Wo quad P _ _ _ Np A ranks ND HArg1 G1 G2 G3 G4 G5 G6 HS HR HH' _ _ _ _ HPr p a Hp Ha o eq_refl) as EV.
  match type of EV with _ = Some ?v => set (vs := v) in EV end.
  exists o, (kt, vt, qt), (kc, vc), vs, qn, P'. repeat (split; [first [exact EO|exact EP|exact EC|exact EV|exact E1|exact Eup|exact Lo|exact Lw|reflexivity|exact E2|exact E3|exact E4|exact E6|exact E7|exact IN|exact Sqt|exact EQ]|]).
  split. { subst vs. destruct A; [lia|]. cbn [seq map]. exact I. } split; [exact S1|]. split; [exact S2|].
  intros s Hin. subst vs. apply in_map_iff in Hin. destruct Hin as (i & <- & Hin). apply in_map_iff in Hin. destruct Hin as (j & <- & Hj). cbn [fst snd].
  assert (Hi' : (a + j) mod A < A) by (apply Nat.mod_upper_bound; lia).
  destruct (rank_chunks argsort L B 1 Ck Cv nh Hi Wi Ho Wo quad P _ _ _ Np A ND HArg1 G1 G2 G3 G4 G5 G6 HS HH' _ _ _ _ HPr p Hp _ Hi') as (_ & R1 & R2 & _).
  assert (Lc : nth ((a + j) mod A) (da_lon_in o) 0 = chunk_len Wi A ((a + j) mod A)) by (cbn [da_lon_in o]; now apply chunk_len_nth). rewrite Lc. split; [exact R1|exact R2].
Qed.

Lemma teq_cf : forall s t B0 C0 H0 W0, teq s t -> shp s = [B0; C0; H0; W0] -> same4 B0 H0 W0 C0 (cf s) (cf t).
Proof. intros s t B0 C0 H0 W0 [S V] Ss b h w c Hb Hh Hw Hc. unfold cf. apply V. rewrite Ss. now apply valid4_intro. Qed.
Lemma same4_trans : forall B0 H0 W0 C0 f g h, same4 B0 H0 W0 C0 f g -> same4 B0 H0 W0 C0 g h -> same4 B0 H0 W0 C0 f h.
Proof. intros B0 H0 W0 C0 f g h E1 E2 b y x c Hb Hy Hx Hc. rewrite E1 by auto. now apply E2. Qed.
Lemma same4_sym : forall B0 H0 W0 C0 f g, same4 B0 H0 W0 C0 f g -> same4 B0 H0 W0 C0 g f.
Proof. intros B0 H0 W0 C0 f g E b y x c Hb Hy Hx Hc. symmetry. now apply E. Qed.

Theorem gpu_forward : exists y, attn_torch kw vw qw quad (columns P) (offsets 0 P) nh Wi Ho Wo = Some y /\
  forall p a, p < Np -> a < A -> exists o x visits qn, obj p a = Some o /\ proj p a = Some x /\ dist_visits ranks (dist_chunk Np obj proj) p a o = Some visits /\ to_nhwc (snd x) = Some qn /\
  let len := chunk_len Ho Np p in let wid := chunk_len Wo A a in
  forall ws dev vec ninf thres n mx md, 1 <= Cv -> Cv <= 16 * 1024 -> split_cpu thres (da_row o) (da_roff o) len = (n, mx, md) -> n = 0 \/ block_width Cv <= ws ->
  (forall s, In s visits -> scores_above ninf (B * nh) (chunk_len Hi Np p + 2 * da_r_lat o) (chunk_len Wi A (fst s)) len wid Ck (hwc (fst (snd s))) (hwc qn)) ->
  (forall s, In s visits -> fwd_launches dev vec ninf o p a qn (B * nh) Ck Cv n mx md s <> None) ->
  round_ends ws (B * nh * len * wid) (fwd_launches dev vec ninf o p a qn (B * nh) Ck Cv n mx md) visits (empty_bufs ninf o p a (B * nh))
    (fun fo => same4 (B * nh) len wid Cv (y_of o p a (B * nh) Cv fo) (cf (block Np A (folded_heads nh Cv y) p a))).
Proof.
  destruct (op_fwd argsort L B Ck Cv nh Hi Wi Ho Wo quad P Np A ranks HArg1 HG HF kw vw qw kf vf qf OK Hk Hv Hq) as (y & E & _ & G). exists y. split; [exact E|].
  intros p a Hp Ha. destruct (rank_facts p a Hp Ha) as (o & x & own & visits & qn & P' & F1 & F2 & F3 & F4 & FL & F5 & F6 & F7 & F8 & F9 & F10 & F11 & F12 & F13 & F14 & F15 & F16 & F17 & F18 & F19 & F20).
  exists o, x, visits, qn. do 4 (split; [assumption|]). cbv zeta. intros ws dev vec ninf thres n mx md HC1 HC2 Esp Hw HSc HLa.
  destruct (G p a Hp Ha) as (out & EG & TG). unfold dist_op in EG. fold obj proj in EG. rewrite F1, F2 in EG. cbn [bindo] in EG. rewrite F4 in EG. cbn [bindo] in EG.
  pose proof HG as [(G1 & G2 & G3) (G4 & G5 & G6) HS HR].
  assert (HV : forall s, In s visits -> shp (fst (snd s)) = [B * nh; chunk_len Hi Np p + 2 * da_r_lat o; nth (fst s) (da_lon_in o) 0; Ck] /\ shp (snd (snd s)) = [B * nh; chunk_len Hi Np p + 2 * da_r_lat o; nth (fst s) (da_lon_in o) 0; Cv] /\
    scores_above ninf (B * nh) (chunk_len Hi Np p + 2 * da_r_lat o) (nth (fst s) (da_lon_in o) 0) (nth p (da_lat_out o) 0) (nth a (da_lon_out o) 0) Ck (hwc (fst (snd s))) (hwc qn)).
  { intros s Hin. destruct (F20 s Hin) as [S1 S2]. split; [exact S1|]. split; [exact S2|]. rewrite F6, F7. specialize (HSc s Hin). 
    destruct (Nat.lt_ge_cases (fst s) A) as [Hs|Hs]; [rewrite F8, chunk_len_nth by auto; exact HSc|].
    intros b h w ho wo _ _ Hw'. exfalso. rewrite F8, nth_overflow in Hw' by (rewrite bal_length; auto). lia. }
  assert (Q := rank_forward ws dev vec ninf thres o p a visits (B * nh) Ck Cv (chunk_len Hi Np p + 2 * da_r_lat o) n mx md P' (snd x) qn F5 F9 F10). rewrite FL, F6, F7 in Q. rewrite F6, F7 in HV. cbn [na_layer na_Hi na_Wi] in Q.
  eapply round_mono; [|apply (Q F11 ltac:(pose proof (ao_Wi _ _ _ _ _ _ _ _ _ _ _ _ _ OK); lia) F12 F13 Esp HC1 HC2 Hw F15 F16 HV HLa F17 out EG)]. cbv beta. intros fo [So Hfo].
  apply same4_sym. eapply same4_trans; [|exact Hfo]. apply same4_sym. exact (teq_cf out _ (B * nh) Cv (chunk_len Ho Np p) (chunk_len Wo A a) TG So).
Qed.

Variables (dyw : tensor R) (dyf : pfam (tensor R)).
Hypothesis Sdy : shp dyw = [B; Ho; Wo; nh * Cv].
Hypothesis Hdy : holds2 Np A dyf (block Np A (folded_heads nh Cv dyw)).
Theorem gpu_backward : exists dk dv dq, attn_bwd_torch kw vw qw dyw quad (columns P) (offsets 0 P) nh Wi Ho Wo = Some (dk, dv, dq) /\
  forall p a, p < Np -> a < A -> exists o x visits qn g dyn dkl dvl dql, obj p a = Some o /\ proj p a = Some x /\ dist_visits ranks (dist_chunk Np obj proj) p a o = Some visits /\ to_nhwc (snd x) = Some qn /\
  dyf p a = Some g /\ to_nhwc g = Some dyn /\ dist_op_local Np ranks obj proj dyf p a = Some (dkl, dvl, dql) /\
  let len := chunk_len Ho Np p in let wid := chunk_len Wo A a in let H := chunk_len Hi Np p + 2 * da_r_lat o in
  forall ws dev vec old ninf thres n mx md, 1 <= Cv -> Cv <= 16 * 1024 -> split_cpu thres (da_row o) (da_roff o) len = (n, mx, md) -> n = 0 \/ (block_width Cv <= ws /\ block_width Ck <= ws) ->
  (forall s, In s visits -> scores_above ninf (B * nh) H (chunk_len Wi A (fst s)) len wid Ck (hwc (fst (snd s))) (hwc qn)) ->
  (forall s, In s visits -> fwd_launches dev vec ninf o p a qn (B * nh) Ck Cv n mx md s <> None) ->
  (forall s, In s visits -> p1_launches dev vec ninf o p a qn dyn (B * nh) Ck Cv n mx md s <> None) ->
  (forall fo bo s, In s visits -> p2_launches dev vec old o p a qn dyn (B * nh) Ck Cv n mx md fo bo s <> None) ->
  round_ends ws (B * nh * len * wid) (fwd_launches dev vec ninf o p a qn (B * nh) Ck Cv n mx md) visits (empty_bufs ninf o p a (B * nh)) (fun fo =>
  round_ends ws (B * nh * len * wid) (p1_launches dev vec ninf o p a qn dyn (B * nh) Ck Cv n mx md) visits (empty_bufs ninf o p a (B * nh)) (fun bo =>
  each_ends (p2_launches dev vec old o p a qn dyn (B * nh) Ck Cv n mx md fo bo) visits (fun gs =>
    let f := full_of o (B * nh) Ck Cv H visits gs in
    teq dkl (mk_hwc (B * nh) H Wi Ck (fst f)) /\ teq dvl (mk_hwc (B * nh) H Wi Cv (snd f)) /\
    same4 (B * nh) len wid Ck (dq_of o p a (B * nh) Ck fo bo) (cf (block Np A (folded_heads nh Ck dq) p a))))).
Proof.
  destruct (op_bwd argsort L B Ck Cv nh Hi Wi Ho Wo quad P Np A ranks HArg1 HG HF kw vw qw kf vf qf OK Hk Hv Hq dyw dyf Sdy Hdy) as (dk & dv & dq & E & _ & G). cbv zeta in G. destruct G as (_ & _ & G). exists dk, dv, dq. split; [exact E|].
  intros p a Hp Ha. destruct (rank_facts p a Hp Ha) as (o & x & own & visits & qn & P' & F1 & F2 & F3 & F4 & FL & F5 & F6 & F7 & F8 & F9 & F10 & F11 & F12 & F13 & F14 & F15 & F16 & F17 & F18 & F19 & F20).
  pose proof HG as [(G1 & G2 & G3) (G4 & G5 & G6) HS HR]. pose proof OK as [HB Hn HHi HHo HWi HWo Sk Sv Sq Hd HPt Hqd Hne].
  destruct (Hdy p a Hp Ha) as (g & Eg & Tg). assert (Td : teq g (shard 2 Np p (shard 3 A a (mk_cf (B * nh) Cv Ho Wo (ffld nh Cv dyw))))) by (eapply teq_trans; [exact Tg|]; apply block_teq; auto; now apply folded_cf).
  destruct (shard_cf Hi Wi Ho Wo P Np A G1 G2 G3 G4 G5 G6 g (mk_cf (B * nh) Cv Ho Wo (ffld nh Cv dyw)) _ _ _ _ p a eq_refl Td) as (Sg & _). destruct (to_nhwc_val _ _ _ _ _ Sg) as (dyn & Edn & _).
  destruct (G p a Hp Ha) as (out & EG & TG). unfold dist_op_bwd in EG. cbn [snd] in EG. unfold pmap in EG. fold obj proj in EG.
  destruct (dist_op_local Np ranks obj proj dyf p a) as [[[dkl dvl] dql]|] eqn:EL; [|discriminate EG]. cbn [bindo snd] in EG. injection EG as <-.
  exists o, x, visits, qn, g, dyn, dkl, dvl, dql. do 7 (split; [first [assumption|reflexivity]|]). cbv zeta. intros ws dev vec old ninf thres n mx md HC1 HC2 Esp Hw HSc L0 L1 L2.
  unfold dist_op_local in EL. rewrite F1, F2, Eg in EL. cbn [bindo] in EL. rewrite F3 in EL. cbn [bindo] in EL. rewrite F4 in EL. cbn [bindo] in EL.
  assert (HV : forall s, In s visits -> shp (fst (snd s)) = [B * nh; chunk_len Hi Np p + 2 * da_r_lat o; nth (fst s) (da_lon_in o) 0; Ck] /\ shp (snd (snd s)) = [B * nh; chunk_len Hi Np p + 2 * da_r_lat o; nth (fst s) (da_lon_in o) 0; Cv] /\
    scores_above ninf (B * nh) (chunk_len Hi Np p + 2 * da_r_lat o) (nth (fst s) (da_lon_in o) 0) (chunk_len Ho Np p) (chunk_len Wo A a) Ck (hwc (fst (snd s))) (hwc qn)).
  { intros s Hin. destruct (F20 s Hin) as [S1 S2]. split; [exact S1|]. split; [exact S2|]. specialize (HSc s Hin).
    destruct (Nat.lt_ge_cases (fst s) A) as [Hs|Hs]; [rewrite F8, chunk_len_nth by auto; exact HSc|].
    intros b h w ho wo _ _ Hw'. exfalso. rewrite F8, nth_overflow in Hw' by (rewrite bal_length; auto). lia. }
  assert (Q := rank_backward ws dev vec old ninf thres o p a visits (B * nh) Ck Cv (chunk_len Hi Np p + 2 * da_r_lat o) n mx md P' (snd x) g qn dyn F5 F9 F10). rewrite FL, F6, F7 in Q. cbn [na_layer na_Hi na_Wi] in Q.
  eapply round_mono; [|apply (Q F11 HWi F12 F13 Esp HC1 HC2 ltac:(tauto) F15 F16 HV L0 ltac:(tauto) Sg Edn L1 L2 F14 own _ F18 F19 ltac:(rewrite EL; discriminate))]. cbv beta. intros fo Hfo.
  eapply round_mono; [|exact Hfo]. cbv beta. intros bo Hbo. eapply each_mono; [|exact Hbo]. cbv beta. intros gs Hgs. specialize (Hgs dkl dvl dql EL). cbv zeta in Hgs. rewrite F6, F7, F8 in Hgs. rewrite bal_sum in Hgs by auto. destruct Hgs as (T1 & T2 & T3 & T4 & T5 & T6).
  split; [|split].
  - split; [exact T1|]. intros i Vi. rewrite T1 in Vi. destruct (valid4 _ _ _ _ _ Vi) as (b & h & w & c & -> & Hb & Hh & Hw' & Hc). exact (T4 b h w c Hb Hh Hw' Hc).
  - split; [exact T2|]. intros i Vi. rewrite T2 in Vi. destruct (valid4 _ _ _ _ _ Vi) as (b & h & w & c & -> & Hb & Hh & Hw' & Hc). exact (T5 b h w c Hb Hh Hw' Hc).
  - apply same4_sym. eapply same4_trans; [|exact T6]. apply same4_sym. exact (teq_cf dql _ (B * nh) Ck (chunk_len Ho Np p) (chunk_len Wo A a) TG T3).
Qed.
(** what the ranks do with these results: the sum over the azimuth group, the own columns, the halo rows back to their owners *)
Theorem gpu_exchange : forall Gk Gv, (forall p a, p < Np -> a < A -> exists dkl dvl dql tk tv, dist_op_local Np ranks obj proj dyf p a = Some (dkl, dvl, dql) /\ Gk p a = Some tk /\ Gv p a = Some tv /\ teq dkl tk /\ teq dvl tv) ->
  exists dk dv dq, attn_bwd_torch kw vw qw dyw quad (columns P) (offsets 0 P) nh Wi Ho Wo = Some (dk, dv, dq) /\
  holds2 Np A (dist_halo_bwd Np obj (bwd_own ranks obj Gk)) (block Np A (folded_heads nh Ck dk)) /\ holds2 Np A (dist_halo_bwd Np obj (bwd_own ranks obj Gv)) (block Np A (folded_heads nh Cv dv)).
Proof.
  intros Gk Gv HGk. pose proof HG as [(G1 & G2 & G3) (G4 & G5 & G6) HS HR]. pose proof OK as [HB Hn HHi HHo HWi HWo Sk Sv Sq Hd HPt Hqd Hne].
  destruct (attn_bwd_torch_val B nh Ck Cv Hi Wi Ho Wo quad P kw vw qw OK dyw Sdy) as (dk & dv & dq & E & Tk & Tv & Tq). exists dk, dv, dq. split; [exact E|].
  pose proof (HH argsort L B Ck Cv nh Hi Wi Ho Wo quad P Np A ranks HArg1 HG HF kw vw qw OK) as HH'. pose proof (HP B Ck Cv nh Hi Wi Ho Wo quad P Np A ranks HG kw vw qw kf vf qf OK Hk Hv Hq) as HPr.
  pose proof (na_dummy B Ck Cv nh Hi Wi Ho Wo quad P kw vw qw OK) as ND.
  assert (HD : holds2 Np A dyf (fun p a => shard 2 Np p (shard 3 A a (mk_cf (B * nh) Cv Ho Wo (ffld nh Cv dyw))))).
  { eapply holds2_teq; [exact Hdy|]. intros p a Hp Ha. apply block_teq; auto. apply folded_cf; auto. }
  pose proof (op_local argsort L B 1 Ck Cv nh Hi Wi Ho Wo quad P _ _ _ Np A ranks ND HArg1 G1 G2 G3 G4 G5 G6 HS HR HH' _ _ _ _ _ _ HPr HD) as LOC.
  set (NB := nbrs P Hi Wi Wo) in *. split.
  - eapply holds2_teq; [eapply (halo_own argsort L B 1 Ck Cv nh Hi Wi Ho Wo quad P _ _ _ Np A ND HArg1 G1 G2 G3 G4 G5 G6 HS HH' _ Ck (fun b ch y x pt => (ffld nh Ck qw b y x ch * g_wt Ck Cv quad NB (ffld nh Ck kw) (ffld nh Cv vw) (ffld nh Ck qw) (ffld nh Cv dyw) b y x pt)%R));
      eapply (own_val argsort L B 1 Ck Cv nh Hi Wi Ho Wo quad P _ _ _ Np A ranks ND HArg1 G1 G2 G3 G4 G5 G6 HS HR)|].
    + intros p a Hp Ha. destruct (LOC p a Hp Ha) as (dk1 & dv1 & dq1 & E1 & S1 & S2 & _ & V & _). destruct (HGk p a Hp Ha) as (dk2 & dv2 & dq2 & tk & tv & E2 & Ek & Ev & T1 & T2). unfold obj, proj in E2. rewrite E1 in E2. injection E2 as <- <- <-.
      exists tk. split; [exact Ek|]. split; [rewrite <- (proj1 T1); exact S1|]. intros b hl w ch Hb Hhl Hw V1 V2 Hch. rewrite <- (proj1 (V b hl w ch Hb Hhl Hw V1 V2) Hch). symmetry. unfold hwc. apply (proj2 T1). rewrite S1. now apply valid4_intro.
    + intros p a Hp Ha. apply block_teq; auto. apply teq_sym, folded_unpk; auto.
  - eapply holds2_teq; [eapply (halo_own argsort L B 1 Ck Cv nh Hi Wi Ho Wo quad P _ _ _ Np A ND HArg1 G1 G2 G3 G4 G5 G6 HS HH' _ Cv (fun b ch y x pt => (g_prob Ck quad NB (ffld nh Ck kw) (ffld nh Ck qw) b y x pt * ffld nh Cv dyw b y x ch)%R));
      eapply (own_val argsort L B 1 Ck Cv nh Hi Wi Ho Wo quad P _ _ _ Np A ranks ND HArg1 G1 G2 G3 G4 G5 G6 HS HR)|].
    + intros p a Hp Ha. destruct (LOC p a Hp Ha) as (dk1 & dv1 & dq1 & E1 & S1 & S2 & _ & V & _). destruct (HGk p a Hp Ha) as (dk2 & dv2 & dq2 & tk & tv & E2 & Ek & Ev & T1 & T2). unfold obj, proj in E2. rewrite E1 in E2. injection E2 as <- <- <-.
      exists tv. split; [exact Ev|]. split; [rewrite <- (proj1 T2); exact S2|]. intros b hl w ch Hb Hhl Hw V1 V2 Hch. rewrite <- (proj2 (V b hl w ch Hb Hhl Hw V1 V2) Hch). symmetry. unfold hwc. apply (proj2 T2). rewrite S2. now apply valid4_intro.
    + intros p a Hp Ha. apply block_teq; auto. apply teq_sym, folded_unpk; auto.
Qed.
End Layer.
