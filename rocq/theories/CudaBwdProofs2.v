(** The backward CUDA operator on preprocessed filters; filters that are not sorted. *)
From Coq Require Import List Arith Lia Bool Reals Lra Permutation Sorted FunctionalExtensionality.
From Verif Require Import TensorModel TensorProofs BigSum DistSpectralProofs DiscoModel DiscoSpec DiscoSortProofs DiscoRunProofs DiscoKernelProofs DiscoTensorProofs DiscoPackProofs
  GpuModel GpuSpec GpuProofs GpuProofs2 CudaDiscoModel CudaDiscoSpec CudaFwdProofs CudaFwdProofs2 CudaBwdProofs.
Import ListNotations.
Local Open Scope nat_scope.

Lemma rsum_nth : forall X (F : X -> R) (l : list X) d, rsum (length l) (fun i => F (nth i l d)) = rlsum F l.
Proof.
  intros X F l d. assert (Q : l = map (fun i => nth i l d) (seq 0 (length l))).
  { apply nth_ext with (d := d) (d' := nth 0 l d); [now rewrite map_length, seq_length|]. intros i Hi. rewrite (map_nth (fun i => nth i l d)), seq_nth by auto. reflexivity. }
  assert (Q2 : rlsum F l = rlsum F (map (fun i => nth i l d) (seq 0 (length l)))) by (f_equal; exact Q).
  rewrite Q2, (lsum_map (r0 := 0%R) (add := Rplus)). symmetry. apply (lsum_seq RT).
Qed.
Lemma concat_lsum : forall X (F : X -> R) ls, rlsum F (concat ls) = rlsum (rlsum F) ls.
Proof. intros. induction ls as [|l ls IH]; [reflexivity|]. cbn [concat]. rewrite (lsum_app RT), IH. reflexivity. Qed.

Section Op.
Variables (K Ho Wo Hi Wi B C BD E ps : nat) (rs : list (list entry)) (y : tensor R).
Hypotheses (HBD : 1 <= BD) (HWi : 1 <= Wi) (Hps : 1 <= ps) (HW : Wo = ps * Wi) (HE : Wi <= BD * E).
Hypotheses (RO : runs_ok rs) (Wf : psi_wf K Hi (Ho * Wo) (concat rs)).
Hypothesis (AS : forall e l, In (e :: l) rs -> asc Wo (col e / Wo) (e :: l)).
Hypothesis (Sy : shp y = [B; C; K; Hi; Wi]) (Hrs : 1 <= length rs).
Notation nr := (length rs).
Definition kb : kernel := mkKernel (B * C * nr) BD (2 * (BD * E) * ps) (B * C * K * Hi * Wi) (flat y) (B * C * Ho * Wo)
  (fun g tid => bwd_thread BD E Hi Wi K Ho Wo ps (starts 0 rs) (concat rs) (g mod nr) (g / nr) tid).
Notation bhd := (rhd rs).
Definition bobase (g : nat) : nat := g / nr * Ho * Wo.
Definition bibase (g : nat) : nat := g / nr * K * Hi * Wi + ker (bhd g) * Hi * Wi + row (bhd g) * Wi.
Definition bprg (g : nat) : list gstep := bprog BD E Wi Wo ps (bibase g) (bobase g) (bhd g) (nth (g mod nr) rs []).
Lemma bhd_spec : forall g, exists l, nth (g mod nr) rs [] = bhd g :: l /\ In (bhd g :: l) rs /\ ker (bhd g) < K /\ row (bhd g) < Hi /\ (forall e, In e (bhd g :: l) -> col e < Ho * Wo).
Proof.
  intros g. destruct (run_head rs (g mod nr) (proj1 RO)) as (e0 & l & E1 & _ & _ & Hin); [apply Nat.mod_upper_bound; lia|].
  exists l. unfold rhd. rewrite E1. cbn [hd]. split; [reflexivity|]. split; [exact Hin|].
  assert (Q : forall e, In e (e0 :: l) -> In e (concat rs)) by (intros e He; apply in_concat; eauto). split; [apply (Wf e0), Q; now left|]. split; [apply (Wf e0), Q; now left|]. intros e He. apply (Wf e), Q, He.
Qed.
Lemma bprg_code : forall g t, bwd_thread BD E Hi Wi K Ho Wo ps (starts 0 rs) (concat rs) (g mod nr) (g / nr) t = code_of (bprg g) t.
Proof.
  intros g t. unfold bwd_thread. cbv zeta. destruct (run_head rs (g mod nr) (proj1 RO)) as (e0 & l & E1 & E2 & E3 & Hin); [apply Nat.mod_upper_bound; lia|].
  rewrite E2, E3. unfold bprg, bibase, bobase, rhd. rewrite E1. cbn [hd]. apply bprog_code.
Qed.
Definition gsum (g a : nat) : R := rlsum (fun e => rowc Wo (bobase g) (col e / Wo) (bt Wi Wo ps (flat y) (bibase g) e) a) (nth (g mod nr) rs []).
Definition binv (n : nat) (out : nat -> R) : Prop := forall a, out a = rsum n (fun g => gsum g a).
Lemma binv_step : forall g rg sh out, binv g out -> binv (Datatypes.S g) (snd (run_prog (flat y) BD (bprg g) (rg, sh, out))).
Proof.
  intros g rg sh out I a. destruct (bhd_spec g) as (l & E1 & Hin & _). unfold bprg. rewrite bprog_run; auto; [|rewrite E1; apply AS; exact Hin]. cbn [snd]. rewrite I. reflexivity.
Qed.
Lemma bflat_at : forall b c k t q, b < B -> c < C -> k < K -> t < Hi -> q < Wi -> flat y ((b * C + c) * K * Hi * Wi + k * Hi * Wi + t * Wi + q) = val y [b; c; k; t; q].
Proof.
  intros b c k t q Hb Hc Hk Ht Hq. unfold flat. rewrite Sy. f_equal. rewrite <- (unravel_ravel [B; C; K; Hi; Wi] [b; c; k; t; q]); [|apply valid5_intro; auto]. f_equal. cbn [ravel prod_list fold_right]. ring.
Qed.
Lemma binv_final : forall out, binv (B * C * nr) out -> teq (tensor_of [B; C; Ho; Wo] out) (tensor_disco_adjoint Ho Wo (concat rs) y).
Proof.
  intros out I. destruct (shape5 _ _ _ _ _ _ Sy) as (_ & D0 & D1 & D2 & D3 & D4). assert (HWo : 1 <= Wo) by nia. split; [unfold tensor_disco_adjoint; cbn [shp tensor_of]; now rewrite D0, D1|].
  intros i V. cbn [tensor_of shp] in V. destruct (valid4 _ _ _ _ _ V) as (b & c & h & w & -> & Hb & Hc & Hh & Hw).
  unfold tensor_disco_adjoint, tensor_of. cbn [val nth]. rewrite D4. replace (Wo / Wi) with ps by (rewrite HW, Nat.div_mul; lia).
  rewrite I, (bsum_mul_range RT). set (n0 := b * C + c).
  rewrite (bsum_ext (r0 := 0%R) (add := Rplus) (B * C) _ (fun n => if n =? n0 then rsum nr (fun i => gsum (n * nr + i) (ravel [B; C; Ho; Wo] [b; c; h; w])) else 0%R)).
  2:{ intros n Hn. destruct (Nat.eqb_spec n n0) as [|Ne]; [reflexivity|]. transitivity (rsum nr (fun _ => 0%R)); [|apply (bsum_zero RT)]. apply bsum_ext. intros i Hy. unfold gsum. destruct (row_div nr n i Hy) as [G1 G2].
      transitivity (rlsum (fun _ : entry => 0%R) (nth ((n * nr + i) mod nr) rs [])); [|apply (lsum_zero RT)]. apply lsum_ext. intros e He. unfold rowc. unfold inrow.
      destruct (bhd_spec (n * nr + i)) as (l & E1 & Hin & _ & _ & Hc'). rewrite E1 in He. specialize (Hc' e He). assert (Hl : col e / Wo < Ho) by (apply Nat.div_lt_upper_bound; lia).
      destruct (_ && _) eqn:X; [|reflexivity]. exfalso. apply andb_true_iff in X. rewrite Nat.leb_le, Nat.ltb_lt in X. unfold bobase in X. rewrite G1 in X. cbn [ravel prod_list fold_right] in X.
      assert (Hh' : col e / Wo * Wo + Wo <= Ho * Wo) by (replace (col e / Wo * Wo + Wo) with ((col e / Wo + 1) * Wo) by ring; apply Nat.mul_le_mono_r; lia).
      assert (Hv : h * Wo + Wo <= Ho * Wo) by (replace (h * Wo + Wo) with ((h + 1) * Wo) by ring; apply Nat.mul_le_mono_r; lia).
      replace (b * (C * (Ho * (Wo * 1))) + (c * (Ho * (Wo * 1)) + (h * (Wo * 1) + (w * 1 + 0)))) with (n0 * (Ho * Wo) + h * Wo + w) in X by (unfold n0; ring).
      replace (n * Ho * Wo) with (n * (Ho * Wo)) in X by ring. destruct (Nat.lt_trichotomy n n0) as [T|[T|T]]; [|congruence|].
      - assert ((n + 1) * (Ho * Wo) <= n0 * (Ho * Wo)) by (apply Nat.mul_le_mono_r; lia). lia.
      - assert ((n0 + 1) * (Ho * Wo) <= n * (Ho * Wo)) by (apply Nat.mul_le_mono_r; lia). lia. }
  rewrite (bsum_delta_f RT) by (unfold n0; nia). unfold disco_adjoint_sum. rewrite concat_lsum, <- (rsum_nth _ _ rs []). apply bsum_ext. intros i Hy. unfold gsum. destruct (row_div nr n0 i Hy) as [G1 G2]. rewrite G2.
  destruct (bhd_spec (n0 * nr + i)) as (l & E1 & Hin & H1 & H2 & Hc'). rewrite G2 in E1. rewrite E1. apply lsum_ext. intros e He. assert (SK := proj2 RO _ Hin (bhd (n0 * nr + i)) e (or_introl eq_refl) He). unfold key in SK. injection SK as SK1 SK2.
  unfold rowc, inrow, bobase, bibase. rewrite G1. cbn [ravel prod_list fold_right].
  replace (b * (C * (Ho * (Wo * 1))) + (c * (Ho * (Wo * 1)) + (h * (Wo * 1) + (w * 1 + 0)))) with (n0 * Ho * Wo + h * Wo + w) by (unfold n0; ring).
  destruct (Nat.eqb_spec (col e / Wo) h) as [->|Nh].
  - destruct (Nat.leb_spec (n0 * Ho * Wo + h * Wo) (n0 * Ho * Wo + h * Wo + w)); [|lia]. destruct (Nat.ltb_spec (n0 * Ho * Wo + h * Wo + w) (n0 * Ho * Wo + h * Wo + Wo)); [|lia]. cbn [andb].
    replace (n0 * Ho * Wo + h * Wo + w - (n0 * Ho * Wo + h * Wo)) with w by lia. unfold bt, bterm. f_equal. apply bsum_ext. intros q Hq. destruct (_ =? w); [|reflexivity]. unfold n0 at 1. rewrite bflat_at by auto. rewrite SK1, SK2. reflexivity.
  - destruct (_ && _) eqn:X; [|reflexivity]. exfalso. apply andb_true_iff in X. rewrite Nat.leb_le, Nat.ltb_lt in X. destruct (Nat.lt_trichotomy (col e / Wo) h) as [T|[T|T]]; [|congruence|].
    + assert ((col e / Wo + 1) * Wo <= h * Wo) by (apply Nat.mul_le_mono_r; lia). lia.
    + assert ((h + 1) * Wo <= col e / Wo * Wo) by (apply Nat.mul_le_mono_r; lia). lia.
Qed.
Theorem kb_computes : computes kb [B; C; Ho; Wo] (tensor_disco_adjoint Ho Wo (concat rs) y).
Proof.
  intros rg sh. assert (GD : forall g, g < B * C * nr -> g / nr < B * C) by (intros; apply Nat.div_lt_upper_bound; lia).
  assert (Hout : forall g, g < B * C * nr -> bobase g + Ho * Wo <= B * C * Ho * Wo).
  { intros g Hg. unfold bobase. pose proof (GD g Hg). replace (g / nr * Ho * Wo + Ho * Wo) with ((g / nr + 1) * (Ho * Wo)) by ring. replace (B * C * Ho * Wo) with (B * C * (Ho * Wo)) by ring. apply Nat.mul_le_mono_r. lia. }
  assert (KI : forall g, g < B * C * nr -> bibase g + Wi <= B * C * K * Hi * Wi).
  { intros g Hg. destruct (bhd_spec g) as (l & _ & _ & H1 & H2 & _). pose proof (GD g Hg) as H3. unfold bibase.
    assert ((g / nr * K + ker (bhd g)) * Hi + row (bhd g) + 1 <= B * C * K * Hi); [|nia].
    assert (g / nr * K + ker (bhd g) + 1 <= B * C * K) by nia. nia. }
  apply (program_settles kb bprg binv _ rg sh (fun _ => 0%R) (Wz BD) none).
  - exact HBD.
  - intros g t _ _. apply bprg_code.
  - intros g Hg. cbn [kb k_groups] in Hg. destruct (bhd_spec g) as (l & E1 & Hin & _ & _ & Hc). unfold bprg. rewrite E1. eapply bprog_bounds with (Ho := Ho); eauto.
    intros e [<-|He]; apply Hc; auto. now left.
  - eapply disc_zero; reflexivity.
  - intros g Hg. destruct (bhd_spec g) as (l & E1 & Hin & _). unfold bprg. rewrite E1. eapply bprog_safe; eauto.
  - intros g t g' t' Hg Ht Hg' Ht' Ne. cbn [kb k_code k_threads] in *. rewrite !bprg_code.
    destruct (bhd_spec g) as (l & E1 & Hin & _). destruct (bhd_spec g') as (l' & E1' & Hin' & _). apply only_add_compat.
    + unfold bprg. rewrite E1. eapply bprog_adds; eauto.
    + unfold bprg. rewrite E1'. eapply bprog_adds; eauto.
  - intros a. reflexivity.
  - intros g rg' sh' out Hg I. apply binv_step; auto.
  - apply binv_final.
Qed.
End Op.

Lemma pick_eq : forall W, 1 <= W -> W <= 1024 * 32 -> pick_config W = Some (lanes W, least_share W) /\ 1 <= least_share W <= elxth_max /\ W <= lanes W * elxth_max /\ 1 <= lanes W.
Proof.
  intros W H1 H2. unfold pick_config, lanes, least_share. change elxth_max with 32. change (32 / 2 + 1) with 17.
  destruct (Nat.leb_spec W (64 * 32)); [split; [reflexivity|]; lia|].
  destruct (Nat.leb_spec W (128 * 32)); [split; [reflexivity|]; lia|].
  destruct (Nat.leb_spec W (256 * 32)); [split; [reflexivity|]; lia|].
  destruct (Nat.leb_spec W (512 * 32)); [split; [reflexivity|]; lia|].
  destruct (Nat.leb_spec W (1024 * 32)); [split; [reflexivity|]; lia|lia].
Qed.
Lemma share_max : forall n e W E, 1 <= n -> W <= n * E -> e <= E -> E = e \/ n * (E - 1) < W -> n * E = Nat.max (n * e) (round_up n W).
Proof.
  intros n e W E Hn H1 H2 [->|H3].
  - symmetry. apply Nat.max_l. unfold round_up. rewrite Nat.mul_comm. apply Nat.mul_le_mono_l. apply Nat.lt_succ_r. apply Nat.div_lt_upper_bound; nia.
  - rewrite <- (round_up_unique n W E) by auto. symmetry. apply Nat.max_r. now apply Nat.mul_le_mono_l.
Qed.

Theorem cuda_bwd_spec : forall dev junk K Ho Wo es roff es' (y : tensor R) B C Hi Wi k,
  1 <= K -> psi_wf K Hi (Ho * Wo) es -> rows_sorted es -> kernels_separated K es -> es <> [] -> lats_sorted Wo es ->
  preprocess_psi junk K Hi es = Some (roff, es') -> shp y = [B; C; K; Hi; Wi] ->
  disco_cuda_bwd dev K Ho Wo roff es' y = Some k -> computes k [B; C; Ho; Wo] (tensor_disco_adjoint Ho Wo es y).
Proof.
  intros dev junk K Ho Wo es roff es' y B C Hi Wi k HK Wf RS SP NE LS PP Sy L.
  destruct (preprocess_asc _ _ _ _ Wo _ _ _ HK Wf RS SP NE LS PP) as (rs & -> & -> & RO & ND & PM & AS).
  destruct (shape5 _ _ _ _ _ _ Sy) as (N5 & D0 & D1 & D2 & D3 & D4).
  unfold disco_cuda_bwd in L. rewrite N5, D0, D1, D2, D3, D4 in L. cbn [Nat.eqb guard bindo] in L. rewrite starts_length in L. cbn [Nat.sub] in L. rewrite Nat.sub_0_r in L.
  destruct (Nat.leb_spec 1 Wi) as [HWi|]; [|discriminate]. destruct (Nat.eqb_spec (Wo mod Wi) 0) as [HM|]; [|discriminate]. cbn [andb guard bindo] in L.
  assert (HWo : 1 <= Wo). { destruct es as [|e es0]; [congruence|]. destruct (Wf e (or_introl eq_refl)) as (_ & _ & X). destruct Wo; [lia|lia]. }
  pose proof (mod0_mul Wo Wi HWi HM) as EW. set (ps := Wo / Wi) in *. assert (Hps : 1 <= ps) by nia. assert (HWW : Wi <= Wo) by nia.
  destruct (le_lt_dec Wo (1024 * 32)) as [HL|HL]; [|rewrite pick_none in L by auto; discriminate].
  destruct (pick_eq Wo HWo HL) as (Ep & He1 & He3 & He4). rewrite Ep in L. cbn [bindo fst snd] in L.
  destruct (find_ok (Datatypes.S elxth_max) (lanes Wo) (least_share Wo) Wi) as (E & Ef & F1 & F2 & F3); [lia|lia|lia|]. rewrite Ef in L. cbn [bindo] in L.
  destruct (launchable _ _ _ _) eqn:LA; [|discriminate]. cbn [guard bindo] in L. injection L as <-.
  unfold launchable in LA. rewrite !andb_true_iff, !Nat.leb_le in LA. destruct LA as [[[[LA _] _] _] _].
  assert (T : teq (tensor_disco_adjoint Ho Wo (concat rs) y) (tensor_disco_adjoint Ho Wo es y)).
  { split; [reflexivity|]. intros i _. unfold tensor_disco_adjoint. cbn [val]. now apply disco_adjoint_sum_perm. }
  assert (Q := kb_computes K Ho Wo Hi Wi B C (lanes Wo) E ps rs y He4 HWi Hps EW F1 RO (wf_perm _ _ _ _ _ (Permutation_sym PM) Wf) AS Sy LA).
  intros rg sh. destruct (Q rg sh) as (n & Hn). exists n. intros j u Hp. destruct (Hn j u Hp) as [A1 A2]. split; [exact A1|]. intros St. destruct (A2 St) as [A3 A4]. split; [exact A3|]. eapply teq_trans; eauto.
Qed.
Theorem cuda_bwd_launches : forall dev K Ho Wo roff es (y : tensor R) B C Hi Wi, shp y = [B; C; K; Hi; Wi] -> 1 <= Wi -> 1 <= Wo ->
  ((exists k, disco_cuda_bwd dev K Ho Wo roff es y = Some k) <->
   Wo mod Wi = 0 /\ Wo <= 1024 * 32 /\ 1 <= length roff - 1 <= d_gridx dev /\ 1 <= B * C <= d_gridy dev /\
   2 * Nat.max (lanes Wo * least_share Wo) (round_up (lanes Wo) Wi) * (Wo / Wi) <= d_shared dev).
Proof.
  intros dev K Ho Wo roff es y B C Hi Wi Sy HWi HWo. destruct (shape5 _ _ _ _ _ _ Sy) as (N5 & D0 & D1 & D2 & D3 & D4).
  unfold disco_cuda_bwd. rewrite N5, D0, D1, D2, D3, D4. cbn [Nat.eqb guard bindo].
  destruct (Nat.leb_spec 1 Wi); [|lia]. destruct (Nat.eqb_spec (Wo mod Wi) 0) as [HM|HM]; cbn [andb guard bindo]; [|split; [intros [? ?]; discriminate|intros [? _]; congruence]].
  pose proof (mod0_mul Wo Wi HWi HM) as EW. assert (HWW : Wi <= Wo) by (destruct (Wo / Wi); nia).
  destruct (le_lt_dec Wo (1024 * 32)) as [HL|HL]; [|rewrite pick_none by auto; split; [intros [? ?]; discriminate|lia]].
  destruct (pick_eq Wo HWo HL) as (Ep & He1 & He3 & He4). rewrite Ep. cbn [bindo fst snd].
  destruct (find_ok (Datatypes.S elxth_max) (lanes Wo) (least_share Wo) Wi) as (E & Ef & F1 & F2 & F3); [lia|lia|lia|]. rewrite Ef. cbn [bindo].
  rewrite (share_max (lanes Wo) (least_share Wo) Wi E) by (auto; lia).
  destruct (launchable _ _ _ _) eqn:LA; cbn [guard bindo]; unfold launchable in LA.
  - rewrite !andb_true_iff, !Nat.leb_le in LA. split; [intros _; tauto|eauto].
  - split; [intros [? ?]; discriminate|]. intros (_ & _ & [G1 G2] & [G3 G4] & G5). apply Nat.leb_le in G1, G2, G3, G4, G5. rewrite G1, G2, G3, G4, G5 in LA. discriminate.
Qed.
