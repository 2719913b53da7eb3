(** The default filter basis (three piecewise linear rings) on 4 x W points in and 3 x W
    out: right on one process, merged rows on three polar ranks. *)
From Coq Require Import List Arith ZArith Lia Bool Reals Lra Sorted.
From Verif Require Import TensorModel TensorProofs BigSum ResampleModel ResampleProofs TruncModel QuadModel PrimModel PrimSpec PrimProofs DiscoModel DiscoSpec
  FilterModel FilterSpec FilterProofs FilterPLProofs FilterApiProofs PsiModel PsiSpec PsiGeoProofs PsiProofs PsiPreProofs PsiLayerProofs PsiUseProofs PsiExProofs
  DistDiscoModel DistDiscoSpec DistDiscoProofs DistDiscoProofs6.
Import ListNotations.
Local Open Scope R_scope.

Lemma Rabs_def2_le : forall a b, Rabs a <= b -> - b <= a <= b.
Proof. intros a b H. unfold Rabs in H. destruct (Rcase_abs a); lra. Qed.
Lemma div_mod_pair : forall W i j, (j < W)%nat -> ((i * W + j) / W = i /\ (i * W + j) mod W = j)%nat.
Proof. intros W i j Hj. split; [symmetry; apply Nat.div_unique with j; lia|symmetry; apply Nat.mod_unique with i; lia]. Qed.
(** where the isotropic piecewise linear filter has entries *)
Lemma pl_index : forall gl Hi Wi Ho Wo n fb gi go c tr mode merge es' roff qi qo, (1 <= Wi)%nat -> 0 < c -> pl_basis (KInt n) = Some fb ->
  precompute_psi gl Hi Wi Ho Wo fb gi go c tr mode merge = Some (es', roff) -> precompute_latitudes gl Hi gi = Some qi -> precompute_latitudes gl Ho go = Some qo ->
  forall k t i j, (j < Wi)%nat -> let rc := (1 + 1 / 1000) * c in let d := gcdist (rn qi i, lon Wi j) (rn qo t, 0) in
    (In (k, t, (i * Wi + j)%nat) (map index es') <-> (k < pl_size n 1 /\ t < Ho /\ i < Hi)%nat /\ Rabs (d - pl_ir_iso n rc k) <= pl_dr n rc /\ d <= rc).
Proof.
  intros gl Hi Wi Ho Wo n fb gi go c tr mode merge es' roff qi qo HW Hc EB H Ei Eo k t i j Hj rc d. unfold precompute_psi in H. rewrite Ei, Eo in H. cbn [bindo] in H.
  apply bindo_some in H. destruct H as (rows & Er & H). apply bindo_some in H. destruct H as (u & _ & H). apply bindo_some in H. destruct H as (m & Em & H). apply bindo_some in H. destruct H as (vs & Ev & H). injection H as E1 E2.
  set (quad := fun i => (if tr then rw qo i else rw qi i) / INR Wi / 2) in *.
  assert (IX : map index es' = map index (concat rows)).
  { rewrite <- E1. change (map index (with_values (concat rows) vs) = map index (concat rows)).
    exact (proj2 (normalize_index Hi Wi Ho Wo (fb_size fb) (if tr then Ho else Hi) quad c tr merge (Some m) (/ 10 ^ 9) mode (concat rows) vs Ev)). }
  rewrite IX. clear E1 E2 Ev IX. destruct (rows_flat _ _ _ _ _ _ _ _ Er) as (ER & RS). rewrite ER, <- flat_map_concat_map. clear Er ER rows.
  cbn [pl_basis pl_init bindo] in EB. injection EB as <-.
  assert (RW : forall t, In t (seq 0 Ho) -> forall k i j, (j < Wi)%nat -> (In (k, t, (i * Wi + j)%nat) (map index (rowl (mkFB (pl_size n 1) (Some (pl_mask n 1)) (fun H W r phi rc => Some (pl_support n 1 H W r phi rc))) Hi Wi (rn qi) (rn qo) rc t)) <->
     (k < pl_size n 1 /\ i < Hi)%nat /\ Rabs (gcdist (rn qi i, lon Wi j) (rn qo t, 0) - pl_ir_iso n rc k) <= pl_dr n rc /\ gcdist (rn qi i, lon Wi j) (rn qo t, 0) <= rc)).
  { clear k t i j Hj d. intros t It k i j Hj. unfold rowl, psi_row. cbn [fb_support bindo]. rewrite map_map. unfold pl_support. cbn [Nat.ltb Nat.leb]. unfold pl_iso.
    assert (RD : forall i j, g_theta (rn qi i) (precompute_longitudes Wi j) (rn qo t) = gcdist (rn qi i, lon Wi j) (rn qo t, 0)) by (intros a b; rewrite <- longitudes_lon by auto; apply g_polar).
    split.
    - intros I. apply in_map_iff in I. destruct I as ((((k', i'), j'), v) & E & I). unfold index in E. cbn [ker row col] in E. apply (in_map fst) in I. rewrite fst_with_vals in I. cbn [fst] in I. apply in_argwhere in I. destruct I as ((K1 & K2 & K3) & C).
      assert (k' = k) by congruence. assert (EI : (i' * Wi + j' = i * Wi + j)%nat) by congruence. destruct (div_mod_pair Wi i j Hj) as (A1 & A2). destruct (div_mod_pair Wi i' j' K3) as (B1 & B2). rewrite EI in B1, B2. rewrite A1 in B1. rewrite A2 in B2. clear A1 A2 EI E. subst i' j' k'.
      apply andb_prop in C. destruct C as (C1 & C2). apply Rleb_true in C1. apply Rleb_true in C2. rewrite RD in C1, C2. auto.
    - intros ((Ka & Kb) & C1 & C2). assert (I : In (k, i, j) (map fst (with_vals (argwhere (pl_size n 1) Hi Wi (fun k i j => Rleb (Rabs (g_theta (rn qi i) (precompute_longitudes Wi j) (rn qo t) - pl_ir_iso n rc k)) (pl_dr n rc) && Rleb (g_theta (rn qi i) (precompute_longitudes Wi j) (rn qo t)) rc))
        (fun k i j => 1 - Rabs (g_theta (rn qi i) (precompute_longitudes Wi j) (rn qo t) - pl_ir_iso n rc k) / pl_dr n rc)))).
      { rewrite fst_with_vals. apply in_argwhere. split; [auto|]. rewrite RD. apply andb_true_iff. split; apply Rleb_true; auto. }
      apply in_map_iff in I. destruct I as ((((k', i'), j'), v) & E & I). cbn [fst] in E. apply in_map_iff. exists (((k', i'), j'), v). split; [unfold index; cbn [ker row col]; congruence|exact I]. }
  assert (IXF : forall l, map index (flat_map (rowl (mkFB (pl_size n 1) (Some (pl_mask n 1)) (fun H W r phi rc => Some (pl_support n 1 H W r phi rc))) Hi Wi (rn qi) (rn qo) rc) l) = flat_map (fun t => map index (rowl (mkFB (pl_size n 1) (Some (pl_mask n 1)) (fun H W r phi rc => Some (pl_support n 1 H W r phi rc))) Hi Wi (rn qi) (rn qo) rc t)) l) by (intros; rewrite !flat_map_concat_map, concat_map, map_map; reflexivity).
  fold rc. rewrite IXF. split.
  - intros I. apply in_flat_map in I. destruct I as (t' & It & I).
    assert (t' = t). { apply in_map_iff in I. destruct I as (e & E & I). unfold rowl, psi_row in I. cbn [fb_support bindo] in I. apply in_map_iff in I. destruct I as ((((k', i'), j'), v) & <- & _). unfold index in E. cbn [ker row col] in E. congruence. }
    subst t'. apply (RW t It k i j Hj) in I. apply in_seq in It. destruct I as ((? & ?) & ?). split; [lia|auto].
  - intros ((? & ? & ?) & ?). apply in_flat_map. exists t. assert (It : In t (seq 0 Ho)) by (apply in_seq; lia). split; auto. apply (RW t It k i j Hj). auto.
Qed.
Lemma gcdist_north : forall a b, 0 <= a <= PI -> gcdist (a, b) (0, 0) = a.
Proof. intros a b H. unfold gcdist. rewrite dot_cos, sin_0, cos_0. replace (sin a * 0 * cos (b - 0) + cos a * 1) with (cos a) by ring. apply acos_cos. auto. Qed.
Lemma gcdist_south : forall a b, 0 <= a <= PI -> gcdist (a, b) (PI, 0) = PI - a.
Proof. intros a b H. unfold gcdist. rewrite dot_cos, sin_PI, cos_PI. replace (sin a * 0 * cos (b - 0) + cos a * -1) with (cos (PI - a)) by (rewrite cos_minus, cos_PI, sin_PI; ring). apply acos_cos. lra. Qed.

Theorem default_merged : forall gl Wi Wo fb mode es, pl_basis (KInt 3) = Some fb -> (1 <= Wi)%nat -> conv_psi gl 4 Wi 3 Wo fb GEquiangular GEquiangular None mode = Some es ->
  fb_size fb = 2%nat /\ kernels_separated 2 es /\ slices_filled 4 Wi 3 es /\ ~ kernels_separated 2 (lat_slice 4 Wi 3 1 es).
Proof.
  intros gl Wi Wo fb mode es EB HW H. pose proof PI_RGT_0 as PP. destruct (pl_basis_of (KInt 3) 3 1 fb (or_introl (conj eq_refl eq_refl)) ltac:(lia) EB) as (B & _).
  assert (SZ : fb_size fb = 2%nat) by (cbn in EB; injection EB as <-; reflexivity). split; auto.
  destruct (conv_built _ _ _ _ _ _ _ _ _ _ _ _ B H HW) as (c & qi & qo & es0 & roff & Hc & _ & Ec & _ & HWo & HD & _ & BU). specialize (Ec eq_refl).
  destruct (built_wf _ _ _ _ _ _ _ _ _ _ _ _ _ _ _ _ _ _ BU) as (WF & RS). rewrite SZ in WF.
  assert (Ei := bu_i _ _ _ _ _ _ _ _ _ _ _ _ _ _ _ _ _ _ BU). assert (Eo := bu_o _ _ _ _ _ _ _ _ _ _ _ _ _ _ _ _ _ _ BU).
  destruct (eq_lats gl 4 ltac:(lia)) as (q & E & Li). rewrite Ei in E. injection E as <-. destruct (eq_lats gl 3 ltac:(lia)) as (q & E & Lo). rewrite Eo in E. injection E as <-.
  assert (Ec' : c = PI / 2) by (rewrite Ec; cbn [INR]; field). clear Ec.
  assert (PS : exists roff', precompute_psi gl 4 Wi 3 Wo fb GEquiangular GEquiangular c false mode true = Some (es, roff')).
  { unfold conv_psi in H. apply bindo_some in H. destruct H as (u & _ & H). apply bindo_some in H. destruct H as (c' & Hc' & H). apply bindo_some in H. destruct H as (u' & _ & H). apply bindo_some in H. destruct H as ((es1, roff1) & HP & H). injection H as <-. cbn [fst].
    cbn in Hc'. injection Hc' as Hc'. exists roff1. replace c with c'; auto. rewrite Ec'. rewrite <- Hc'. cbn [INR]. field. }
  destruct PS as (roff' & PS). pose proof (pl_index _ _ _ _ _ _ _ _ _ _ _ _ _ _ _ _ _ HW Hc EB PS Ei Eo) as IX. cbv zeta in IX. change (pl_size 3 1) with 2%nat in IX.
  set (rc := (1 + 1 / 1000) * c) in *. assert (Erc : rc = 1001 / 2000 * PI) by (unfold rc; rewrite Ec'; field).
  assert (Edr : pl_dr 3 rc = 1001 / 4000 * PI) by (unfold pl_dr; rewrite Erc; cbn [INR]; field). assert (Ir0 : pl_ir_iso 3 rc 0 = 0) by (unfold pl_ir_iso; cbn; ring). assert (Ir1 : pl_ir_iso 3 rc 1 = 1001 / 4000 * PI) by (unfold pl_ir_iso; cbn [Nat.modulo Nat.divmod fst snd Nat.sub Nat.eqb INR]; rewrite Edr; ring).
  assert (A2 : rn qi 2 = 2 / 3 * PI) by (rewrite Li by lia; cbn [Nat.sub INR]; field). assert (A0 : rn qi 0 = 0) by (rewrite Li by lia; cbn [Nat.sub INR]; field). assert (A3 : rn qi 3 = PI) by (rewrite Li by lia; cbn [Nat.sub INR]; field).
  assert (O0 : rn qo 0 = 0) by (rewrite Lo by lia; cbn [Nat.sub INR]; field). assert (O1 : rn qo 1 = PI / 2) by (rewrite Lo by lia; cbn [Nat.sub INR]; field). assert (O2 : rn qo 2 = PI) by (rewrite Lo by lia; cbn [Nat.sub INR]; field).
  assert (L0 : lon Wi 0 = 0) by (unfold lon, Rdiv; cbn [INR]; ring).
  assert (MK : forall k t i d, (k < 2)%nat -> (t < 3)%nat -> (i < 4)%nat -> gcdist (rn qi i, 0) (rn qo t, 0) = d -> 0 <= d -> d <= 1001 / 4000 * PI -> exists e, In e es /\ ker e = k /\ row e = t /\ (col e / Wi = i)%nat).
  { intros k t i d Hk Ht Hi Ed D1 D2. assert (I : In (k, t, (i * Wi + 0)%nat) (map index es)).
    { apply (IX k t i 0%nat); [lia|]. split; [auto|]. rewrite L0, Ed, Edr. split; [|rewrite Erc; lra]. destruct k as [|[|k]]; [rewrite Ir0|rewrite Ir1|lia]; apply Rabs_le; lra. }
    apply in_map_iff in I. destruct I as (e & E & I). unfold index in E. exists e. split; [auto|]. split; [congruence|]. split; [congruence|]. replace (col e) with (i * Wi + 0)%nat by congruence. apply div_mod_pair. lia. }
  assert (D00 : gcdist (rn qi 0, 0) (rn qo 0, 0) = 0) by (rewrite A0, O0; apply gcdist_self). assert (D32 : gcdist (rn qi 3, 0) (rn qo 2, 0) = 0) by (rewrite A3, O2; apply gcdist_self).
  assert (D21 : gcdist (rn qi 2, 0) (rn qo 1, 0) = PI / 6) by (rewrite A2, O1, gcdist_meridian by lra; field).
  split; [|split].
  - apply separated_two with 0%nat 2%nat; auto.
    + intros k Hk. destruct (MK k 0%nat 0%nat 0) as (e & I & K1 & R1 & _); eauto; try lia; lra.
    + intros k Hk. destruct (MK k 2%nat 3%nat 0) as (e & I & K1 & R1 & _); eauto; try lia; lra.
  - assert (GEN : forall p t i d, (t < 3)%nat -> (i < 4)%nat -> (chunk_lo 4 3 p <= i < chunk_lo 4 3 (S p))%nat -> gcdist (rn qi i, 0) (rn qo t, 0) = d -> 0 <= d -> d <= 1001 / 4000 * PI -> (2 <= length (lat_slice 4 Wi 3 p es))%nat).
    { intros p t i d Ht Hi Hp Ed D1 D2. destruct (MK 0%nat t i d) as (e & I & K1 & R1 & C1); auto. destruct (MK 1%nat t i d) as (e' & I' & K1' & R1' & C1'); auto.
      apply (two_in _ _ e e'); [apply in_slice; rewrite C1; auto|apply in_slice; rewrite C1'; auto|]. intros ->. congruence. }
    intros [|[|[|p]]] Hp; [apply (GEN 0%nat 0%nat 0%nat 0)|apply (GEN 1%nat 1%nat 2%nat (PI / 6))|apply (GEN 2%nat 2%nat 3%nat 0)|lia]; auto; try lia; try lra; cbn; lia.
  - intros S. set (l := lat_slice 4 Wi 3 1 es) in *.
    assert (LI : forall e, In e l -> In e es /\ (col e / Wi = 2)%nat). { intros e I. apply in_slice in I. destruct I as (I & C). split; auto. change (chunk_lo 4 3 1) with 2%nat in C. change (chunk_lo 4 3 2) with 3%nat in C. lia. }
    assert (DD : forall e, In e l -> Rabs (gcdist (rn qi 2, lon Wi (col e mod Wi)) (rn qo (row e), 0) - pl_ir_iso 3 rc (ker e)) <= pl_dr 3 rc /\ (row e < 3)%nat).
    { intros e I. destruct (LI e I) as (J & C). pose proof (Nat.mod_upper_bound (col e) Wi ltac:(lia)) as Hm. assert (X : In (ker e, row e, (2 * Wi + col e mod Wi)%nat) (map index es)).
      { replace (2 * Wi + col e mod Wi)%nat with (col e) by (rewrite (Nat.div_mod_eq (col e) Wi) at 1; rewrite C; ring). apply in_map_iff. exists e. auto. }
      apply (IX (ker e) (row e) 2%nat (col e mod Wi)%nat Hm) in X. destruct X as ((? & ? & ?) & ? & ?). auto. }
    assert (R0 : forall e, In e l -> ker e = 0%nat -> row e = 1%nat).
    { intros e I K0. destruct (DD e I) as (D & Hr). rewrite K0, Ir0, Edr, A2 in D. apply Rabs_def2_le in D. destruct (row e) as [|[|[|r]]] eqn:Rr; auto; [| |lia].
      - rewrite O0, gcdist_north in D by lra. lra.
      - rewrite O2, gcdist_south in D by lra. lra. }
    assert (R1 : forall e, In e l -> ker e = 1%nat -> (1 <= row e)%nat).
    { intros e I K0. destruct (DD e I) as (D & Hr). rewrite K0, Ir1, Edr, A2 in D. apply Rabs_def2_le in D. destruct (row e) as [|r] eqn:Rr; [|lia]. rewrite O0, gcdist_north in D by lra. lra. }
    destruct (MK 0%nat 1%nat 2%nat (PI / 6)) as (e0 & I0 & K0 & T0 & C0); auto; try lra. destruct (MK 1%nat 1%nat 2%nat (PI / 6)) as (e1 & I1 & K1 & T1 & C1); auto; try lra.
    assert (J0 : In e0 (filter (fun e => ker e =? 0)%nat l)) by (apply filter_In; rewrite K0; split; auto; apply in_slice; rewrite C0; split; auto; cbn; lia).
    assert (J1 : In e1 (filter (fun e => ker e =? 1)%nat l)) by (apply filter_In; rewrite K1; split; auto; apply in_slice; rewrite C1; split; auto; cbn; lia).
    destruct (filter (fun e => ker e =? 0)%nat l) as [|x0 l0] eqn:F0; [destruct J0|]. destruct (@exists_last _ (x0 :: l0) ltac:(discriminate)) as (a & e & Ea).
    destruct (filter (fun e => ker e =? 1)%nat l) as [|e' b] eqn:F1; [destruct J1|].
    apply (S 0%nat 1%nat e e' a b); [lia|intros; lia|rewrite F0; exact Ea|exact F1|].
    assert (Ie : In e l /\ ker e = 0%nat). { assert (X : In e (filter (fun e => ker e =? 0)%nat l)) by (rewrite F0, Ea; apply in_or_app; right; left; auto). apply filter_In in X. destruct X as (X & Y). apply Nat.eqb_eq in Y. auto. }
    assert (Ie' : In e' l /\ ker e' = 1%nat). { assert (X : In e' (filter (fun e => ker e =? 1)%nat l)) by (rewrite F1; left; auto). apply filter_In in X. destruct X as (X & Y). apply Nat.eqb_eq in Y. auto. }
    rewrite (R0 e) by tauto. assert (Q : (row e' <= 1)%nat).
    { destruct J1 as [<-|J1]; [lia|]. pose proof (slice_sorted 4 Wi 3 1 es RS 1%nat) as SS. rewrite filter_map_local, map_map in SS. fold l in SS. rewrite F1 in SS. cbn [map] in SS.
      apply Sorted_StronglySorted in SS; [|intros p q r; apply Nat.le_trans]. inversion SS; subst. rewrite Forall_forall in H3. specialize (H3 (row e1)). cbn [row local_entry] in H3. rewrite T1 in H3. apply H3. rewrite <- T1. apply (in_map (fun x => row (local_entry (chunk_lo 4 3 1) Wi x)) b e1 J1). }
    pose proof (R1 e' (proj1 Ie') (proj2 Ie')). lia.
Qed.
