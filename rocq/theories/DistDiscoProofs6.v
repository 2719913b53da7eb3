(** The library's filters on distributed grids. *)
From Coq Require Import List Arith ZArith Lia Bool Reals Lra Sorted.
From Verif Require Import TensorModel TensorProofs BigSum ResampleModel ResampleProofs TruncModel QuadModel PrimModel PrimSpec PrimProofs DiscoModel DiscoSpec
  FilterModel FilterSpec FilterProofs FilterPLProofs PsiModel PsiSpec PsiGeoProofs PsiProofs PsiPreProofs PsiLayerProofs PsiUseProofs PsiExProofs
  DistDiscoModel DistDiscoSpec DistDiscoProofs.
Import ListNotations.
Local Open Scope R_scope.

(** two rows in which every kernel occurs separate the kernels *)
Lemma separated_two : forall K es r1 r2, rows_sorted es -> (r1 < r2)%nat ->
  (forall k, (k < K)%nat -> exists e, In e es /\ ker e = k /\ row e = r1) -> (forall k, (k < K)%nat -> exists e, In e es /\ ker e = k /\ row e = r2) -> kernels_separated K es.
Proof.
  intros K es r1 r2 S H2 F0 F1 k k' e e' a b Hk _ E E'.
  assert (R1 : (r2 <= row e)%nat).
  { destruct (F1 k) as (x & I & Kx & Rx); [lia|]. assert (J : In x (a ++ [e])) by (rewrite <- E; apply filter_In; split; auto; apply Nat.eqb_eq; auto).
    specialize (S k). rewrite E, map_app in S. cbn [map] in S. apply in_app_or in J. destruct J as [J|[->|[]]]; [|lia]. rewrite <- Rx.
    assert (SS : StronglySorted le (map row a ++ [row e])) by (apply Sorted_StronglySorted; auto; intros p q r; apply Nat.le_trans).
    clear -SS J. induction a as [|y a IH]; [destruct J|]. cbn [map app] in SS. inversion SS; subst. destruct J as [->|J]; [|auto]. rewrite Forall_forall in H2. apply H2. apply in_or_app. right; left; auto. }
  assert (R0 : (row e' <= r1)%nat).
  { destruct (F0 k') as (x & I & Kx & Rx); [lia|]. assert (J : In x (e' :: b)) by (rewrite <- E'; apply filter_In; split; auto; apply Nat.eqb_eq; auto). destruct J as [->|J]; [lia|].
    specialize (S k'). rewrite E' in S. cbn [map] in S. apply Sorted_StronglySorted in S; [|intros p q r; apply Nat.le_trans]. inversion S; subst. rewrite Forall_forall in H3. specialize (H3 (row x) (in_map row _ _ J)). lia. }
  lia.
Qed.
Lemma two_in : forall A (l : list A) a b, In a l -> In b l -> a <> b -> (2 <= length l)%nat.
Proof. intros A [|x [|y l]] a b Ha Hb N; cbn in *; try lia. destruct Ha as [<-|[]], Hb as [<-|[]]. elim N; auto. Qed.

(** an input latitude within reach of two output latitudes in every slice *)
Definition two_reached (Hi : nat) (tin tout : nat -> R) (Ho : nat) (rc : R) : Prop :=
  forall i, (i < Hi)%nat -> exists t1 t2, (t1 < t2 < Ho)%nat /\ gcdist (tin i, 0) (tout t1, 0) <= rc /\ gcdist (tin i, 0) (tout t2, 0) <= rc.
Theorem built_slices : forall gl Hi Wi Ho Wo fb f gi go c tr mode merge es' roff qi qo es P, built gl Hi Wi Ho Wo fb f gi go c tr mode merge es' roff qi qo es -> basis_full fb -> (1 <= fb_size fb)%nat -> (1 <= Wi)%nat ->
  (1 <= P <= Hi)%nat -> two_reached Hi (rn qi) (rn qo) Ho ((1 + 1 / 1000) * c) -> slices_filled Hi Wi P es' /\ slices_separated (fb_size fb) Hi Wi P es'.
Proof.
  intros gl Hi Wi Ho Wo fb f gi go c tr mode merge es' roff qi qo es P BU F HK HW HP TR. destruct (built_wf _ _ _ _ _ _ _ _ _ _ _ _ _ _ _ _ _ _ BU) as (WF & RS). destruct BU as [_ _ _ C _ IX _ _].
  assert (EX : forall p, (p < P)%nat -> exists t1 t2, (t1 < t2)%nat /\ forall k, (k < fb_size fb)%nat -> (exists e, In e (lat_slice Hi Wi P p es') /\ ker e = k /\ row e = t1) /\ (exists e, In e (lat_slice Hi Wi P p es') /\ ker e = k /\ row e = t2)).
  { intros p Hp. pose proof (chunk_len_pos Hi P p ltac:(lia) ltac:(lia) Hp) as LP. pose proof (chunk_bound Hi P p ltac:(lia) Hp) as LB. set (i := chunk_lo Hi P p) in *. assert (Hi' : (i < Hi)%nat) by lia.
    destruct (TR i Hi') as (t1 & t2 & T & D1 & D2). exists t1, t2. split; [lia|]. intros k Hk.
    assert (L0 : lon Wi 0 = 0) by (unfold lon, Rdiv; cbn [INR]; ring).
    assert (X : forall t, (t < Ho)%nat -> gcdist (rn qi i, 0) (rn qo t, 0) <= (1 + 1 / 1000) * c -> exists e, In e (lat_slice Hi Wi P p es') /\ ker e = k /\ row e = t).
    { intros t Ht D. assert (I : In (k, t, (i * Wi + 0)%nat) (map index es')) by (rewrite IX; apply (C F k t i 0%nat); auto; rewrite L0; auto).
      apply in_map_iff in I. destruct I as (e & E & I). unfold index in E. exists e. split; [|split; congruence]. apply in_slice. split; auto. replace (col e) with (i * Wi + 0)%nat by congruence. rewrite Nat.add_0_r, Nat.div_mul by lia.
      unfold chunk_len in LP. fold i in LP. unfold i in *. lia. }
    split; apply X; auto; lia. }
  split.
  - intros p Hp. destruct (EX p Hp) as (t1 & t2 & T & X). destruct (X 0%nat ltac:(lia)) as ((e1 & I1 & _ & R1) & (e2 & I2 & _ & R2)). apply (two_in _ _ e1 e2); auto. intros ->. lia.
  - intros p Hp. destruct (EX p Hp) as (t1 & t2 & T & X). apply separated_two with t1 t2; auto; [| |]; try (intros k Hk; apply X; auto).
    intros k. pose proof (slice_sorted Hi Wi P p es' RS k) as S. rewrite filter_map_local, map_map in S. exact S.
Qed.

Lemma gcdist_meridian : forall a b, 0 <= a - b <= PI -> gcdist (a, 0) (b, 0) = a - b.
Proof. intros a b H. unfold gcdist. rewrite dot_cos. replace (0 - 0) with 0 by ring. rewrite cos_0, Rmult_1_r. replace (sin a * sin b + cos a * cos b) with (cos (a - b)) by (rewrite cos_minus; ring). apply acos_cos. auto. Qed.
(** equiangular grids with the default cutoff: each input latitude lies between two
    neighbouring output latitudes *)
Lemma equi_two : forall gl Hi Ho qi qo, (2 <= Hi)%nat -> (2 <= Ho)%nat -> precompute_latitudes gl Hi GEquiangular = Some qi -> precompute_latitudes gl Ho GEquiangular = Some qo ->
  two_reached Hi (rn qi) (rn qo) Ho ((1 + 1 / 1000) * (PI / (INR Ho - 1))) /\ rn qi 0 = 0 /\ rn qo 0 = 0 /\ rn qi (Hi - 1) = PI /\ rn qo (Ho - 1) = PI.
Proof.
  intros gl Hi Ho qi qo HI HO Ei Eo. destruct (eq_lats gl Hi HI) as (q & E & Li). rewrite Ei in E. injection E as <-. destruct (eq_lats gl Ho HO) as (q & E & Lo). rewrite Eo in E. injection E as <-.
  pose proof PI_RGT_0 as PP. set (d := (Hi - 1)%nat). set (n := (Ho - 1)%nat). assert (Dp : 0 < INR d) by (apply lt_0_INR; unfold d; lia). assert (Np : 0 < INR n) by (apply lt_0_INR; unfold n; lia).
  assert (EN : INR Ho - 1 = INR n) by (unfold n; rewrite minus_INR by lia; reflexivity).
  split.
  - intros i Hi'. assert (T : exists t, (t < n)%nat /\ (t * d <= i * n <= (t + 1) * d)%nat).
    { destruct (Nat.lt_ge_cases i d) as [L|L].
      - exists (i * n / d)%nat. pose proof (Nat.div_mod_eq (i * n) d). pose proof (Nat.mod_upper_bound (i * n) d ltac:(lia)). split; [apply Nat.div_lt_upper_bound; nia|]. nia.
      - assert (i = d) by (unfold d in *; lia). subst i. exists (n - 1)%nat. unfold n in *. split; [lia|]. nia. }
    destruct T as (t & Ht & L1 & L2). exists t, (t + 1)%nat. split; [unfold n in Ht; lia|]. rewrite Li by auto. rewrite !Lo by (unfold n in *; lia). fold d n. rewrite EN.
    apply le_INR in L1. apply le_INR in L2. rewrite !mult_INR in L1, L2. rewrite plus_INR in *. change (INR 1) with 1 in *.
    assert (G : forall u v, u - v = PI * ((u - v) / PI)) by (intros; field; lra).
    set (x := INR i / INR d). set (y := INR t / INR n). replace (PI * INR i / INR d) with (PI * x) by (unfold x; field; lra). replace (PI * INR t / INR n) with (PI * y) by (unfold y; field; lra).
    replace (PI * (INR t + 1) / INR n) with (PI * (y + / INR n)) by (unfold y; field; lra). replace (PI / INR n) with (PI * / INR n) by reflexivity.
    assert (XY : y <= x). { unfold x, y. apply Rmult_le_reg_r with (INR d * INR n); [apply Rmult_lt_0_compat; auto|]. replace (INR t / INR n * (INR d * INR n)) with (INR t * INR d) by (field; lra). replace (INR i / INR d * (INR d * INR n)) with (INR i * INR n) by (field; lra). lra. }
    assert (XZ : x <= y + / INR n). { unfold x, y. apply Rmult_le_reg_r with (INR d * INR n); [apply Rmult_lt_0_compat; auto|]. replace ((INR t / INR n + / INR n) * (INR d * INR n)) with ((INR t + 1) * INR d) by (field; lra). replace (INR i / INR d * (INR d * INR n)) with (INR i * INR n) by (field; lra). lra. }
    assert (N1 : / INR n <= 1). { rewrite <- Rinv_1. apply Rinv_le_contravar; [lra|]. change 1 with (INR 1). apply le_INR. unfold n. lia. }
    assert (N0 : 0 < / INR n) by (apply Rinv_0_lt_compat; auto).
    assert (PN : 0 < PI * / INR n) by (apply Rmult_lt_0_compat; auto).
    split.
    + rewrite gcdist_meridian; [nra|]. split; nra.
    + rewrite gcdist_sym. rewrite gcdist_meridian; [nra|]. split; nra.
  - rewrite !Li, !Lo by lia. cbn [INR]. fold d n. repeat split; field; lra.
Qed.
(** every basis of common support, on equiangular grids with the default cutoff, can be
    distributed over any number of ranks *)
Theorem full_basis_splits : forall gl Hi Wi Ho Wo fb f mode es G Og Cg weight bias P, basis_of fb f -> basis_full fb -> (1 <= fb_size fb)%nat -> (2 <= Hi)%nat -> (2 <= Ho)%nat -> (1 <= Wi)%nat ->
  conv_psi gl Hi Wi Ho Wo fb GEquiangular GEquiangular None mode = Some es -> (1 <= G)%nat -> shp weight = [G * Og; Cg; fb_size fb]%nat -> bias_ok bias (G * Og) -> (1 <= P <= Hi)%nat ->
  layer_ok (fb_size fb) Hi Wi Ho Wo G Og Cg weight bias es /\ slices_filled Hi Wi P es /\ slices_separated (fb_size fb) Hi Wi P es.
Proof.
  intros gl Hi Wi Ho Wo fb f mode es G Og Cg weight bias P B F HK HI HO HW H HG SW SB HP. pose proof PI_RGT_0 as PP.
  destruct (conv_built _ _ _ _ _ _ _ _ _ _ _ _ B H HW) as (c & qi & qo & es0 & roff & Hc & _ & Ec & _ & HWo & HD & _ & BU). specialize (Ec eq_refl). subst c.
  destruct (equi_two gl Hi Ho qi qo HI HO (bu_i _ _ _ _ _ _ _ _ _ _ _ _ _ _ _ _ _ _ BU) (bu_o _ _ _ _ _ _ _ _ _ _ _ _ _ _ _ _ _ _ BU)) as (TR & I0 & O0 & I1 & O1).
  assert (L0 : lon Wi 0 = 0) by (unfold lon, Rdiv; cbn [INR]; ring).
  split.
  - eapply (built_layer_ok _ _ _ _ _ _ _ _ _ _ _ _ _ _ _ _ _ _ G Og Cg weight bias BU F); auto.
    + exists 0%nat, 0%nat. split; [lia|]. split; [lia|]. rewrite L0, I0, O0, gcdist_self. lra.
    + exists (Hi - 1)%nat, 0%nat. split; [lia|]. split; [lia|]. rewrite L0, I1, O1, gcdist_self. lra.
  - eapply built_slices; eauto.
Qed.
Theorem full_basis_tsplits : forall gl Hi Wi Ho Wo fb f mode es G Og Cg weight bias P, basis_of fb f -> basis_full fb -> (1 <= fb_size fb)%nat -> (2 <= Hi)%nat -> (2 <= Ho)%nat -> (1 <= Wo)%nat ->
  tconv_psi gl Hi Wi Ho Wo fb GEquiangular GEquiangular None mode = Some es -> (1 <= G)%nat -> shp weight = [G * Og; Cg; fb_size fb]%nat -> bias_ok bias (G * Og) -> (1 <= P <= Ho)%nat ->
  layer_ok (fb_size fb) Ho Wo Hi Wi G Og Cg weight bias es /\ slices_filled Ho Wo P es /\ slices_separated (fb_size fb) Ho Wo P es.
Proof.
  intros gl Hi Wi Ho Wo fb f mode es G Og Cg weight bias P B F HK HI HO HW H HG SW SB HP. pose proof PI_RGT_0 as PP.
  destruct (tconv_built _ _ _ _ _ _ _ _ _ _ _ _ B H HW) as (c & qi & qo & es0 & roff & Hc & _ & Ec & HWi & HWo & HD & BU). specialize (Ec eq_refl). subst c.
  destruct (equi_two gl Ho Hi qo qi HO HI (bu_i _ _ _ _ _ _ _ _ _ _ _ _ _ _ _ _ _ _ BU) (bu_o _ _ _ _ _ _ _ _ _ _ _ _ _ _ _ _ _ _ BU)) as (TR & I0 & O0 & I1 & O1).
  assert (L0 : lon Wo 0 = 0) by (unfold lon, Rdiv; cbn [INR]; ring).
  split.
  - eapply (built_layer_ok _ _ _ _ _ _ _ _ _ _ _ _ _ _ _ _ _ _ G Og Cg weight bias BU F); auto.
    + exists 0%nat, 0%nat. split; [lia|]. split; [lia|]. rewrite L0, I0, O0, gcdist_self. lra.
    + exists (Ho - 1)%nat, 0%nat. split; [lia|]. split; [lia|]. rewrite L0, I1, O1, gcdist_self. lra.
  - eapply built_slices; eauto.
Qed.
