(** Consequences for the DISCO layers and for neighbourhood attention. *)
From Coq Require Import List Arith ZArith Lia Bool Reals Lra Sorted.
From Verif Require Import TensorModel TensorProofs BigSum ResampleModel ResampleProofs TruncModel QuadModel QuadProofs DiscoModel DiscoSpec FilterModel FilterSpec FilterProofs FilterPLProofs FilterBasesProofs FilterBases2Proofs FilterApiProofs PsiModel PsiSpec PsiGeoProofs PsiProofs PsiPreProofs PsiLayerProofs AttnSpec AttnOpValProofs.
Import ListNotations.
Local Open Scope R_scope.

(** ** The library's bases *)
Definition fbs_fun (jn : nat -> R -> R) (es : list bessel) (rc : R) (k : nat) : R -> R -> R := fb_fun jn rc (nth k es (mkB 0 0 0 true)).

Lemma pl_basis_of : forall ks nr nphi fb, pl_shape ks nr nphi -> (1 <= nphi)%nat -> pl_basis ks = Some fb -> basis_of fb (pl_fun nr nphi) /\ mask_ok fb.
Proof.
  intros ks nr nphi fb S N E. destruct (pl_api (fun _ _ => 0) (fun _ _ => []) ks nr nphi S N) as (fb' & E' & A). cbn [get_filter_basis] in E'. rewrite E in E'. injection E' as <-. split.
  - intros H W r phi rc s Hrc P Hs. destruct (A rc Hrc) as (_ & _ & B & _). destruct (B H W r phi P) as (s' & Hs' & R & _). rewrite Hs in Hs'. injection Hs' as <-. exact R.
  - intros m M. destruct (A 1 ltac:(lra)) as (_ & _ & _ & m' & M' & L & _). congruence.
Qed.
Lemma hm_basis_of : forall ks k0 k1 norm fb, ks = KList [k0; k1] \/ (ks = KInt k0 /\ k1 = k0) -> hm_basis ks norm = Some fb ->
  exists nm, (forall k, (k < fb_size fb)%nat -> 0 < nm k) /\ basis_of fb (hm_fun k0 k1 nm) /\ basis_full fb /\ mask_ok fb.
Proof.
  intros ks k0 k1 norm fb S E. destruct (hm_api (fun _ _ => 0) (fun _ _ => []) ks k0 k1 (negb norm) S) as (fb' & E' & _ & _ & nm & P & A & _ & M). replace (get_filter_basis (fun _ _ => 0) (fun _ _ => []) ks (if negb norm then BMorlet else BHarmonic)) with (hm_basis ks norm) in E' by (destruct norm; reflexivity).
  rewrite E in E'. injection E' as <-. exists nm. split; [auto|]. split; [|split].
  - intros H W r phi rc s Hrc _ Hs. destruct (A rc H W r phi Hrc) as (s' & Hs' & R). rewrite Hs in Hs'. injection Hs' as <-. exact R.
  - unfold hm_basis in E. apply bindo_some in E. destruct E as ((a, b) & _ & E). injection E as <-. intros H W r phi rc s Hs k i j Hk Hh Hw D. cbn [fb_support fb_size] in *. injection Hs as <-. unfold hm_support. rewrite fst_with_vals. apply in_argwhere. split; auto. now apply Rleb_true.
  - intros m Hm. apply (M m Hm).
Qed.
Lemma zk_basis_of : forall ks N fb, ks = KInt N \/ (exists l, ks = KList (N :: l)) -> INR N <= 10 ^ 24 -> zk_basis ks = Some fb -> basis_of fb (zk_fun N) /\ basis_full fb /\ mask_ok fb /\ fb_size fb = length (zernike_orders N).
Proof.
  intros ks N fb S HN E. destruct (zk_api (fun _ _ => 0) (fun _ _ => []) ks N S) as (fb' & E' & SZ & _ & M & A & _). cbn [get_filter_basis] in E'. rewrite E in E'. injection E' as <-. split; [|split; [|split]]; auto.
  - intros H W r phi rc s Hrc _ Hs. eapply A; eauto.
  - unfold zk_basis in E. apply bindo_some in E. destruct E as (N' & _ & E). injection E as <-. intros H W r phi rc s Hs k i j Hk Hh Hw D. cbn [fb_support fb_size] in *. unfold zk_support in Hs. apply bindo_some in Hs. destruct Hs as (u & _ & Hs). injection Hs as <-. rewrite fst_with_vals. apply in_argwhere. split; auto. now apply Rleb_true.
  - intros m Hm. rewrite M in Hm. injection Hm as <-. rewrite map_length. auto.
Qed.
Lemma fbs_basis_of : forall jn jz ks nmax mmax fb, (1 <= nmax)%nat -> (ks = KInt nmax /\ mmax = nmax) \/ (ks = KList [nmax] /\ mmax = nmax) \/ ks = KList [nmax; mmax] -> bessel_zeros jn jz nmax -> fbs_basis jn jz ks = Some fb ->
  exists es, fb_size fb = length es /\ basis_of fb (fbs_fun jn es) /\ basis_full fb /\ mask_ok fb.
Proof.
  intros jn jz ks nmax mmax fb N S Z E. destruct (fbs_api jn jz ks nmax mmax N S Z) as (fb' & es & E' & SZ & _ & _ & _ & M & A & _). cbn [get_filter_basis] in E'. rewrite E in E'. injection E' as <-. exists es. split; [auto|]. split; [|split].
  - intros H W r phi rc s Hrc _ Hs. destruct (A rc H W r phi) as (s' & Hs' & R). rewrite Hs in Hs'. injection Hs' as <-. exact R.
  - unfold fbs_basis in E. apply bindo_some in E. destruct E as ((a, b) & _ & E). apply bindo_some in E. destruct E as (es' & _ & E). injection E as <-. intros H W r phi rc s Hs k i j Hk Hh Hw D. cbn [fb_support fb_size] in *. injection Hs as <-. unfold fbs_support. rewrite fst_with_vals. apply in_argwhere. split; auto. now apply Rleb_true.
  - intros m Hm. rewrite M in Hm. injection Hm as <-. rewrite map_length. auto.
Qed.

(** ** DISCO layers *)
Lemma index_in : forall es es' e', map index es' = map index es -> In e' es' -> exists e, In e es /\ index e = index e'.
Proof. intros es es' e' E I. assert (J : In (index e') (map index es)) by (rewrite <- E; now apply in_map). apply in_map_iff in J. destruct J as (e & X & J). eauto. Qed.
Lemma built_wf : forall gl Hi Wi Ho Wo fb f gi go c tr mode merge es' roff qi qo es, built gl Hi Wi Ho Wo fb f gi go c tr mode merge es' roff qi qo es -> psi_wf (fb_size fb) Ho (Hi * Wi) es' /\ rows_sorted es'.
Proof.
  intros gl Hi Wi Ho Wo fb f gi go c tr mode merge es' roff qi qo es [Hqi Hqo S _ RS IX _ _]. split; [|eapply rows_sorted_index; eauto].
  intros e' I. destruct (index_in _ _ _ IX I) as (e & J & E). unfold index in E. destruct S as (_ & A & _). destruct (A e J) as (a & b & d & _). replace (ker e') with (ker e) by congruence. replace (row e') with (row e) by congruence. replace (col e') with (col e) by congruence. auto.
Qed.
Lemma built_separated : forall gl Hi Wi Ho Wo fb f gi go c tr mode merge es' roff qi qo es, built gl Hi Wi Ho Wo fb f gi go c tr mode merge es' roff qi qo es -> basis_full fb -> (2 <= Ho)%nat ->
  reached Hi Wi (rn qi) (rn qo) ((1 + 1 / 1000) * c) 0 -> reached Hi Wi (rn qi) (rn qo) ((1 + 1 / 1000) * c) (Ho - 1) -> kernels_separated (fb_size fb) es' /\ ((1 <= fb_size fb)%nat -> es' <> []).
Proof.
  intros gl Hi Wi Ho Wo fb f gi go c tr mode merge es' roff qi qo es BU F H2 R0 R1. destruct (built_wf _ _ _ _ _ _ _ _ _ _ _ _ _ _ _ _ _ _ BU) as (WF & RS). destruct BU as [Hqi Hqo S C _ IX _ _].
  assert (EX : forall t k, (t < Ho)%nat -> reached Hi Wi (rn qi) (rn qo) ((1 + 1 / 1000) * c) t -> (k < fb_size fb)%nat -> exists e, In e es' /\ ker e = k /\ row e = t).
  { intros t k T (i & j & Hh & Hw & D) Hk. specialize (C F k t i j Hk T Hh Hw D). rewrite <- IX in C. apply in_map_iff in C. destruct C as (e & X & I). exists e. unfold index in X. split; [auto|]. split; congruence. }
  split.
  - apply separated_full with Ho; auto. { intros e I. apply (WF e I). } { intros k Hk. apply EX; auto. lia. } { intros k Hk. apply EX; auto. lia. }
  - intros HK E. destruct (EX 0%nat 0%nat ltac:(lia) R0 HK) as (e & I & _). rewrite E in I. destruct I.
Qed.
Lemma conv_built : forall gl Hi Wi Ho Wo fb f gi go cut mode es', basis_of fb f -> conv_psi gl Hi Wi Ho Wo fb gi go cut mode = Some es' -> (1 <= Wi)%nat ->
  exists c qi qo es roff, 0 < c /\ (forall x, cut = Some x -> c = x) /\ (cut = None -> c = PI / (INR Ho - 1)) /\ (1 <= Wi)%nat /\ (1 <= Wo)%nat /\ (Wi mod Wo = 0)%nat /\ (1 <= Ho)%nat /\ built gl Hi Wi Ho Wo fb f gi go c false mode true es' roff qi qo es.
Proof.
  intros gl Hi Wi Ho Wo fb f gi go cut mode es' B H HWi. unfold conv_psi in H. apply bindo_some in H. destruct H as (u & G & H). apply guard_some in G. apply andb_prop in G. destruct G as (G1 & G2). apply Nat.leb_le in G1. apply Nat.eqb_eq in G2.
  apply bindo_some in H. destruct H as (c & Hc & H). apply bindo_some in H. destruct H as (u' & G & H). apply guard_some in G. apply Rltb_true in G. apply bindo_some in H. destruct H as ((es0, roff) & HP & H). injection H as <-. cbn [fst].
  assert (HO : (1 <= Ho)%nat). { unfold precompute_psi in HP. apply bindo_some in HP. destruct HP as (x1 & _ & HP). apply bindo_some in HP. destruct HP as (x2 & _ & HP). apply bindo_some in HP. destruct HP as (x3 & _ & HP). apply bindo_some in HP. destruct HP as (x4 & GG & _). apply guard_some in GG. now apply Nat.leb_le. }
  destruct (built_spec _ _ _ _ _ _ f _ _ _ _ _ _ _ _ HWi G B HP) as (qi & qo & es & BU). exists c, qi, qo, es, roff. split; [auto|]. split; [intros x ->; cbn in Hc; congruence|]. split; [intros ->; cbn in Hc; apply bindo_some in Hc; destruct Hc as (? & _ & Hc); congruence|]. auto 10.
Qed.
Lemma tconv_built : forall gl Hi Wi Ho Wo fb f gi go cut mode es', basis_of fb f -> tconv_psi gl Hi Wi Ho Wo fb gi go cut mode = Some es' -> (1 <= Wo)%nat ->
  exists c qi qo es roff, 0 < c /\ (forall x, cut = Some x -> c = x) /\ (cut = None -> c = PI / (INR Hi - 1)) /\ (1 <= Wi)%nat /\ (1 <= Wo)%nat /\ (Wo mod Wi = 0)%nat /\ built gl Ho Wo Hi Wi fb f go gi c true mode true es' roff qo qi es.
Proof.
  intros gl Hi Wi Ho Wo fb f gi go cut mode es' B H HWo. unfold tconv_psi in H. apply bindo_some in H. destruct H as (u & G & H). apply guard_some in G. apply andb_prop in G. destruct G as (G1 & G2). apply Nat.leb_le in G1. apply Nat.eqb_eq in G2.
  apply bindo_some in H. destruct H as (c & Hc & H). apply bindo_some in H. destruct H as (u' & G & H). apply guard_some in G. apply Rltb_true in G. apply bindo_some in H. destruct H as ((es0, roff) & HP & H). injection H as <-. cbn [fst].
  destruct (built_spec _ _ _ _ _ _ f _ _ _ _ _ _ _ _ HWo G B HP) as (qi & qo & es & BU). exists c, qo, qi, es, roff. split; [auto|]. split; [intros x ->; cbn in Hc; congruence|]. split; [intros ->; cbn in Hc; apply bindo_some in Hc; destruct Hc as (? & _ & Hc); congruence|]. auto 10.
Qed.
(** a filter built with a basis of common support meets the kernels' requirements *)
Theorem built_layer_ok : forall gl Hi Wi Ho Wo fb f gi go c tr mode merge es' roff qi qo es G Og Cg weight bias, built gl Hi Wi Ho Wo fb f gi go c tr mode merge es' roff qi qo es -> basis_full fb ->
  (1 <= fb_size fb)%nat -> (2 <= Ho)%nat -> (1 <= Wi)%nat -> (1 <= Wo)%nat -> (Wi mod Wo = 0)%nat -> (1 <= G)%nat -> shp weight = [G * Og; Cg; fb_size fb]%nat -> bias_ok bias (G * Og) ->
  reached Hi Wi (rn qi) (rn qo) ((1 + 1 / 1000) * c) 0 -> reached Hi Wi (rn qi) (rn qo) ((1 + 1 / 1000) * c) (Ho - 1) ->
  layer_ok (fb_size fb) Hi Wi Ho Wo G Og Cg weight bias es'.
Proof.
  intros gl Hi Wi Ho Wo fb f gi go c tr mode merge es' roff qi qo es G Og Cg weight bias BU F HK H2 HWi HWo HD HG SW SB R0 R1. destruct (built_wf _ _ _ _ _ _ _ _ _ _ _ _ _ _ _ _ _ _ BU) as (WF & RS). destruct (built_separated _ _ _ _ _ _ _ _ _ _ _ _ _ _ _ _ _ _ BU F H2 R0 R1) as (SP & NE). constructor; auto.
Qed.
(** on one and the same grid every point is its own neighbour *)
Lemma reached_self : forall Hi Wi tin rc t, (1 <= Wi)%nat -> (t < Hi)%nat -> 0 < rc -> reached Hi Wi tin tin rc t.
Proof.
  intros Hi Wi tin rc t HW T Hrc. exists t, 0%nat. split; [auto|]. split; [lia|]. replace (lon Wi 0) with 0 by (unfold lon, Rdiv; cbn [INR]; ring). rewrite gcdist_self. lra.
Qed.

(** ** What normalisation does to a layer's output *)
Lemma built_nwf : forall gl Hi Wi Ho Wo fb f gi go c tr mode merge es' roff qi qo es, (1 <= Wi)%nat -> built gl Hi Wi Ho Wo fb f gi go c tr mode merge es' roff qi qo es ->
  forall e, In e es -> (ker e < fb_size fb)%nat /\ (lat_of Wi tr e < n_nlat Hi Ho tr)%nat /\ (lat_from Wi tr e < if tr then Ho else Hi)%nat.
Proof.
  intros gl Hi Wi Ho Wo fb f gi go c tr mode merge es' roff qi qo es HW [Hqi Hqo SA _ RS IX _ _] e I. destruct SA as (_ & A & _). destruct (A e I) as (a & b & d & _). assert (col e / Wi < Hi)%nat by (apply Nat.div_lt_upper_bound; lia).
  unfold lat_of, lat_from, n_nlat. destruct tr; auto.
Qed.
Lemma quad_of_nonneg : forall gl Hi Wi Ho gi go qi qo (tr : bool) i, precompute_latitudes gl Hi gi = Some qi -> precompute_latitudes gl Ho go = Some qo -> (1 <= Wi)%nat -> (forall n i, (i < n)%nat -> 0 <= rw (gl n) i) -> (i < if tr then Ho else Hi)%nat -> 0 <= quad_of gl qi qo tr Wi i.
Proof.
  intros gl Hi Wi Ho gi go qi qo tr i E1 E2 HW G Hi'. unfold quad_of. assert (0 < INR Wi) by (apply lt_0_INR; lia). assert (0 <= (if tr then rw qo i else rw qi i)).
  { destruct tr; eapply lat_nonneg; eauto. } apply Rmult_le_pos; [|lra]. apply Rmult_le_pos; auto. left. apply Rinv_0_lt_compat; auto.
Qed.
Lemma eps_pos : 0 < / 10 ^ 9.
Proof. apply Rinv_0_lt_compat. lra. Qed.
Lemma disco_gsum : forall w ps es x k t q, disco_sum w ps es x k t q = gsum row es (fun e => pv e * x (col e / w)%nat ((col e mod w + ps * q) mod w)%nat) k t.
Proof. reflexivity. Qed.
Lemma gsum_le : forall lat es f g k t, (forall e, In e es -> f e <= g e) -> gsum lat es f k t <= gsum lat es g k t.
Proof. intros lat es f g k t H. assert (0 <= gsum lat es (fun e => g e - f e) k t) by (apply gsum_nonneg; intros e I; specialize (H e I); lra). rewrite gsum_sub in H0. lra. Qed.
Lemma gsum_abs : forall lat es f k t, Rabs (gsum lat es f k t) <= gsum lat es (fun e => Rabs (f e)) k t.
Proof. intros lat es f k t. induction es as [|e es IH]; [unfold gsum; cbn; rewrite Rabs_R0; lra|]. rewrite !gsum_cons. eapply Rle_trans; [apply Rabs_triang|]. apply Rplus_le_compat; auto. destruct (_ && _); [lra|rewrite Rabs_R0; lra]. Qed.
Lemma ratio_le : forall x, 0 <= x -> x / Rmax x (/ 10 ^ 9) <= 1.
Proof. intros x H. pose proof eps_pos. pose proof (Rmax_l x (/ 10 ^ 9)). pose proof (Rmax_r x (/ 10 ^ 9)). apply Rmult_le_reg_r with (Rmax x (/ 10 ^ 9)); [lra|]. unfold Rdiv. rewrite Rmult_assoc, Rinv_l by lra. lra. Qed.

Section Layer.
Variables (gl : nat -> rule) (Hi Wi Ho Wo : nat) (fb : fbasis) (f : R -> nat -> R -> R -> R) (gi go : grid) (c : R) (es' : list entry) (roff : list nat) (qi qo : rule) (es : list entry) (tr : bool).
Hypothesis gl_nonneg : forall n i, (i < n)%nat -> 0 <= rw (gl n) i.
Hypothesis HWi : (1 <= Wi)%nat.
Hypothesis HWo : (1 <= Wo)%nat.
Hypothesis BU : built gl Hi Wi Ho Wo fb f gi go c tr NNodal true es' roff qi qo es.
Let q := quad_of gl qi qo tr Wi.
Let corr := INR Wo / INR Wi.
Lemma nodal_facts : forall k t, (t < n_nlat Hi Ho tr)%nat -> let S := gsum (lat_of Wi tr) es (fun e => Rabs (pv e) * qw Wi q tr e) k t in
  gsum (lat_of Wi tr) es' (fun e => Rabs (pv e) * (if tr then corr else 1)) k t = S / Rmax S (/ 10 ^ 9) /\
  gsum (lat_of Wi tr) es' (fun e => pv e * (if tr then corr else 1)) k t = gsum (lat_of Wi tr) es (fun e => pv e * qw Wi q tr e) k t / Rmax S (/ 10 ^ 9) /\ 0 <= S.
Proof.
  intros k t T S. pose proof (built_nwf _ _ _ _ _ _ _ _ _ _ _ _ _ _ _ _ _ _ HWi BU) as W. destruct BU as [Ei Eo _ _ _ _ (vs & m & _ & -> & RN) _].
  assert (QN : forall i, (i < if tr then Ho else Hi)%nat -> 0 <= q i) by (intros; eapply quad_of_nonneg; eauto).
  destruct (nodal_norm Hi Wi Ho Wo (fb_size fb) (if tr then Ho else Hi) q c tr true (Some m) (/ 10 ^ 9) QN eps_pos (conj HWi HWo) NNodal es vs k t (or_introl eq_refl) W RN T) as (A & B). split; [exact A|]. split; [exact B|].
  apply gsum_nonneg. intros e I. apply Rmult_le_pos; [apply Rabs_pos|]. apply QN. apply W; auto.
Qed.
End Layer.
Theorem nodal_bounded : forall gl Hi Wi Ho Wo fb f gi go c es' roff qi qo es ps, (forall n i, (i < n)%nat -> 0 <= rw (gl n) i) -> (1 <= Wi)%nat -> (1 <= Wo)%nat -> built gl Hi Wi Ho Wo fb f gi go c false NNodal true es' roff qi qo es ->
  forall x M k t q, (forall h w, Rabs (x h w) <= M) -> (t < Ho)%nat -> Rabs (disco_sum Wi ps es' x k t q) <= M.
Proof.
  intros gl Hi Wi Ho Wo fb f gi go c es' roff qi qo es ps G HWi HWo BU x M k t q HM T. rewrite disco_gsum. destruct (nodal_facts gl Hi Wi Ho Wo fb f gi go c es' roff qi qo es false G HWi HWo BU k t T) as (A & _ & S0).
  assert (MP : 0 <= M) by (eapply Rle_trans; [apply Rabs_pos|apply (HM 0%nat 0%nat)]).
  eapply Rle_trans; [apply gsum_abs|]. eapply Rle_trans.
  - apply gsum_le with (g := fun e => Rabs (pv e) * 1 * M). intros e _. rewrite Rabs_mult, Rmult_1_r. apply Rmult_le_compat_l; [apply Rabs_pos|apply HM].
  - rewrite gsum_scal. change (gsum row es' (fun e => Rabs (pv e) * 1) k t) with (gsum (lat_of Wi false) es' (fun e => Rabs (pv e) * 1) k t). rewrite A. rewrite <- (Rmult_1_l M) at 2. apply Rmult_le_compat_r; auto. apply ratio_le; auto.
Qed.
Lemma gsum_pos_abs : forall lat es f (q : entry -> R) k t, (forall e, In e es -> ker e = k -> lat e = t -> 0 <= f e) -> gsum lat es (fun e => Rabs (f e) * q e) k t = gsum lat es (fun e => f e * q e) k t.
Proof. intros. apply gsum_ext. intros e I Ek Et. rewrite Rabs_right; auto. apply Rle_ge; auto. Qed.
Theorem nodal_constant : forall gl Hi Wi Ho Wo fb f gi go c es' roff qi qo es ps, (forall n i, (i < n)%nat -> 0 <= rw (gl n) i) -> (1 <= Wi)%nat -> (1 <= Wo)%nat -> built gl Hi Wi Ho Wo fb f gi go c false NNodal true es' roff qi qo es ->
  forall a k t q, (t < Ho)%nat -> (forall e, In e es -> ker e = k -> row e = t -> 0 <= pv e) -> / 10 ^ 9 <= gsum row es (fun e => pv e * (rw qi (col e / Wi)%nat / INR Wi / 2)) k t ->
  disco_sum Wi ps es' (fun _ _ => a) k t q = a.
Proof.
  intros gl Hi Wi Ho Wo fb f gi go c es' roff qi qo es ps G HWi HWo BU a k t q T NN HS. rewrite disco_gsum. destruct (nodal_facts gl Hi Wi Ho Wo fb f gi go c es' roff qi qo es false G HWi HWo BU k t T) as (_ & B & S0).
  rewrite gsum_scal. transitivity (gsum (lat_of Wi false) es' (fun e => pv e * 1) k t * a). { f_equal. apply gsum_ext. intros. ring. } rewrite B.
  rewrite (gsum_pos_abs (lat_of Wi false) es pv) by auto. change (gsum (lat_of Wi false) es (fun e => pv e * qw Wi (quad_of gl qi qo false Wi) false e) k t) with (gsum row es (fun e => pv e * (rw qi (col e / Wi)%nat / INR Wi / 2)) k t).
  rewrite Rmax_left by auto. pose proof eps_pos. field. lra.
Qed.
Theorem nodal_tconstant : forall gl Hi Wi Ho Wo fb f gi go c es' roff qi qo es, (forall n i, (i < n)%nat -> 0 <= rw (gl n) i) -> (1 <= Wi)%nat -> (1 <= Wo)%nat -> built gl Ho Wo Hi Wi fb f go gi c true NNodal true es' roff qo qi es ->
  forall a k h, (h < Ho)%nat -> (forall e, In e es -> ker e = k -> (col e / Wo = h)%nat -> 0 <= pv e) -> / 10 ^ 9 <= gsum (fun e => col e / Wo)%nat es (fun e => pv e * (rw qi (row e) / INR Wo / 2)) k h ->
  rsum Wo (fun j => disco_adjoint_sum Wo (Wo / Wi) Wi es' (fun k' _ _ => if (k' =? k)%nat then a else 0) h j) / INR Wo = a.
Proof.
  intros gl Hi Wi Ho Wo fb f gi go c es' roff qi qo es G HWi HWo BU a k h T NN HS. destruct (nodal_facts gl Ho Wo Hi Wi fb f go gi c es' roff qo qi es true G HWo HWi BU k h T) as (_ & B & S0).
  assert (0 < INR Wo) by (apply lt_0_INR; lia). assert (0 < INR Wi) by (apply lt_0_INR; lia).
  transitivity (gsum (lat_of Wo true) es' (fun e => pv e * (INR Wi / INR Wo)) k h * a).
  - clear B HS NN. unfold disco_adjoint_sum. rewrite <- (lsum_bsum_swap RT). unfold gsum. induction es' as [|e l IH] in |- *; [cbn; field; lra|].
    change (rlsum ?F (e :: l)) with (F e + rlsum F l). rewrite Rdiv_plus_distr, IH, Rmult_plus_distr_r. f_equal. unfold lat_of. destruct (Nat.eqb_spec (col e / Wo) h) as [E|N].
    + rewrite andb_true_r. rewrite (bsum_scal_l RT). rewrite (bsum_swap RT). transitivity (pv e * rsum Wi (fun _ => if (ker e =? k)%nat then a else 0) / INR Wo).
      { f_equal. f_equal. apply bsum_ext. intros q _. rewrite (bsum_ext Wo _ (fun j => if (j =? (col e mod Wo + Wo / Wi * q) mod Wo)%nat then (if (ker e =? k)%nat then a else 0) else 0)) by (intros; rewrite Nat.eqb_sym; reflexivity). apply (bsum_delta RT). apply Nat.mod_upper_bound. lia. }
      rewrite rsum_const. destruct (ker e =? k)%nat; field; lra.
    + rewrite andb_false_r. rewrite (bsum_zero RT). field. lra.
  - rewrite B. rewrite (gsum_pos_abs (lat_of Wo true) es pv) by auto. change (gsum (lat_of Wo true) es (fun e => pv e * qw Wo (quad_of gl qo qi true Wo) true e) k h) with (gsum (fun e => col e / Wo)%nat es (fun e => pv e * (rw qi (row e) / INR Wo / 2)) k h).
    rewrite Rmax_left by auto. pose proof eps_pos. field. lra.
Qed.
