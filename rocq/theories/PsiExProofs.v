(** When the constructors succeed; concrete cases. *)
From Coq Require Import List Arith ZArith Lia Bool Reals Lra Sorted.
From Verif Require Import TensorModel TensorProofs BigSum ResampleModel ResampleProofs TruncModel QuadModel QuadProofs CCProofs DiscoModel DiscoSpec FilterModel FilterSpec FilterProofs FilterApiProofs PsiModel PsiSpec PsiGeoProofs PsiProofs PsiPreProofs PsiLayerProofs PsiUseProofs PsiAttnProofs AttnSpec AttnPropProofs.
Import ListNotations.
Local Open Scope R_scope.

Lemma mapM_total : forall A B (f : A -> option B) l, (forall a, In a l -> f a <> None) -> exists bs, mapM f l = Some bs.
Proof. intros A B f l. induction l as [|a l IH]; intros H; [exists []; reflexivity|]. cbn [mapM]. destruct (f a) as [b|] eqn:E; [|destruct (H a (or_introl eq_refl) E)]. destruct (IH (fun x I => H x (or_intror I))) as (bs & ->). cbn. eauto. Qed.
Theorem pre_total : forall gl Hi Wi Ho Wo fb f gi go c tr mode merge qi qo m, (1 <= Wi)%nat -> 0 < c -> basis_of fb f -> precompute_latitudes gl Hi gi = Some qi -> precompute_latitudes gl Ho go = Some qo -> (1 <= Ho)%nat -> fb_mask fb = Some m -> mask_ok fb -> mode <> NUnknown ->
  (forall t r phi rc, (t < Ho)%nat -> rc = (1 + 1 / 1000) * c -> (forall i j, r i j = gcdist (rn qi i, lon Wi j) (rn qo t, 0)) -> fb_support fb Hi Wi r phi rc <> None) -> exists r, precompute_psi gl Hi Wi Ho Wo fb gi go c tr mode merge = Some r.
Proof.
  intros gl Hi Wi Ho Wo fb f gi go c tr mode merge qi qo m HW Hc B Ei Eo HO Em MO NU S. unfold precompute_psi. rewrite Ei, Eo. cbn [bindo].
  destruct (mapM_total _ _ (psi_row fb Hi Wi (rn qi) (rn qo) ((1 + 1 / 1000) * c)) (seq 0 Ho)) as (rows & Er).
  { intros t I. apply in_seq in I. unfold psi_row. match goal with |- bindo ?x _ <> _ => assert (X : x <> None) end.
    { apply (S t); [lia|reflexivity|]. intros i j. rewrite longitudes_lon by auto. destruct (g_polar (rn qi i) (lon Wi j) (rn qo t)) as (-> & _). reflexivity. }
    destruct (fb_support fb Hi Wi _ _ _); [discriminate|congruence]. }
  rewrite Er. cbn [bindo]. rewrite (proj2 (Nat.leb_le 1 Ho)) by auto. cbn [guard bindo]. rewrite Em. cbn [bindo].
  assert (rcp : 0 < (1 + 1 / 1000) * c) by lra. destruct (rows_samples fb f Hi Wi (rn qi) (rn qo) _ HW rcp B Ho rows Er) as ((_ & SA & _) & _).
  assert (W : forall e, In e (concat rows) -> (ker e < fb_size fb)%nat /\ (lat_of Wi tr e < n_nlat Hi Ho tr)%nat /\ (lat_from Wi tr e < if tr then Ho else Hi)%nat).
  { intros e I. destruct (SA e I) as (a & b & d & _). assert (col e / Wi < Hi)%nat by (apply Nat.div_lt_upper_bound; lia). unfold lat_of, lat_from, n_nlat. destruct tr; auto. }
  destruct (proj2 (runs_iff Hi Wi Ho Wo (fb_size fb) (if tr then Ho else Hi) (quad_of gl qi qo tr Wi) c tr merge (Some m) (/ 10 ^ 9) mode (concat rows) W (fun m' E => MO m' (eq_trans Em E)) ltac:(discriminate)) NU) as (vs & RN).
  change (fun i => (if tr then rw qo i else rw qi i) / INR Wi / 2) with (quad_of gl qi qo tr Wi). unfold runs in RN. rewrite RN. cbn [bindo]. eauto.
Qed.
Lemma eq_lats : forall gl n, (2 <= n)%nat -> exists q, precompute_latitudes gl n GEquiangular = Some q /\ forall i, (i < n)%nat -> rn q i = PI * INR i / INR (n - 1).
Proof.
  intros gl n Hn. unfold precompute_latitudes, precompute_quadrature_weights. cbn [andb]. unfold clenshaw_curtiss_weights. rewrite (proj2 (Nat.leb_gt n 1)) by lia. eexists. split; [reflexivity|]. intros i Hi. cbn [rn]. unfold flip. cbn [rescale rn]. unfold linspace.
  assert (P : 0 < INR (n - 1)) by (apply lt_0_INR; lia). assert (L : INR i <= INR (n - 1)) by (apply le_INR; lia). pose proof (pos_INR i). pose proof PI_RGT_0.
  replace ((1 - -1) * 0.5 * cos (PI + (0 - PI) * INR (n - 1 - i) / INR (n - 1)) + (1 + -1) * 0.5) with (cos (PI + (0 - PI) * INR (n - 1 - i) / INR (n - 1))) by lra.
  replace (PI + (0 - PI) * INR (n - 1 - i) / INR (n - 1)) with (PI * INR i / INR (n - 1)) by (rewrite (minus_INR (n - 1) i) by lia; field; lra). apply acos_cos. split.
  - apply Rmult_le_pos; [nra|]. left. apply Rinv_0_lt_compat; auto.
  - apply Rmult_le_reg_r with (INR (n - 1)); auto. unfold Rdiv. rewrite Rmult_assoc, Rinv_l by lra. nra.
Qed.
(** an upsampling attention layer with output points nobody attends for *)
Theorem uncovered : forall gl, exists quad P, na_pattern gl 2 1 3 2 GEquiangular GEquiangular (Some (PI / 10)) = Some (quad, columns P, offsets 0 P) /\ nbrs P 2 1 2 1 0 = [].
Proof.
  intros gl. pose proof PI_RGT_0 as PP. destruct (eq_lats gl 2 ltac:(lia)) as (qi & Ei & Li). destruct (eq_lats gl 3 ltac:(lia)) as (qo & Eo & Lo).
  assert (X : exists r, na_pattern gl 2 1 3 2 GEquiangular GEquiangular (Some (PI / 10)) = Some r).
  { unfold na_pattern. change (na_upsample 1 2) with true. cbn [Nat.leb andb guard bindo default_cutoff orb]. rewrite orb_true_r. cbn [guard bindo]. rewrite (proj2 (Rltb_true 0 (PI / 10))) by lra. cbn [guard bindo]. rewrite Ei. cbn [bindo].
    destruct (zk_basis (KInt 1)) as [fb|] eqn:Ef; [|discriminate]. cbn [bindo]. destruct (zk1 fb Ef) as (B & F & K1). destruct (zk_basis_of (KInt 1) 1 fb (or_introl eq_refl) ltac:(cbn [INR]; lra) Ef) as (_ & _ & MO & _).
    destruct (zk_api (fun _ _ => 0) (fun _ _ => []) (KInt 1) 1 (or_introl eq_refl)) as (fb' & E' & _ & _ & M & _ & NO). cbn [get_filter_basis] in E'. rewrite Ef in E'. injection E' as <-.
    destruct (pre_total gl 3 2 2 1 fb (zk_fun 1) GEquiangular GEquiangular (PI / 10) true NNone true qo qi _ ltac:(lia) ltac:(lra) B Eo Ei ltac:(lia) M MO ltac:(discriminate)) as (r & Er).
    { intros t r phi rc T -> Hr N. apply NO in N. destruct N as [N|N]; [discriminate|]. specialize (N (2 * t)%nat 0%nat ltac:(lia) ltac:(lia)). rewrite Hr in N. rewrite Lo, Li in N by lia.
      replace (PI * INR (2 * t) / INR (3 - 1)) with (PI * INR t / INR (2 - 1)) in N by (rewrite mult_INR; cbn; field). replace (lon 2 0) with 0 in N by (unfold lon, Rdiv; cbn [INR]; ring). rewrite gcdist_self in N. lra. }
    rewrite Er. cbn [bindo]. eauto. }
  destruct X as (((quad, cols), roff) & E). destruct (na_neighbours _ _ _ _ _ _ _ _ _ _ _ E) as (c & qi' & qo' & P & Hc & C1 & _ & Ei' & Eo' & -> & -> & _ & _ & _ & _ & _ & NB & _).
  exists quad, P. split; [exact E|]. rewrite Ei in Ei'. injection Ei' as <-. rewrite Eo in Eo'. injection Eo' as <-. rewrite (C1 _ eq_refl) in NB. destruct (NB 1%nat 0%nat ltac:(lia) ltac:(lia)) as (_ & IN).
  destruct (nbrs P 2 1 2 1 0) as [|p l]; auto. exfalso. destruct (proj1 (IN p) (or_introl eq_refl)) as (H1 & H2 & D). rewrite Li, Lo in D by lia. unfold gcdist in D. rewrite dot_cos in D. assert (S : sin (PI * INR (fst p) / INR (2 - 1)) = 0).
  { destruct (fst p) as [|[|]]; [|cbn|lia]. cbn [INR]. replace (PI * 0 / INR (2 - 1)) with 0 by (cbn; field). apply sin_0. replace (PI * 1 / 1) with PI by field. apply sin_PI. }
  rewrite S in D. replace (PI * INR 1 / INR (3 - 1)) with (PI / 2) in D by (cbn; field). rewrite cos_PI2 in D. rewrite !Rmult_0_l, Rmult_0_r, Rplus_0_l, acos_0 in D. lra.
Qed.

(** ** Constants are reproduced *)
Lemma gsum_ge_term : forall lat es f k t e, (forall e, In e es -> 0 <= f e) -> In e es -> ker e = k -> lat e = t -> f e <= gsum lat es f k t.
Proof.
  intros lat es f k t e. induction es as [|x es IH]; intros NN I Ek Et; [destruct I|]. rewrite gsum_cons. assert (G : 0 <= gsum lat es f k t) by (apply gsum_nonneg; intros; apply NN; right; auto). destruct I as [->|I].
  - rewrite Ek, Et, !Nat.eqb_refl. cbn. lra.
  - specialize (IH (fun e' J => NN e' (or_intror J)) I Ek Et). pose proof (NN x (or_introl eq_refl)). destruct (_ && _); lra.
Qed.
Theorem centre_constant : forall gl H W nr nphi ks fb g c es' roff q q' es, (forall n i, (i < n)%nat -> 0 <= rw (gl n) i) -> (1 <= W)%nat -> (nr mod 2 = 1)%nat -> pl_shape ks nr nphi -> (1 <= nphi)%nat -> pl_basis ks = Some fb -> 0 < c ->
  built gl H W H W fb (pl_fun nr nphi) g g c false NNodal true es' roff q q' es ->
  forall a t p, (t < H)%nat -> / 10 ^ 9 <= rw q t / INR W / 2 -> disco_sum W 1 es' (fun _ _ => a) 0 t p = a.
Proof.
  intros gl H W nr nphi ks fb g c es' roff q q' es G HW Odd SH NP EB Hc BU a t p T HQ. set (rc := (1 + 1 / 1000) * c) in *. assert (rcp : 0 < rc) by (unfold rc; lra). destruct (pl_api (fun _ _ => 0) (fun _ _ => []) ks nr nphi SH NP) as (fb' & E' & A). cbn [get_filter_basis] in E'. rewrite EB in E'. injection E' as <-.
  destruct (A rc rcp) as (SZ & _). assert (C0 : nth 0 (centres nr nphi rc) (0, None) = (0, None) /\ (1 <= fb_size fb)%nat).
  { rewrite SZ. unfold centres. rewrite Odd. cbn [Nat.eqb app nth length]. split; [auto|lia]. } destruct C0 as (C0 & K1).
  assert (EQ : q' = q) by (pose proof (bu_i _ _ _ _ _ _ _ _ _ _ _ _ _ _ _ _ _ _ BU); pose proof (bu_o _ _ _ _ _ _ _ _ _ _ _ _ _ _ _ _ _ _ BU); congruence). subst q'.
  pose proof (bu_samples _ _ _ _ _ _ _ _ _ _ _ _ _ _ _ _ _ _ BU) as (_ & SA & SB). fold rc in SA, SB.
  assert (VAL : forall r phi, pl_fun nr nphi rc 0 r phi = hat (Rabs (r - 0) / (rc / ((INR nr + 1) / 2)))) by (intros; unfold pl_fun; rewrite C0; reflexivity).
  assert (L0 : lon W 0 = 0) by (unfold lon, Rdiv; cbn [INR]; ring).
  assert (V0 : forall phi, pl_fun nr nphi rc 0 0 phi = 1). { intros. rewrite VAL, Rminus_0_r, Rabs_R0. unfold Rdiv. rewrite Rmult_0_l, hat_in by lra. ring. }
  assert (IN : In (0%nat, t, (t * W + 0)%nat) (map index es)).
  { destruct (in_dec (fun a b : nat * nat * nat => ltac:(repeat decide equality)) (0%nat, t, (t * W + 0)%nat) (map index es)) as [I|N]; auto. exfalso. destruct (SB 0%nat t t 0%nat K1 T T ltac:(lia)) as (r & phi & (P & _) & Z); auto. { rewrite L0, gcdist_self. lra. } rewrite L0, gcdist_self in P. subst r. rewrite V0 in Z. lra. }
  assert (NN : forall e, In e es -> ker e = 0%nat -> 0 <= pv e).
  { intros e I Ek. destruct (SA e I) as (_ & _ & _ & r & phi & (P & _) & Hr & ->). rewrite Ek, VAL. apply Rmax_l. }
  apply (nodal_constant gl H W H W fb (pl_fun nr nphi) g g c es' roff q q es 1 G HW HW BU); auto.
  apply in_map_iff in IN. destruct IN as (e & E & I). unfold index in E. assert (Ek : ker e = 0%nat) by congruence. assert (Er : row e = t) by congruence. assert (Ec : col e = (t * W + 0)%nat) by congruence.
  assert (D1 : ((t * W + 0) / W = t)%nat) by (symmetry; apply Nat.div_unique with 0%nat; lia). assert (D2 : ((t * W + 0) mod W = 0)%nat) by (symmetry; apply Nat.mod_unique with t; lia).
  assert (PV : pv e = 1). { destruct (SA e I) as (_ & _ & _ & r & phi & (P & _) & Hr & ->). rewrite Ek. rewrite Er, Ec, D1, D2, L0, gcdist_self in P. subst r. apply V0. }
  set (F := fun e => (if (ker e =? 0)%nat then pv e else 0) * (rw q (col e / W) / INR W / 2)).
  eapply Rle_trans; [exact HQ|]. apply Rle_trans with (gsum row es F 0 t).
  - eapply Rle_trans; [|apply gsum_ge_term with (e := e); auto].
    + unfold F. rewrite Ek, PV, Ec, D1. cbn [Nat.eqb]. lra.
    + intros e' I'. unfold F. assert (0 < INR W) by (apply lt_0_INR; lia). apply Rmult_le_pos; [destruct (Nat.eqb_spec (ker e') 0); [auto|lra]|]. apply Rmult_le_pos; [|lra]. apply Rmult_le_pos; [|left; apply Rinv_0_lt_compat; auto]. eapply lat_nonneg; [apply (bu_i _ _ _ _ _ _ _ _ _ _ _ _ _ _ _ _ _ _ BU)|auto|]. destruct (SA e' I') as (_ & _ & d & _). apply Nat.div_lt_upper_bound; lia.
  - right. apply gsum_ext. intros e' I' Ek' _. unfold F. rewrite Ek'. reflexivity.
Qed.

(** ** Refuted: the area of the cap *)
From Coquelicot Require Import Coquelicot.
Lemma cap_area : forall t, RInt sin 0 t / 2 = (1 - cos t) / 2.
Proof.
  intros t. f_equal. apply is_RInt_unique. replace (1 - cos t) with (minus (- cos t) (- cos 0)) by (rewrite cos_0; unfold minus, plus, opp; simpl; ring).
  apply (is_RInt_derive (fun x => - cos x) sin). { intros x _. auto_derive; auto. ring. } { intros x _. apply continuous_sin. }
Qed.
(** ** A layer built on an equiangular grid with a Zernike basis *)
Theorem zernike_same_grid : forall gl H W N fb, (2 <= H)%nat -> (1 <= W)%nat -> (1 <= N)%nat -> INR N <= 10 ^ 24 -> zk_basis (KInt N) = Some fb -> forall mode weight bias G Og Cg, mode <> NUnknown -> (1 <= G)%nat -> shp weight = [G * Og; Cg; fb_size fb]%nat -> bias_ok bias (G * Og) ->
  exists es, conv_psi gl H W H W fb GEquiangular GEquiangular None mode = Some es /\ layer_ok (fb_size fb) H W H W G Og Cg weight bias es.
Proof.
  intros gl H W N fb HH HW HN HB EB mode weight bias G Og Cg NU HG SW SB. pose proof PI_RGT_0 as PP. destruct (zk_basis_of (KInt N) N fb (or_introl eq_refl) HB EB) as (B & F & MO & SZ). destruct (eq_lats gl H HH) as (q & Eq & Lq).
  destruct (zk_api (fun _ _ => 0) (fun _ _ => []) (KInt N) N (or_introl eq_refl)) as (fb' & E' & _ & _ & M & _ & NO). cbn [get_filter_basis] in E'. rewrite EB in E'. injection E' as <-.
  assert (H1 : 0 < INR H - 1). { assert (2 <= INR H) by (replace 2 with (INR 2) by reflexivity; apply le_INR; lia). lra. } assert (CP : 0 < PI / (INR H - 1)) by (apply Rdiv_lt_0_compat; auto).
  assert (L0 : lon W 0 = 0) by (unfold lon, Rdiv; cbn [INR]; ring).
  destruct (pre_total gl H W H W fb (zk_fun N) GEquiangular GEquiangular (PI / (INR H - 1)) false mode true q q _ HW CP B Eq Eq ltac:(lia) M MO NU) as ((es, roff) & Er).
  { intros t r phi rc T -> Hr X. apply NO in X. destruct X as [X|X]; [lia|]. specialize (X t 0%nat T ltac:(lia)). rewrite Hr, L0, gcdist_self in X. lra. }
  assert (CE : conv_psi gl H W H W fb GEquiangular GEquiangular None mode = Some es).
  { unfold conv_psi. rewrite (proj2 (Nat.leb_le 1 W)) by auto. rewrite Nat.mod_same by lia. cbn [Nat.eqb andb guard bindo default_cutoff]. rewrite (proj2 (Nat.eqb_neq H 1)) by lia. cbn [negb guard bindo]. rewrite (proj2 (Rltb_true 0 (PI / (INR H - 1)))) by auto. cbn [guard bindo]. rewrite Er. reflexivity. }
  exists es. split; auto. destruct (built_spec _ _ _ _ _ _ (zk_fun N) _ _ _ _ _ _ _ _ HW CP B Er) as (qi & qo & es0 & BU).
  assert (qi = q /\ qo = q) by (pose proof (bu_i _ _ _ _ _ _ _ _ _ _ _ _ _ _ _ _ _ _ BU); pose proof (bu_o _ _ _ _ _ _ _ _ _ _ _ _ _ _ _ _ _ _ BU); split; congruence). destruct H0 as (-> & ->).
  apply (built_layer_ok _ _ _ _ _ _ _ _ _ _ _ _ _ _ _ _ _ _ G Og Cg weight bias BU F); auto.
  - rewrite SZ. destruct N; [lia|]. clear. unfold zernike_orders. rewrite flat_map_concat_map. cbn [seq map concat app length]. lia.
  - apply Nat.mod_same. lia.
  - apply reached_self; auto; [lia|lra].
  - apply reached_self; auto; [lia|lra].
Qed.
