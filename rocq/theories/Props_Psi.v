(** C38: normalisation of the filter; C51: the filter samples the basis functions;
    C52: neighbourhoods of the attention layer. *)
From Coq Require Import List Arith ZArith Lia Bool Reals Lra.
From Coquelicot Require Import Coquelicot.
From Verif Require Import TensorModel BigSum TruncModel QuadModel DiscoModel DiscoSpec FilterModel FilterSpec FilterApiProofs FilterBases2Proofs PsiModel PsiSpec PsiGeoProofs PsiProofs PsiLayerProofs PsiUseProofs PsiAttnProofs PsiExProofs AttnSpec.
Import ListNotations.
Local Open Scope R_scope.

(** indices in range; weights not negative *)
Definition normal_input (Hi Wi Ho Wo K nq : nat) (quad : nat -> R) (tr : bool) (es : list entry) : Prop :=
  (forall e, In e es -> (ker e < K)%nat /\ (lat_of Wi tr e < if tr then Hi else Ho)%nat /\ (lat_from Wi tr e < nq)%nat) /\ (forall i, (i < nq)%nat -> 0 <= quad i) /\ (1 <= Wi)%nat /\ (1 <= Wo)%nat.

(** positions never change *)
Theorem C38_positions : forall Hi Wi Ho Wo K nq quad cutoff tr merge mask eps mode es vs, normalize_psi Hi Wi Ho Wo K nq quad cutoff tr merge mask eps mode es = Some vs -> length vs = length es /\ map index (with_values es vs) = map index es.
Proof. exact normalize_index. Qed.
(** only unknown modes are rejected *)
Theorem C38_modes : forall Hi Wi Ho Wo K nq quad cutoff tr merge mask eps mode es, normal_input Hi Wi Ho Wo K nq quad tr es -> (forall m, mask = Some m -> length m = K) -> (mask = None -> 1 <= K)%nat ->
  ((exists vs, normalize_psi Hi Wi Ho Wo K nq quad cutoff tr merge mask eps mode es = Some vs) <-> mode <> NUnknown).
Proof. intros Hi Wi Ho Wo K nq quad cutoff tr merge mask eps mode es (A & _). exact (runs_iff Hi Wi Ho Wo K nq quad cutoff tr merge mask eps mode es A). Qed.
(** nodal: per kernel and latitude the weighted absolute sum is one *)
Theorem C38_nodal : forall Hi Wi Ho Wo K nq quad cutoff tr merge mask eps mode es vs k t, normal_input Hi Wi Ho Wo K nq quad tr es -> 0 < eps -> mode = NNodal \/ mode = NIndividual ->
  normalize_psi Hi Wi Ho Wo K nq quad cutoff tr merge mask eps mode es = Some vs -> (t < if tr then Hi else Ho)%nat ->
  let S := gsum (lat_of Wi tr) es (fun e => Rabs (pv e) * qw Wi quad tr e) k t in
  let lw := left_weight Wi quad tr merge (INR Wo / INR Wi) in
  gsum (lat_of Wi tr) (with_values es vs) (fun e => Rabs (pv e) * lw e) k t = S / Rmax S eps /\
  (eps <= S -> gsum (lat_of Wi tr) (with_values es vs) (fun e => Rabs (pv e) * lw e) k t = 1) /\
  (eps <= S -> (forall e, In e es -> ker e = k -> lat_of Wi tr e = t -> 0 <= pv e) -> gsum (lat_of Wi tr) (with_values es vs) (fun e => pv e * lw e) k t = 1).
Proof.
  intros Hi Wi Ho Wo K nq quad cutoff tr merge mask eps mode es vs k t (A & Q & W1 & W2) E M H T S lw. destruct (nodal_norm Hi Wi Ho Wo K nq quad cutoff tr merge mask eps Q E (conj W1 W2) mode es vs k t M A H T) as (N1 & N2). fold S in N1, N2. fold lw in N1, N2.
  split; [exact N1|]. split; [intros L; rewrite N1; apply div_max; auto|]. intros L P. rewrite N2. rewrite <- (gsum_pos_abs (lat_of Wi tr) es pv) by auto. apply div_max; auto.
Qed.
(** modal: anisotropic kernels lose their weighted mean first *)
Theorem C38_modal : forall Hi Wi Ho Wo K nq quad cutoff tr merge mask eps es vs k t, normal_input Hi Wi Ho Wo K nq quad tr es -> 0 < eps ->
  normalize_psi Hi Wi Ho Wo K nq quad cutoff tr merge mask eps NModal es = Some vs -> (t < if tr then Hi else Ho)%nat ->
  let U := gsum (lat_of Wi tr) es (qw Wi quad tr) k t in
  let iso := match mask with Some m => nth k m false | None => (k =? 0)%nat end in
  let b := if iso then 0 else gsum (lat_of Wi tr) es (fun e => pv e * qw Wi quad tr e) k t / U in
  let S := gsum (lat_of Wi tr) es (fun e => Rabs (pv e - b) * qw Wi quad tr e) k t in
  let lw := left_weight Wi quad tr merge (INR Wo / INR Wi) in
  eps < U ->
  (iso = false -> gsum (lat_of Wi tr) (with_values es vs) (fun e => pv e * lw e) k t = 0) /\
  (eps <= S -> gsum (lat_of Wi tr) (with_values es vs) (fun e => Rabs (pv e) * lw e) k t = 1).
Proof.
  intros Hi Wi Ho Wo K nq quad cutoff tr merge mask eps es vs k t (A & Q & W1 & W2) E H T U iso b S lw HU. destruct (modal_norm Hi Wi Ho Wo K nq quad cutoff tr merge mask eps Q E (conj W1 W2) es vs k t A H T HU) as (N1 & N2). split.
  - intros I. etransitivity; [exact N2|]. change (n_iso mask k) with iso. rewrite I. reflexivity.
  - intros L. etransitivity; [exact N1|]. apply div_max; auto.
Qed.
(** mean: the average over the latitudes is one *)
Theorem C38_mean : forall Hi Wi Ho Wo K nq quad cutoff tr merge mask eps es vs k, normal_input Hi Wi Ho Wo K nq quad tr es -> 0 < eps ->
  normalize_psi Hi Wi Ho Wo K nq quad cutoff tr merge mask eps NMean es = Some vs -> (k < K)%nat -> let n := if tr then Hi else Ho in (1 <= n)%nat ->
  let M := rsum n (fun t => gsum (lat_of Wi tr) es (fun e => Rabs (pv e) * qw Wi quad tr e) k t) / INR n in
  let lw := left_weight Wi quad tr merge (INR Wo / INR Wi) in
  (eps <= M -> rsum n (fun t => gsum (lat_of Wi tr) (with_values es vs) (fun e => Rabs (pv e) * lw e) k t) / INR n = 1) /\
  (forall t, (t < n)%nat -> gsum (lat_of Wi tr) (with_values es vs) (fun e => Rabs (pv e) * lw e) k t = gsum (lat_of Wi tr) es (fun e => Rabs (pv e) * qw Wi quad tr e) k t / Rmax M eps).
Proof.
  intros Hi Wi Ho Wo K nq quad cutoff tr merge mask eps es vs k (A & Q & W1 & W2) E H Hk n Hn M lw. destruct (mean_norm Hi Wi Ho Wo K nq quad cutoff tr merge mask eps Q E (conj W1 W2) es vs k A H Hk Hn) as (N1 & N2). split; [|exact N2].
  intros L. etransitivity; [exact N1|]. apply div_max; auto.
Qed.
(** support: a weighted average *)
Theorem C38_support : forall Hi Wi Ho Wo K nq quad cutoff tr merge mask eps es vs k t, normal_input Hi Wi Ho Wo K nq quad tr es -> 0 < eps ->
  normalize_psi Hi Wi Ho Wo K nq quad cutoff tr merge mask eps NSupport es = Some vs -> (t < if tr then Hi else Ho)%nat ->
  gsum (lat_of Wi tr) (with_values es vs) (fun e => pv e * left_weight Wi quad tr merge (INR Wo / INR Wi) e) k t =
  gsum (lat_of Wi tr) es (fun e => pv e * qw Wi quad tr e) k t / Rmax (gsum (lat_of Wi tr) es (qw Wi quad tr) k t) eps.
Proof. intros Hi Wi Ho Wo K nq quad cutoff tr merge mask eps es vs k t (A & Q & W1 & W2) E. exact (support_norm Hi Wi Ho Wo K nq quad cutoff tr merge mask eps (conj W1 W2) es vs k t A). Qed.
(** geometric: one factor for all entries *)
Theorem C38_geometric : forall Hi Wi Ho Wo K nq quad cutoff tr merge mask eps mode es vs k t, (1 <= Wi)%nat -> (1 <= Wo)%nat -> mode = NGeometric \/ mode = NAreaRatio ->
  normalize_psi Hi Wi Ho Wo K nq quad cutoff tr merge mask eps mode es = Some vs ->
  gsum (lat_of Wi tr) (with_values es vs) (fun e => pv e * left_weight Wi quad tr merge (INR Wo / INR Wi) e) k t =
  gsum (lat_of Wi tr) es (fun e => pv e * qw Wi quad tr e) k t / Rmax ((1 - cos cutoff) / 4) eps.
Proof. intros Hi Wi Ho Wo K nq quad cutoff tr merge mask eps mode es vs k t W1 W2. exact (geometric_norm Hi Wi Ho Wo K nq quad cutoff tr merge mask eps (conj W1 W2) mode es vs k t). Qed.
(** documented as the area of the cap (its share of the sphere, as the weights sum to
    one); the factor is half of it, so a constant filter resolved exactly integrates to
    two *)
Theorem C38_geometric_area_refuted : exists Wi Ho quad cutoff es vs, let cap := RInt sin 0 cutoff / 2 in
  normalize_psi 1 Wi Ho Wi 1 1 quad cutoff false false None (/ 10 ^ 9) NGeometric es = Some vs /\ (forall e, In e es -> pv e = 1) /\
  gsum row es (qw Wi quad false) 0 0 = cap /\ gsum row (with_values es vs) (fun e => pv e * qw Wi quad false e) 0 0 = 2.
Proof.
  exists 1%nat, 1%nat, (fun _ => / 2), (PI / 2), [mkE 0 0 0 1]. destruct (normalize_psi 1 1 1 1 1 1 (fun _ => / 2) (PI / 2) false false None (/ 10 ^ 9) NGeometric [mkE 0 0 0 1]) as [vs|] eqn:E; [|discriminate].
  exists vs. cbn zeta. rewrite cap_area, cos_PI2. split; [reflexivity|]. split; [intros e [<-|[]]; reflexivity|]. split; [unfold gsum, qw; cbn; lra|].
  pose proof (C38_geometric 1 1 1 1 1 1 (fun _ => / 2) (PI / 2) false false None (/ 10 ^ 9) NGeometric [mkE 0 0 0 1] vs 0 0 (le_n _) (le_n _) (or_introl eq_refl) E) as G. cbn [lat_of left_weight] in G.
  change (gsum (fun e => row e) ?a ?b ?c ?d) with (gsum row a b c d) in G. etransitivity; [exact G|]. rewrite cos_PI2, Rmax_left by lra. unfold gsum, qw. cbn. lra.
Qed.
(** none: only the quadrature weight *)
Theorem C38_none : forall Hi Wi Ho Wo K nq quad cutoff tr merge mask eps es vs, normalize_psi Hi Wi Ho Wo K nq quad cutoff tr merge mask eps NNone es = Some vs ->
  with_values es vs = map (fun e => mkE (ker e) (row e) (col e) (if merge then pv e * qw Wi quad tr e / (if tr then INR Wo / INR Wi else 1) else pv e)) es.
Proof. exact none_norm. Qed.
(** a nodally normalised layer never exceeds the bounds of its input, per kernel *)
Theorem C38_bounded : forall gl Hi Wi Ho Wo fb f gi go c es' roff qi qo es ps, (forall n i, (i < n)%nat -> 0 <= rw (gl n) i) -> (1 <= Wi)%nat -> (1 <= Wo)%nat -> built gl Hi Wi Ho Wo fb f gi go c false NNodal true es' roff qi qo es ->
  forall x M k t q, (forall h w, Rabs (x h w) <= M) -> (t < Ho)%nat -> Rabs (disco_sum Wi ps es' x k t q) <= M.
Proof. exact nodal_bounded. Qed.
(** and reproduces constants with non-negative basis functions; the transposed layer does
    so on average over the longitudes *)
Theorem C38_constant : forall gl Hi Wi Ho Wo fb f gi go c es' roff qi qo es ps, (forall n i, (i < n)%nat -> 0 <= rw (gl n) i) -> (1 <= Wi)%nat -> (1 <= Wo)%nat -> built gl Hi Wi Ho Wo fb f gi go c false NNodal true es' roff qi qo es ->
  forall a k t q, (t < Ho)%nat -> (forall e, In e es -> ker e = k -> row e = t -> 0 <= pv e) -> / 10 ^ 9 <= gsum row es (fun e => pv e * (rw qi (col e / Wi)%nat / INR Wi / 2)) k t ->
  disco_sum Wi ps es' (fun _ _ => a) k t q = a.
Proof. exact nodal_constant. Qed.
Theorem C38_transposed_constant : forall gl Hi Wi Ho Wo fb f gi go c es' roff qi qo es, (forall n i, (i < n)%nat -> 0 <= rw (gl n) i) -> (1 <= Wi)%nat -> (1 <= Wo)%nat -> built gl Ho Wo Hi Wi fb f go gi c true NNodal true es' roff qo qi es ->
  forall a k h, (h < Ho)%nat -> (forall e, In e es -> ker e = k -> (col e / Wo = h)%nat -> 0 <= pv e) -> / 10 ^ 9 <= gsum (fun e => col e / Wo)%nat es (fun e => pv e * (rw qi (row e) / INR Wo / 2)) k h ->
  rsum Wo (fun j => disco_adjoint_sum Wo (Wo / Wi) Wi es' (fun k' _ _ => if (k' =? k)%nat then a else 0) h j) / INR Wo = a.
Proof. exact nodal_tconstant. Qed.
(** in particular the centre function of a piecewise linear basis on one grid *)
Theorem C38_centre_constant : forall gl H W nr nphi ks fb g c es' roff q q' es, (forall n i, (i < n)%nat -> 0 <= rw (gl n) i) -> (1 <= W)%nat -> (nr mod 2 = 1)%nat -> pl_shape ks nr nphi -> (1 <= nphi)%nat -> pl_basis ks = Some fb -> 0 < c ->
  built gl H W H W fb (pl_fun nr nphi) g g c false NNodal true es' roff q q' es ->
  forall a t p, (t < H)%nat -> / 10 ^ 9 <= rw q t / INR W / 2 -> disco_sum W 1 es' (fun _ _ => a) 0 t p = a.
Proof. exact centre_constant. Qed.

(** ** C51 *)
(** the rotated coordinates are distance and bearing *)
Theorem C51_polar : forall gamma beta lat_out, polar_about lat_out (gamma, beta) (g_theta gamma beta lat_out) (g_phi gamma beta lat_out).
Proof. exact g_polar. Qed.
(** whatever the constructors build samples the basis functions within the cutoff (times
    1.001), sorted, in range, normalised as asked *)
Theorem C51_convolution : forall gl Hi Wi Ho Wo fb f gi go cut mode es', basis_of fb f -> conv_psi gl Hi Wi Ho Wo fb gi go cut mode = Some es' -> (1 <= Wi)%nat ->
  exists c qi qo es roff, 0 < c /\ (forall x, cut = Some x -> c = x) /\ (cut = None -> c = PI / (INR Ho - 1)) /\ (1 <= Wi)%nat /\ (1 <= Wo)%nat /\ (Wi mod Wo = 0)%nat /\ (1 <= Ho)%nat /\ built gl Hi Wi Ho Wo fb f gi go c false mode true es' roff qi qo es.
Proof. exact conv_built. Qed.
Theorem C51_transposed : forall gl Hi Wi Ho Wo fb f gi go cut mode es', basis_of fb f -> tconv_psi gl Hi Wi Ho Wo fb gi go cut mode = Some es' -> (1 <= Wo)%nat ->
  exists c qi qo es roff, 0 < c /\ (forall x, cut = Some x -> c = x) /\ (cut = None -> c = PI / (INR Hi - 1)) /\ (1 <= Wi)%nat /\ (1 <= Wo)%nat /\ (Wo mod Wi = 0)%nat /\ built gl Ho Wo Hi Wi fb f go gi c true mode true es' roff qo qi es.
Proof. exact tconv_built. Qed.
(** the library's bases qualify *)
Theorem C51_piecewise_linear : forall ks nr nphi fb, pl_shape ks nr nphi -> (1 <= nphi)%nat -> pl_basis ks = Some fb -> basis_of fb (pl_fun nr nphi) /\ mask_ok fb.
Proof. exact pl_basis_of. Qed.
Theorem C51_harmonic : forall ks k0 k1 norm fb, ks = KList [k0; k1] \/ (ks = KInt k0 /\ k1 = k0) -> hm_basis ks norm = Some fb ->
  exists nm, (forall k, (k < fb_size fb)%nat -> 0 < nm k) /\ basis_of fb (hm_fun k0 k1 nm) /\ basis_full fb /\ mask_ok fb.
Proof. exact hm_basis_of. Qed.
Theorem C51_zernike : forall ks N fb, ks = KInt N \/ (exists l, ks = KList (N :: l)) -> INR N <= 10 ^ 24 -> zk_basis ks = Some fb -> basis_of fb (zk_fun N) /\ basis_full fb /\ mask_ok fb /\ fb_size fb = length (zernike_orders N).
Proof. exact zk_basis_of. Qed.
Theorem C51_fourier_bessel : forall jn jz ks nmax mmax fb, (1 <= nmax)%nat -> (ks = KInt nmax /\ mmax = nmax) \/ (ks = KList [nmax] /\ mmax = nmax) \/ ks = KList [nmax; mmax] -> bessel_zeros jn jz nmax -> fbs_basis jn jz ks = Some fb ->
  exists es, fb_size fb = length es /\ basis_of fb (fbs_fun jn es) /\ basis_full fb /\ mask_ok fb.
Proof. exact fbs_basis_of. Qed.
(** with a basis of common support the result meets what the kernels need (C34, C35) *)
Theorem C51_layer : forall gl Hi Wi Ho Wo fb f gi go c tr mode merge es' roff qi qo es G Og Cg weight bias, built gl Hi Wi Ho Wo fb f gi go c tr mode merge es' roff qi qo es -> basis_full fb ->
  (1 <= fb_size fb)%nat -> (2 <= Ho)%nat -> (1 <= Wi)%nat -> (1 <= Wo)%nat -> (Wi mod Wo = 0)%nat -> (1 <= G)%nat -> shp weight = [G * Og; Cg; fb_size fb]%nat -> bias_ok bias (G * Og) ->
  reached Hi Wi (rn qi) (rn qo) ((1 + 1 / 1000) * c) 0 -> reached Hi Wi (rn qi) (rn qo) ((1 + 1 / 1000) * c) (Ho - 1) ->
  layer_ok (fb_size fb) Hi Wi Ho Wo G Og Cg weight bias es'.
Proof. exact built_layer_ok. Qed.
Theorem C51_zernike_layer : forall gl H W N fb, (2 <= H)%nat -> (1 <= W)%nat -> (1 <= N)%nat -> INR N <= 10 ^ 24 -> zk_basis (KInt N) = Some fb -> forall mode weight bias G Og Cg, mode <> NUnknown -> (1 <= G)%nat -> shp weight = [G * Og; Cg; fb_size fb]%nat -> bias_ok bias (G * Og) ->
  exists es, conv_psi gl H W H W fb GEquiangular GEquiangular None mode = Some es /\ layer_ok (fb_size fb) H W H W G Og Cg weight bias es.
Proof. exact zernike_same_grid. Qed.

(** ** C52 *)
(** the neighbours of every output point are exactly the input points within the cutoff
    (times 1.001), each once, in either direction; the pattern is what the kernels need *)
Theorem C52_neighbours : forall gl Hi Wi Ho Wo gi go cut quad cols roff, na_pattern gl Hi Wi Ho Wo gi go cut = Some (quad, cols, roff) ->
  exists c qi qo P, 0 < c /\ (forall x, cut = Some x -> c = x) /\ (cut = None -> c = PI / (INR (if (Wi mod Wo =? 0)%nat then Ho else Hi) - 1)) /\
    precompute_latitudes gl Hi gi = Some qi /\ precompute_latitudes gl Ho go = Some qo /\ cols = columns P /\ roff = offsets 0 P /\
    (1 <= Wi)%nat /\ (1 <= Wo)%nat /\ (Wi mod Wo = 0 \/ Wo mod Wi = 0)%nat /\ (if (Wi mod Wo =? 0)%nat then pattern_ok P Ho (Hi * Wi) else pattern_ok P Hi (Ho * Wo)) /\
    (forall i, quad i = 2 * PI * rw qi i / INR Wi) /\
    (forall ho wo, (ho < Ho)%nat -> (wo < Wo)%nat -> NoDup (nbrs P Hi Wi Wo ho wo) /\
      forall p, In p (nbrs P Hi Wi Wo ho wo) <-> (fst p < Hi)%nat /\ (snd p < Wi)%nat /\ gcdist (rn qi (fst p), lon Wi (snd p)) (rn qo ho, lon Wo wo) <= (1 + 1 / 1000) * c) /\
    ((Wi mod Wo = 0)%nat -> forall ho wo, (ho < Ho)%nat -> (wo < Wo)%nat -> nbrs P Hi Wi Wo ho wo <> []).
Proof. exact na_neighbours. Qed.
(** upsampling does not check this: here the equator has no neighbours *)
Theorem C52_uncovered_refuted : forall gl, exists quad P, na_pattern gl 2 1 3 2 GEquiangular GEquiangular (Some (PI / 10)) = Some (quad, columns P, offsets 0 P) /\ nbrs P 2 1 2 1 0 = [].
Proof. exact uncovered. Qed.

(** hypotheses are met *)
Example norm_case : exists vs, normal_input 1 2 1 2 1 1 (fun _ => / 2) false [mkE 0 0 0 1; mkE 0 0 1 3] /\
  normalize_psi 1 2 1 2 1 1 (fun _ => / 2) 1 false true None (/ 10 ^ 9) NNodal [mkE 0 0 0 1; mkE 0 0 1 3] = Some vs /\
  / 10 ^ 9 <= gsum (lat_of 2 false) [mkE 0 0 0 1; mkE 0 0 1 3] (fun e => Rabs (pv e) * qw 2 (fun _ => / 2) false e) 0 0 /\
  gsum (lat_of 2 false) (with_values [mkE 0 0 0 1; mkE 0 0 1 3] vs) (fun e => pv e * 1) 0 0 = 1.
Proof.
  assert (NI : normal_input 1 2 1 2 1 1 (fun _ => / 2) false [mkE 0 0 0 1; mkE 0 0 1 3]).
  { split; [|split; [intros; lra|lia]]. intros e [<-|[<-|[]]]; cbn; lia. }
  destruct (normalize_psi 1 2 1 2 1 1 (fun _ => / 2) 1 false true None (/ 10 ^ 9) NNodal [mkE 0 0 0 1; mkE 0 0 1 3]) as [vs|] eqn:E; [|discriminate]. exists vs. split; [exact NI|]. split; [reflexivity|].
  assert (S : / 10 ^ 9 <= gsum (lat_of 2 false) [mkE 0 0 0 1; mkE 0 0 1 3] (fun e => Rabs (pv e) * qw 2 (fun _ => / 2) false e) 0 0) by (unfold gsum, qw; cbn; rewrite !Rabs_right by lra; lra). split; [exact S|].
  destruct (C38_nodal 1 2 1 2 1 1 (fun _ => / 2) 1 false true None (/ 10 ^ 9) NNodal _ vs 0 0 NI eps_pos (or_introl eq_refl) E ltac:(cbn; lia)) as (_ & _ & X). apply X; auto. intros e [<-|[<-|[]]]; cbn; lra.
Qed.
(** a 3 x 4 layer with a piecewise linear basis on a trapezoidal grid reproduces constants *)
Example layer_case : forall gl, (forall n i, (i < n)%nat -> 0 <= rw (gl n) i) -> exists fb es, pl_basis (KInt 1) = Some fb /\ conv_psi gl 3 4 3 4 fb GTrapezoidal GTrapezoidal (Some 1) NNodal = Some es /\
  forall a t q, (t < 3)%nat -> disco_sum 4 1 es (fun _ _ => a) 0 t q = a.
Proof.
  intros gl G. destruct (pl_basis (KInt 1)) as [fb|] eqn:EB; [|discriminate]. exists fb. destruct (pl_basis_of (KInt 1) 1 1 fb (or_introl (conj eq_refl eq_refl)) (le_n _) EB) as (B & MO).
  destruct (precompute_latitudes gl 3 GTrapezoidal) as [q|] eqn:Eq; [|discriminate]. assert (M : exists m, fb_mask fb = Some m) by (injection EB as <-; cbn; eauto). destruct M as (m & M).
  destruct (pre_total gl 3 4 3 4 fb (pl_fun 1 1) GTrapezoidal GTrapezoidal 1 false NNodal true q q m ltac:(lia) ltac:(lra) B Eq Eq ltac:(lia) M MO ltac:(discriminate)) as ((es, roff) & Er). { intros t r phi rc _ _ _ X. injection EB as <-. discriminate X. }
  exists es. split; [reflexivity|]. split. { unfold conv_psi. cbn [Nat.leb Nat.modulo Nat.divmod fst snd Nat.sub Nat.eqb andb guard bindo default_cutoff]. rewrite (proj2 (ResampleProofs.Rltb_true 0 1)) by lra. cbn [guard bindo]. rewrite Er. reflexivity. }
  intros a t p T. destruct (built_spec _ _ _ _ _ _ (pl_fun 1 1) _ _ _ _ _ _ _ _ (le_S _ _ (le_S _ _ (le_S _ _ (le_n 1)))) Rlt_0_1 B Er) as (qi & qo & es0 & BU).
  apply (C38_centre_constant gl 3 4 1 1 (KInt 1) fb GTrapezoidal 1 es roff qi qo es0 G ltac:(lia) eq_refl (or_introl (conj eq_refl eq_refl)) (le_n _) EB Rlt_0_1 BU); auto.
  assert (qi = q) by (pose proof (bu_i _ _ _ _ _ _ _ _ _ _ _ _ _ _ _ _ _ _ BU); congruence). subst qi. injection Eq as <-. unfold flip. cbn. destruct t as [|[|[|]]]; cbn; lra || lia.
Qed.

Print Assumptions C38_positions.
Print Assumptions C38_modes.
Print Assumptions C38_nodal.
Print Assumptions C38_modal.
Print Assumptions C38_mean.
Print Assumptions C38_support.
Print Assumptions C38_geometric.
Print Assumptions C38_geometric_area_refuted.
Print Assumptions C38_none.
Print Assumptions C38_bounded.
Print Assumptions C38_constant.
Print Assumptions C38_transposed_constant.
Print Assumptions C38_centre_constant.
Print Assumptions C51_polar.
Print Assumptions C51_convolution.
Print Assumptions C51_transposed.
Print Assumptions C51_piecewise_linear.
Print Assumptions C51_harmonic.
Print Assumptions C51_zernike.
Print Assumptions C51_fourier_bessel.
Print Assumptions C51_layer.
Print Assumptions C51_zernike_layer.
Print Assumptions C52_neighbours.
Print Assumptions C52_uncovered_refuted.
