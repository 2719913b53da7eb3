(** The filter bases through get_filter_basis. *)
From Coq Require Import List Arith ZArith Lia Bool Reals Lra Permutation.
From Verif Require Import TensorModel BigSum ResampleModel ResampleProofs FilterModel FilterSpec AttnGradProofs AttnUpProofs AttnOpValProofs AttnPropProofs FilterProofs FilterPLProofs FilterPLTotal FilterBasesProofs FilterBases2Proofs.
Import ListNotations.
Local Open Scope R_scope.

Section Api.
Variables (jn : nat -> R -> R) (jz : nat -> nat -> list R).
(** the kernel shapes (nr, nphi) accepted by the piecewise linear basis *)
Definition pl_shape (ks : kshape) (nr nphi : nat) : Prop := (ks = KInt nr /\ nphi = 1%nat) \/ (ks = KList [nr] /\ nphi = 1%nat) \/ ks = KList [nr; nphi].
Lemma pl_get : forall ks fb, get_filter_basis jn jz ks BPiecewise = Some fb <->
  exists nr nphi, pl_shape ks nr nphi /\ fb = mkFB (pl_size nr nphi) (Some (pl_mask nr nphi)) (fun H W r phi rc => Some (pl_support nr nphi H W r phi rc)).
Proof.
  intros ks fb. cbn [get_filter_basis]. unfold pl_basis, pl_shape. split.
  - intros E. destruct ks as [n|[|n [|m [|x l]]]]; cbn [pl_init bindo] in E; try discriminate; injection E as <-; eexists; eexists; split; eauto.
  - intros (nr & nphi & S & ->). destruct S as [(-> & ->)|[(-> & ->)| ->]]; reflexivity.
Qed.
Theorem pl_api : forall ks nr nphi, pl_shape ks nr nphi -> (1 <= nphi)%nat -> exists fb, get_filter_basis jn jz ks BPiecewise = Some fb /\
  forall rc, 0 < rc -> let cs := centres nr nphi rc in
    fb_size fb = length cs /\ NoDup cs /\
    (forall H W r phi, polar H W r phi -> exists s, fb_support fb H W r phi rc = Some s /\
       represents s (fb_size fb) H W r phi rc (fun k => tent nr nphi rc (nth k cs (0, None))) /\
       (forall e, In e s -> 0 <= snd e <= 1) /\
       (forall i j, (1 <= nr)%nat -> (nr mod 2 = 1 \/ 2 <= nphi)%nat -> (i < H)%nat -> (j < W)%nat -> r i j <= rc -> total_at s i j = Rmin 1 ((rc - r i j) / (2 * rc / (INR nr + 1))))) /\
    exists m, fb_mask fb = Some m /\ length m = fb_size fb /\ forall k, (k < fb_size fb)%nat ->
      (nth k m false = true <-> forall r p q, tent nr nphi rc (nth k cs (0, None)) r p = tent nr nphi rc (nth k cs (0, None)) r q).
Proof.
  intros ks nr nphi S Hn. eexists. split; [apply pl_get; exists nr, nphi; split; [exact S|reflexivity]|]. intros rc Hrc cs. cbn [fb_size fb_mask fb_support].
  assert (L : pl_size nr nphi = length cs) by (symmetry; apply centres_length; auto). split; [exact L|]. split; [apply centres_NoDup; auto|]. split.
  - intros H W r phi P. eexists. split; [reflexivity|]. pose proof (pl_ok nr nphi rc Hn Hrc H W r phi P) as R0. rewrite L. split; [exact R0|]. split.
    + intros (((k, i), j), v) I. cbn [snd]. destruct (proj1 (proj2 R0) _ _ _ _ I) as (Hk & Hi & Hj & _ & ->). apply tent_bounds; auto; [apply nth_In; auto|apply P; auto].
    + intros i j Hr Ho Hi Hj Hle. rewrite (represents_total _ _ _ _ _ _ _ _ R0 i j Hi Hj Hle), tot_nth. destruct (P i j Hi Hj) as (P1 & P2).
      rewrite tot_spec; auto; [|destruct Ho as [Ho|Ho]; [left; apply Nat.eqb_eq; auto|right; auto]]. f_equal. f_equal. pose proof (pos_INR nr). field. lra.
  - eexists. split; [reflexivity|]. rewrite L. apply mask_spec; auto.
Qed.
Theorem pl_even_iso_refuted : exists ks nr nphi, pl_shape ks nr nphi /\ (1 <= nr)%nat /\ (1 <= nphi)%nat /\
  exists fb s, get_filter_basis jn jz ks BPiecewise = Some fb /\ fb_support fb 1 1 (fun _ _ => 0) (fun _ _ => 0) 1 = Some s /\ total_at s 0 0 = / 2 /\ Rmin 1 ((1 - 0) / (2 * 1 / (INR nr + 1))) = 1.
Proof.
  exists (KInt 2), 2%nat, 1%nat. split; [left; auto|]. split; [lia|]. split; [lia|]. destruct (pl_api (KInt 2) 2 1) as (fb & E & A); [left; auto|lia|]. specialize (A 1 Rlt_0_1). cbv zeta in A. destruct A as (L & _ & A & _).
  destruct (A 1%nat 1%nat (fun _ _ => 0) (fun _ _ => 0)) as (s & Es & R0 & _). { intros i j _ _. pose proof PI_RGT_0. lra. } exists fb, s. split; [auto|]. split; [auto|]. split.
  - rewrite (represents_total _ _ _ _ _ _ _ _ R0 0 0) by (try lia; lra). rewrite L, tot_nth. apply tot_even_iso; auto; lra.
  - simpl. rewrite Rmin_left; lra.
Qed.
Theorem hm_api : forall ks k0 k1 (morlet : bool), ks = KList [k0; k1] \/ (ks = KInt k0 /\ k1 = k0) -> exists fb, get_filter_basis jn jz ks (if morlet then BMorlet else BHarmonic) = Some fb /\
  fb_size fb = length (pairs k0 k1) /\ NoDup (pairs k0 k1) /\
  exists nm : nat -> R,
    (forall k, (k < fb_size fb)%nat -> 0 < nm k) /\
    (forall rc H W r phi, 0 < rc -> exists s, fb_support fb H W r phi rc = Some s /\
       represents s (fb_size fb) H W r phi rc (fun k r phi => harmonic rc (nth k (pairs k0 k1) (0, 0)%nat) r phi / nm k)) /\
    (forall k, (k < fb_size fb)%nat -> if morlet then nm k = 1 else
       / 10 ^ 12 <= sqrt (disk_norm2 (harmonic 1 (nth k (pairs k0 k1) (0, 0)%nat)) 50 200) -> disk_norm2 (fun r p => harmonic 1 (nth k (pairs k0 k1) (0, 0)%nat) r p / nm k) 50 200 = 1) /\
    forall m, fb_mask fb = Some m -> length m = fb_size fb /\ forall k rc, (k < fb_size fb)%nat -> 0 < rc ->
      (nth k m false = true <-> forall r p q, 0 <= r <= rc -> harmonic rc (nth k (pairs k0 k1) (0, 0)%nat) r p = harmonic rc (nth k (pairs k0 k1) (0, 0)%nat) r q).
Proof.
  intros ks k0 k1 mo S. assert (I : hm_init ks = Some (k0, k1)) by (destruct S as [->|(-> & ->)]; reflexivity).
  set (norms := if mo then None else Some (l2_norms (hm_support k0 k1 None))).
  exists (mkFB (hm_size k0 k1) (hm_mask k0 k1) (fun H W r phi rc => Some (hm_support k0 k1 norms H W r phi rc))).
  split; [destruct mo; cbn [get_filter_basis]; unfold hm_basis; rewrite I; reflexivity|]. cbn [fb_size fb_mask fb_support]. replace (hm_size k0 k1) with (length (pairs k0 k1)) by (rewrite pairs_length; reflexivity).
  split; [auto|]. split; [apply pairs_NoDup|]. assert (T : 0 < / 10 ^ 12) by (apply Rinv_0_lt_compat, pow_lt; lra).
  exists (fun k => match norms with None => 1 | Some nm => Rmax (nm k) (/ 10 ^ 12) end). split; [|split; [|split]].
  - intros k _. destruct norms; [|lra]. pose proof (Rmax_r (r k) (/ 10 ^ 12)). lra.
  - intros rc H W r phi Hrc. eexists. split; [reflexivity|]. pose proof (hm_ok k0 k1 norms H W r phi rc Hrc) as (A & B & C). split; [auto|]. split.
    + intros k i j v Iv. destruct (B k i j v Iv) as (? & ? & ? & ? & ->). repeat split; auto. unfold scaled. destruct norms; [auto|lra].
    + intros k i j Hk Hi Hj Hr Ni. rewrite <- (C k i j Hk Hi Hj Hr Ni). unfold scaled. destruct norms; [auto|lra].
  - intros k Hk. subst norms. destruct mo; [auto|]. intros Hc. apply (hm_normalised k0 k1 k Hk Hc).
  - intros m Em. split; [apply (hm_mask_spec k0 k1 1 m Em Rlt_0_1)|]. intros k rc Hk Hrc. apply (hm_mask_spec k0 k1 rc m Em Hrc); auto.
Qed.
Theorem zk_api : forall ks N, ks = KInt N \/ (exists l, ks = KList (N :: l)) -> exists fb, get_filter_basis jn jz ks BZernike = Some fb /\
  fb_size fb = length (zernike_orders N) /\ NoDup (zernike_orders N) /\
  fb_mask fb = Some (map (fun nm => (snd nm =? 0)%Z) (zernike_orders N)) /\
  (forall rc H W r phi s, fb_support fb H W r phi rc = Some s -> INR N <= 10 ^ 24 -> represents s (fb_size fb) H W r phi rc (fun k => zernike rc (nth k (zernike_orders N) (0%nat, 0%Z)))) /\
  (forall rc H W r phi, fb_support fb H W r phi rc = None <-> N = 0%nat \/ forall i j, (i < H)%nat -> (j < W)%nat -> rc < r i j).
Proof.
  intros ks N S. assert (I : zk_init ks = Some N) by (destruct S as [->|(l & ->)]; reflexivity). exists (mkFB (zk_size N) (Some (zk_mask N)) (zk_support N)).
  split; [cbn [get_filter_basis]; unfold zk_basis; rewrite I; reflexivity|]. cbn [fb_size fb_mask fb_support]. rewrite zk_size_tri, <- orders_length. split; [auto|]. split; [apply orders_NoDup|]. split; [f_equal; apply zk_mask_spec|]. split; [intros; apply zk_ok; auto|intros; apply zk_raises].
Qed.
Theorem fbs_api : forall ks nmax mmax, (1 <= nmax)%nat -> (ks = KInt nmax /\ mmax = nmax) \/ (ks = KList [nmax] /\ mmax = nmax) \/ ks = KList [nmax; mmax] -> bessel_zeros jn jz nmax ->
  exists fb es, get_filter_basis jn jz ks BFourierBessel = Some fb /\ fb_size fb = length es /\
  NoDup (map key es) /\ ascending (map be_alpha es) /\ (forall e, In e (map key es) <-> wanted (fun m => jz m nmax) nmax mmax (last (jz 0%nat nmax) 0) e) /\
  fb_mask fb = Some (map (fun e => (be_m e =? 0)%nat) es) /\
  (forall rc H W r phi, exists s, fb_support fb H W r phi rc = Some s /\ represents s (fb_size fb) H W r phi rc (fun k => fb_fun jn rc (nth k es (mkB 0 0 0 true)))) /\
  (forall k rc phi, (k < length es)%nat -> 0 < rc -> fb_fun jn rc (nth k es (mkB 0 0 0 true)) rc phi = 0).
Proof.
  intros ks nmax mmax Hn S HZ. assert (I : fbs_init ks = Some (nmax, mmax)) by (destruct S as [(-> & ->)|[(-> & ->)| ->]]; reflexivity).
  assert (X : exists es, fbs_index jz nmax mmax = Some es). { unfold fbs_index. destruct (HZ 0%nat) as (L & _). destruct (jz 0%nat nmax); [cbn in L; lia|]. eexists. reflexivity. } destruct X as (es & E).
  eexists. exists es. split; [cbn [get_filter_basis]; unfold fbs_basis; rewrite I; cbn [bindo]; rewrite E; reflexivity|]. cbn [fb_size fb_mask fb_support]. split; [auto|]. destruct (fbs_index_spec jn jz nmax mmax es HZ E) as (A & B & C).
  split; [auto|]. split; [auto|]. split; [auto|]. split; [auto|]. split.
  - intros rc H W r phi. eexists. split; [reflexivity|]. apply fbs_ok.
  - intros. eapply fb_edge; eauto.
Qed.
(** the docstring of get_filter_basis promises 16 *)
Theorem doc_size_refuted : exists fb, get_filter_basis jn jz (KList [5; 4]%nat) BPiecewise = Some fb /\ fb_size fb = 9%nat.
Proof. eexists. split; reflexivity. Qed.
Theorem unknown_rejected : forall ks, get_filter_basis jn jz ks BUnknown = None /\ (forall b n m p l, b = BPiecewise \/ b = BHarmonic \/ b = BFourierBessel \/ b = BMorlet -> ks = KList (n :: m :: p :: l) -> get_filter_basis jn jz ks b = None).
Proof. intros. split; [reflexivity|]. intros b n m p l B ->. destruct B as [->|[->|[->| ->]]]; reflexivity. Qed.
End Api.
