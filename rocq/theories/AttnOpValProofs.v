(** The attention operators compute the specified averages, and their backward
    operators the derivatives. *)
From Coq Require Import List Arith Lia Bool Reals Lra.
From Coquelicot Require Import Coquelicot.
From Verif Require Import TensorModel TensorProofs BigSum DistSpectralProofs DiscoModel DiscoSortProofs DiscoTensorProofs
  AttnModel AttnSpec AttnCoreProofs AttnKernelProofs AttnUpProofs AttnGradProofs AttnBwdProofs AttnCpuBwdProofs AttnCpuUpBwdProofs AttnOpProofs.
Import ListNotations.
Local Open Scope nat_scope.

(** the folded field of a packed tensor *)
Definition ffld (nh C : nat) (t : tensor R) : fld := fun bb y x c => val t [bb / nh; y; x; bb mod nh * C + c].
Lemma fold_idx : forall nh b n, n < nh -> (b * nh + n) / nh = b /\ (b * nh + n) mod nh = n.
Proof. intros. split; symmetry; [apply (Nat.div_unique _ _ _ n)|apply (Nat.mod_unique _ _ b)]; lia. Qed.
Lemma unfold_idx : forall nh B bb, 1 <= nh -> bb < B * nh -> bb / nh < B /\ bb mod nh < nh /\ bb / nh * nh + bb mod nh = bb.
Proof.
  intros. split; [apply Nat.div_lt_upper_bound; lia|]. split; [apply Nat.mod_upper_bound; lia|]. pose proof (Nat.div_mod bb nh). lia.
Qed.
Lemma folded_ffld : forall B nh H W C t f, 1 <= nh -> folded B nh H W C t f ->
  forall bb y x c, bb < B * nh -> y < H -> x < W -> c < C -> f bb y x c = ffld nh C t bb y x c.
Proof.
  intros B nh H W C t f Hn F bb y x c Hb Hy Hx Hc. destruct (unfold_idx nh B bb Hn Hb) as (L1 & L2 & E). unfold ffld.
  rewrite <- E at 1. apply F; auto.
Qed.
Lemma ffld_head : forall nh C t b n y x c, n < nh -> ffld nh C t (b * nh + n) y x c = head t C b n y x c.
Proof. intros. unfold ffld, head. destruct (fold_idx nh b n H) as (-> & ->). reflexivity. Qed.

(** ** Extensionality *)
Definition nin (Hi Wi : nat) (N : list (nat * nat)) : Prop := forall p, In p N -> fst p < Hi /\ snd p < Wi.
Lemma score_ext : forall Ck k k' q q' ho wo p, (forall c, c < Ck -> k (fst p) (snd p) c = k' (fst p) (snd p) c) ->
  (forall c, c < Ck -> q ho wo c = q' ho wo c) -> score Ck k q ho wo p = score Ck k' q' ho wo p.
Proof. intros. unfold score. apply rsum_ext'. intros. rewrite H, H0 by auto. reflexivity. Qed.
Lemma attn_at_ext : forall Ck Cv quad N Hi Wi Ho Wo k v q k' v' q' ho wo c, nin Hi Wi N ->
  (forall h w c, h < Hi -> w < Wi -> c < Ck -> k h w c = k' h w c) ->
  (forall h w c, h < Hi -> w < Wi -> c < Cv -> v h w c = v' h w c) ->
  (forall h w c, h < Ho -> w < Wo -> c < Ck -> q h w c = q' h w c) -> ho < Ho -> wo < Wo -> c < Cv ->
  attn_at Ck quad N k v q ho wo c = attn_at Ck quad N k' v' q' ho wo c.
Proof.
  intros Ck Cv quad N Hi Wi Ho Wo k v q k' v' q' ho wo c HN Hk Hv Hq Hh Hw Hc. unfold attn_at. apply softmax_avg_ext. intros p Hp.
  destruct (HN p Hp). split; [|split; [reflexivity|apply Hv; auto]]. apply score_ext; auto.
Qed.
Lemma rlsum_ext' : forall X (f g : X -> R) l, (forall x, In x l -> f x = g x) -> rlsum f l = rlsum g l.
Proof. intros. apply lsum_ext. auto. Qed.

Section GExt.
Variables (Ck Cv Hi Wi Ho Wo : nat) (quad : nat -> R) (N : nat -> nat -> list (nat * nat)).
Hypothesis HN : forall ho wo, ho < Ho -> wo < Wo -> nin Hi Wi (N ho wo).
Variables (B : nat) (k v q dy k' v' q' dy' : fld).
Hypothesis Hk : forall b h w c, b < B -> h < Hi -> w < Wi -> c < Ck -> k b h w c = k' b h w c.
Hypothesis Hv : forall b h w c, b < B -> h < Hi -> w < Wi -> c < Cv -> v b h w c = v' b h w c.
Hypothesis Hq : forall b h w c, b < B -> h < Ho -> w < Wo -> c < Ck -> q b h w c = q' b h w c.
Hypothesis Hdy : forall b h w c, b < B -> h < Ho -> w < Wo -> c < Cv -> dy b h w c = dy' b h w c.
Lemma g_score : forall b ho wo p, b < B -> ho < Ho -> wo < Wo -> In p (N ho wo) -> score Ck (k b) (q b) ho wo p = score Ck (k' b) (q' b) ho wo p.
Proof. intros b ho wo p Hb Hh Hw Hp. destruct (HN ho wo Hh Hw p Hp). apply score_ext; auto. Qed.
Lemma g_den_ext : forall b ho wo, b < B -> ho < Ho -> wo < Wo -> g_den Ck quad N k q b ho wo = g_den Ck quad N k' q' b ho wo.
Proof. intros b ho wo Hb Hh Hw. unfold g_den, softmax_den. apply rlsum_ext'. intros p Hp. rewrite g_score; auto. Qed.
Lemma g_prob_ext : forall b ho wo p, b < B -> ho < Ho -> wo < Wo -> In p (N ho wo) -> g_prob Ck quad N k q b ho wo p = g_prob Ck quad N k' q' b ho wo p.
Proof. intros. unfold g_prob. rewrite g_score, g_den_ext by auto. reflexivity. Qed.
Lemma g_dot_ext : forall b ho wo p, b < B -> ho < Ho -> wo < Wo -> In p (N ho wo) -> g_dot Cv v dy b ho wo p = g_dot Cv v' dy' b ho wo p.
Proof.
  intros b ho wo p Hb Hh Hw Hp. destruct (HN ho wo Hh Hw p Hp). unfold g_dot. apply rsum_ext'. intros. rewrite Hdy, Hv by auto. reflexivity.
Qed.
Lemma g_wt_ext : forall b ho wo p, b < B -> ho < Ho -> wo < Wo -> In p (N ho wo) -> g_wt Ck Cv quad N k v q dy b ho wo p = g_wt Ck Cv quad N k' v' q' dy' b ho wo p.
Proof.
  intros b ho wo p Hb Hh Hw Hp. unfold g_wt. rewrite g_prob_ext, g_dot_ext by auto. f_equal. f_equal. unfold g_bar. apply rlsum_ext'.
  intros p' Hp'. rewrite g_prob_ext, g_dot_ext by auto. reflexivity.
Qed.
Lemma GV_ext : forall b h w c, b < B -> c < Cv -> GV Ck Ho Wo quad N k q dy b h w c = GV Ck Ho Wo quad N k' q' dy' b h w c.
Proof.
  intros b h w c Hb Hc. unfold GV. apply rsum_ext'. intros ho Hh. apply rsum_ext'. intros wo Hw. apply rlsum_ext'. intros p Hp.
  destruct (pt_eqb (h, w) p); [|reflexivity]. rewrite g_prob_ext, Hdy by auto. reflexivity.
Qed.
Lemma GK_ext : forall b h w c, b < B -> c < Ck -> GK Ck Cv Ho Wo quad N k v q dy b h w c = GK Ck Cv Ho Wo quad N k' v' q' dy' b h w c.
Proof.
  intros b h w c Hb Hc. unfold GK. apply rsum_ext'. intros ho Hh. apply rsum_ext'. intros wo Hw. apply rlsum_ext'. intros p Hp.
  destruct (pt_eqb (h, w) p); [|reflexivity]. rewrite g_wt_ext, Hq by auto. reflexivity.
Qed.
Lemma GQ_ext : forall b ho wo c, b < B -> ho < Ho -> wo < Wo -> c < Ck -> GQ Ck Cv quad N k v q dy b ho wo c = GQ Ck Cv quad N k' v' q' dy' b ho wo c.
Proof.
  intros b ho wo c Hb Hh Hw Hc. unfold GQ. apply rlsum_ext'. intros p Hp. destruct (HN ho wo Hh Hw p Hp).
  rewrite g_wt_ext, Hk by auto. reflexivity.
Qed.
End GExt.

Lemma pairing_ip : forall B nh H W C x y, 1 <= nh ->
  pairing B H W (nh * C) x y = ip (B * nh) H W C (ffld nh C x) (ffld nh C y).
Proof.
  intros B nh H W C x y Hn. unfold pairing, ip. rewrite (bsum_mul_range RT B nh). apply rsum_ext'. intros b _.
  rewrite (bsum_swap RT nh H). apply rsum_ext'. intros h _. rewrite (bsum_swap RT nh W). apply rsum_ext'. intros w _.
  rewrite (bsum_mul_range RT nh C). apply rsum_ext'. intros n Hn'. apply rsum_ext'. intros c _. rewrite !ffld_head by auto. reflexivity.
Qed.
Lemma ip_ext : forall B H W D x y x' y', (forall b h w d, b < B -> h < H -> w < W -> d < D -> x b h w d = x' b h w d /\ y b h w d = y' b h w d) ->
  ip B H W D x y = ip B H W D x' y'.
Proof.
  intros. unfold ip. apply rsum_ext'. intros. apply rsum_ext'. intros. apply rsum_ext'. intros. apply rsum_ext'. intros.
  destruct (H0 i i0 i1 i2) as (-> & ->); auto.
Qed.

Section Op.
Variables (B nh Ck Cv Hi Wi Ho Wo : nat) (quad : nat -> R) (P : pattern) (kw vw qw : tensor R).
Hypothesis OK : attn_ok B nh Ck Cv Hi Wi Ho Wo quad P kw vw qw.
Let N := nbrs P Hi Wi Wo.
Lemma op_nin : forall ho wo, ho < Ho -> wo < Wo -> nin Hi Wi (N ho wo).
Proof.
  destruct OK as [_ _ _ _ _ _ _ _ _ _ HP _ _]. intros ho wo Hh Hw p Hp. unfold N, nbrs in Hp. destruct (Wi mod Wo =? 0).
  - eapply rotated_in; [exact HP|exact Hp].
  - eapply scatter_in. exact Hp.
Qed.
(** any field that equals the attention of the folded fields is, unfolded, the specification *)
Lemma spec_of_folded : forall (kf vf qf y : fld) (r : tensor R),
  folded B nh Hi Wi Ck kw kf -> folded B nh Hi Wi Cv vw vf -> folded B nh Ho Wo Ck qw qf ->
  (forall b ho wo c, b < B * nh -> ho < Ho -> wo < Wo -> c < Cv -> y b ho wo c = attn_at Ck quad (N ho wo) (kf b) (vf b) (qf b) ho wo c) ->
  shp r = [B; Ho; Wo; nh * Cv] ->
  (forall b h x d, b < B -> h < Ho -> x < Wo -> d < nh * Cv -> val r [b; h; x; d] = y (b * nh + d / Cv) h x (d mod Cv)) ->
  teq r (attn_spec nh Ck Cv quad N Ho Wo kw vw qw).
Proof.
  intros kf vf qf y r Fk Fv Fq Hy Sr Vr. destruct OK as [_ Hn _ _ _ _ _ _ Sq _ _ _ _]. split.
  - unfold attn_spec. cbn [shp]. destruct (shape4 _ _ _ _ _ Sq) as (_ & -> & _). exact Sr.
  - intros i V. rewrite Sr in V. destruct (valid4 _ _ _ _ _ V) as (b & h & x & d & -> & Hb & Hh & Hx & Hd).
    rewrite Vr by auto. unfold attn_spec, attn_packed. cbn [val nth]. destruct (split_head d nh Cv Hd) as (L1 & L2 & E).
    rewrite Hy by (auto; nia). apply (attn_at_ext Ck Cv quad (N h x) Hi Wi Ho Wo); auto.
    + apply op_nin; auto.
    + intros. apply (folded_head B nh Hi Wi Ck kw); auto.
    + intros. apply (folded_head B nh Hi Wi Cv vw); auto.
    + intros. apply (folded_head B nh Ho Wo Ck qw); auto.
Qed.
Theorem attn_torch_spec : exists y, attn_torch kw vw qw quad (columns P) (offsets 0 P) nh Wi Ho Wo = Some y /\ teq y (attn_spec nh Ck Cv quad N Ho Wo kw vw qw).
Proof.
  pose proof OK as [HB Hn HHi HHo HWi HWo Sk Sv Sq Hd HP Hq Hne]. unfold attn_torch. rewrite (op_shapes_ok B nh Ck Cv Hi) by auto.
  cbn [bindo a_B a_Ck a_Cv a_Hi].
  destruct (to_cf_val B nh Hi Wi Ck kw) as (kt & -> & _ & Fk); auto. destruct (to_cf_val B nh Hi Wi Cv vw) as (vt & -> & _ & Fv); auto.
  destruct (to_cf_val B nh Ho Wo Ck qw) as (qt & -> & _ & Fq); auto. cbn [bindo].
  rewrite (proj2 (Nat.leb_le 1 Wi)), (proj2 (Nat.leb_le 1 Wo)) by auto. cbn [andb guard bindo].
  assert (K : exists y, (if Wi mod Wo =? 0
           then gather_fwd Ck Hi Wi Ho Wo quad (offsets 0 P) (columns P) (cf kt) (cf vt) (cf qt) (B * nh)
           else if Wo mod Wi =? 0
           then up_fwd Ck Hi Wi Ho Wo quad (offsets 0 P) (columns P) (cf kt) (cf vt) (cf qt) (B * nh)
           else None) = Some y /\ forall b ho wo c, b < B * nh -> ho < Ho -> wo < Wo ->
           y b ho wo c = attn_at Ck quad (N ho wo) (cf kt b) (cf vt b) (cf qt b) ho wo c).
  { unfold N, nbrs in *. destruct (Wi mod Wo =? 0) eqn:E.
    - apply Nat.eqb_eq in E. apply gather_fwd_spec; auto.
    - destruct Hd as [Hd|Hd]; [rewrite Hd in E; discriminate|]. rewrite Hd. cbn [Nat.eqb]. apply up_fwd_spec; auto. }
  destruct K as (y & -> & Vy). cbn [bindo]. destruct (of_cf_val B nh Ho Wo Cv y Hn) as (r & -> & Sr & Vr). exists r. split; [reflexivity|].
  apply (spec_of_folded (cf kt) (cf vt) (cf qt) y); auto.
Qed.
Theorem attn_cpu_spec : forall m0 BS junk, 1 <= BS ->
  exists y, attn_cpu m0 BS junk kw vw qw quad (columns P) (offsets 0 P) nh Wi Ho Wo = Some y /\ teq y (attn_spec nh Ck Cv quad N Ho Wo kw vw qw).
Proof.
  intros m0 BS junk HBS. pose proof OK as [HB Hn HHi HHo HWi HWo Sk Sv Sq Hd HP Hq Hne]. unfold attn_cpu. rewrite (op_shapes_ok B nh Ck Cv Hi) by auto.
  cbn [bindo a_B a_Ck a_Cv a_Hi].
  destruct (fold_heads_val B nh Hi Wi Ck kw) as (kt & -> & _ & Fk); auto. destruct (fold_heads_val B nh Hi Wi Cv vw) as (vt & -> & _ & Fv); auto.
  destruct (fold_heads_val B nh Ho Wo Ck qw) as (qt & -> & _ & Fq); auto.
  rewrite guard_true.
  2:{ rewrite (proj2 (Nat.leb_le 1 Wi)), (proj2 (Nat.leb_le 1 Wo)) by auto. cbn [andb]. apply orb_true_iff. rewrite !Nat.eqb_eq. exact Hd. }
  cbn [bindo].
  assert (K : exists y, (if Wi mod Wo =? 0
           then cpu_fwd Ck Cv Hi Wi Ho Wo quad (offsets 0 P) (columns P) (hwc kt) (hwc vt) (hwc qt) m0 BS junk (B * nh)
           else cpu_up_fwd Ck Cv Hi Wi Ho Wo quad (offsets 0 P) (columns P) (hwc kt) (hwc vt) (hwc qt) m0 BS junk (B * nh)) = Some y /\
           forall b ho wo c, b < B * nh -> ho < Ho -> wo < Wo -> c < Cv ->
           y b ho wo c = attn_at Ck quad (N ho wo) (hwc kt b) (hwc vt b) (hwc qt b) ho wo c).
  { unfold N, nbrs in *. destruct (Wi mod Wo =? 0) eqn:E.
    - apply Nat.eqb_eq in E. apply cpu_fwd_spec; auto.
    - destruct Hd as [Hd|Hd]; [rewrite Hd in E; discriminate|]. apply cpu_up_fwd_spec; auto. }
  destruct K as (y & -> & Vy). cbn [bindo]. destruct (unfold_heads_val B nh Ho Wo Cv y Hn) as (r & -> & Sr & Vr). exists r. split; [reflexivity|].
  apply (spec_of_folded (hwc kt) (hwc vt) (hwc qt) y); auto.
Qed.

(** ** Backward *)
Variable dyw : tensor R.
Hypothesis Sdy : shp dyw = [B; Ho; Wo; nh * Cv].
(** the three gradients, as packed tensors *)
Definition unpk (C : nat) (H W : nat) (g : fld) : tensor R :=
  mkT [B; H; W; nh * C] (fun i => g (nth 0 i 0 * nh + nth 3 i 0 / C) (nth 1 i 0) (nth 2 i 0) (nth 3 i 0 mod C)).
Definition dK := unpk Ck Hi Wi (GK Ck Cv Ho Wo quad N (ffld nh Ck kw) (ffld nh Cv vw) (ffld nh Ck qw) (ffld nh Cv dyw)).
Definition dV := unpk Cv Hi Wi (GV Ck Ho Wo quad N (ffld nh Ck kw) (ffld nh Ck qw) (ffld nh Cv dyw)).
Definition dQ := unpk Ck Ho Wo (GQ Ck Cv quad N (ffld nh Ck kw) (ffld nh Cv vw) (ffld nh Ck qw) (ffld nh Cv dyw)).
Lemma unpk_teq : forall C H W g y r, shp r = [B; H; W; nh * C] ->
  (forall b h x d, b < B -> h < H -> x < W -> d < nh * C -> val r [b; h; x; d] = y (b * nh + d / C) h x (d mod C)) ->
  (forall b h w c, b < B * nh -> h < H -> w < W -> c < C -> y b h w c = g b h w c) -> teq r (unpk C H W g).
Proof.
  intros C H W g y r Sr Vr E. split; [exact Sr|]. intros i V. rewrite Sr in V. destruct (valid4 _ _ _ _ _ V) as (b & h & x & d & -> & Hb & Hh & Hx & Hd).
  rewrite Vr by auto. unfold unpk. cbn [val nth]. destruct (split_head d nh C Hd) as (L1 & L2 & _). apply E; auto. nia.
Qed.
Lemma grads_of_folded : forall (kf vf qf dyf dk dv dq : fld) (rk rv rq : tensor R),
  folded B nh Hi Wi Ck kw kf -> folded B nh Hi Wi Cv vw vf -> folded B nh Ho Wo Ck qw qf -> folded B nh Ho Wo Cv dyw dyf ->
  (forall b h w c, b < B * nh -> h < Hi -> w < Wi -> dk b h w c = GK Ck Cv Ho Wo quad N kf vf qf dyf b h w c) ->
  (forall b h w c, b < B * nh -> h < Hi -> w < Wi -> dv b h w c = GV Ck Ho Wo quad N kf qf dyf b h w c) ->
  (forall b h w c, b < B * nh -> h < Ho -> w < Wo -> dq b h w c = GQ Ck Cv quad N kf vf qf dyf b h w c) ->
  shp rk = [B; Hi; Wi; nh * Ck] -> shp rv = [B; Hi; Wi; nh * Cv] -> shp rq = [B; Ho; Wo; nh * Ck] ->
  (forall b h x d, b < B -> h < Hi -> x < Wi -> d < nh * Ck -> val rk [b; h; x; d] = dk (b * nh + d / Ck) h x (d mod Ck)) ->
  (forall b h x d, b < B -> h < Hi -> x < Wi -> d < nh * Cv -> val rv [b; h; x; d] = dv (b * nh + d / Cv) h x (d mod Cv)) ->
  (forall b h x d, b < B -> h < Ho -> x < Wo -> d < nh * Ck -> val rq [b; h; x; d] = dq (b * nh + d / Ck) h x (d mod Ck)) ->
  teq rk dK /\ teq rv dV /\ teq rq dQ.
Proof.
  intros kf vf qf dyf dk dv dq rk rv rq Fk Fv Fq Fdy Ek Ev Eq Sk Sv Sq Vk Vv Vq. pose proof (ao_nh _ _ _ _ _ _ _ _ _ _ _ _ _ OK) as Hn.
  pose proof (folded_ffld _ _ _ _ _ _ _ Hn Fk) as Gk. pose proof (folded_ffld _ _ _ _ _ _ _ Hn Fv) as Gv.
  pose proof (folded_ffld _ _ _ _ _ _ _ Hn Fq) as Gq. pose proof (folded_ffld _ _ _ _ _ _ _ Hn Fdy) as Gd.
  split; [|split].
  - apply (unpk_teq _ _ _ _ dk); auto. intros. rewrite Ek by auto. apply (GK_ext Ck Cv Hi Wi Ho Wo quad N op_nin (B * nh)); auto.
  - apply (unpk_teq _ _ _ _ dv); auto. intros. rewrite Ev by auto. apply (GV_ext Ck Cv Hi Wi Ho Wo quad N op_nin (B * nh)); auto.
  - apply (unpk_teq _ _ _ _ dq); auto. intros. rewrite Eq by auto. apply (GQ_ext Ck Cv Hi Wi Ho Wo quad N op_nin (B * nh)); auto.
Qed.
Theorem attn_bwd_torch_val : exists rk rv rq, attn_bwd_torch kw vw qw dyw quad (columns P) (offsets 0 P) nh Wi Ho Wo = Some (rk, rv, rq) /\
  teq rk dK /\ teq rv dV /\ teq rq dQ.
Proof.
  pose proof OK as [HB Hn HHi HHo HWi HWo Sk Sv Sq Hd HP Hq Hne]. unfold attn_bwd_torch. rewrite (op_shapes_ok B nh Ck Cv Hi) by auto.
  cbn [bindo a_B a_Ck a_Cv a_Hi]. destruct (shape4 _ _ _ _ _ Sq) as (_ & -> & _). destruct (shape4 _ _ _ _ _ Sv) as (_ & _ & _ & _ & ->).
  rewrite Sdy, (proj2 (shape_eqb_true _ _) eq_refl). cbn [guard bindo].
  destruct (to_cf_val B nh Hi Wi Ck kw) as (kt & -> & _ & Fk); auto. destruct (to_cf_val B nh Hi Wi Cv vw) as (vt & -> & _ & Fv); auto.
  destruct (to_cf_val B nh Ho Wo Ck qw) as (qt & -> & _ & Fq); auto. destruct (to_cf_val B nh Ho Wo Cv dyw) as (dyt & -> & _ & Fdy); auto. cbn [bindo].
  rewrite (proj2 (Nat.leb_le 1 Wi)), (proj2 (Nat.leb_le 1 Wo)) by auto. cbn [andb guard bindo].
  assert (K : exists dk dv dq, (if Wi mod Wo =? 0
           then gather_bwd Ck Cv Hi Wi Ho Wo quad (offsets 0 P) (columns P) (cf kt) (cf vt) (cf qt) (cf dyt) (B * nh)
           else if Wo mod Wi =? 0
           then up_bwd Ck Cv Hi Wi Ho Wo quad (offsets 0 P) (columns P) (cf kt) (cf vt) (cf qt) (cf dyt) (B * nh)
           else None) = Some (dk, dv, dq) /\
    (forall b h w c, b < B * nh -> h < Hi -> w < Wi -> dk b h w c = GK Ck Cv Ho Wo quad N (cf kt) (cf vt) (cf qt) (cf dyt) b h w c) /\
    (forall b h w c, b < B * nh -> h < Hi -> w < Wi -> dv b h w c = GV Ck Ho Wo quad N (cf kt) (cf qt) (cf dyt) b h w c) /\
    (forall b h w c, b < B * nh -> h < Ho -> w < Wo -> dq b h w c = GQ Ck Cv quad N (cf kt) (cf vt) (cf qt) (cf dyt) b h w c)).
  { unfold N, nbrs in *. destruct (Wi mod Wo =? 0) eqn:E.
    - apply Nat.eqb_eq in E. destruct (gather_bwd_spec Ck Cv Hi Wi Ho Wo quad P (cf kt) (cf vt) (cf qt) (cf dyt) Hq HWi HWo E HP Hne (B * nh)) as (dk & dv & dq & K1 & K2 & K3 & K4).
      exists dk, dv, dq. split; [exact K1|]. split; [intros; apply K2; auto|]. split; [intros; apply K3; auto|auto].
    - destruct Hd as [Hd|Hd]; [rewrite Hd in E; discriminate|]. rewrite Hd. cbn [Nat.eqb].
      destruct (up_bwd_spec Ck Cv Hi Wi Ho Wo quad P (cf kt) (cf vt) (cf qt) (cf dyt) Hq HWi HWo Hd HP Hne (B * nh)) as (dk & dv & dq & K1 & K2 & K3 & K4).
      exists dk, dv, dq. split; [exact K1|]. split; [intros; apply K2; auto|]. split; [intros; apply K3; auto|auto]. }
  destruct K as (dk & dv & dq & -> & K2 & K3 & K4). cbn [bindo].
  destruct (of_cf_val B nh Hi Wi Ck dk Hn) as (rk & -> & Srk & Vrk). destruct (of_cf_val B nh Hi Wi Cv dv Hn) as (rv & -> & Srv & Vrv).
  destruct (of_cf_val B nh Ho Wo Ck dq Hn) as (rq & -> & Srq & Vrq). cbn [bindo]. exists rk, rv, rq. split; [reflexivity|].
  apply (grads_of_folded (cf kt) (cf vt) (cf qt) (cf dyt) dk dv dq); auto.
Qed.
Theorem attn_bwd_cpu_val : forall m0, exists rk rv rq, attn_bwd_cpu m0 kw vw qw dyw quad (columns P) (offsets 0 P) nh Wi Ho Wo = Some (rk, rv, rq) /\
  teq rk dK /\ teq rv dV /\ teq rq dQ.
Proof.
  intros m0. pose proof OK as [HB Hn HHi HHo HWi HWo Sk Sv Sq Hd HP Hq Hne]. unfold attn_bwd_cpu. rewrite (op_shapes_ok B nh Ck Cv Hi) by auto.
  cbn [bindo a_B a_Ck a_Cv a_Hi]. destruct (shape4 _ _ _ _ _ Sq) as (_ & -> & _). destruct (shape4 _ _ _ _ _ Sv) as (_ & _ & _ & _ & ->).
  rewrite Sdy, (proj2 (shape_eqb_true _ _) eq_refl). cbn [guard bindo].
  destruct (fold_heads_val B nh Hi Wi Ck kw) as (kt & -> & _ & Fk); auto. destruct (fold_heads_val B nh Hi Wi Cv vw) as (vt & -> & _ & Fv); auto.
  destruct (fold_heads_val B nh Ho Wo Ck qw) as (qt & -> & _ & Fq); auto. destruct (fold_heads_val B nh Ho Wo Cv dyw) as (dyt & -> & _ & Fdy); auto. cbn [bindo].
  rewrite guard_true.
  2:{ rewrite (proj2 (Nat.leb_le 1 Wi)), (proj2 (Nat.leb_le 1 Wo)) by auto. cbn [andb]. apply orb_true_iff. rewrite !Nat.eqb_eq. exact Hd. }
  cbn [bindo].
  assert (K : exists dk dv dq, (if Wi mod Wo =? 0
           then cpu_bwd Ck Cv Hi Wi Ho Wo quad (offsets 0 P) (columns P) (hwc kt) (hwc vt) (hwc qt) (hwc dyt) m0 (B * nh)
           else cpu_up_bwd Ck Cv Hi Wi Ho Wo quad (offsets 0 P) (columns P) (hwc kt) (hwc vt) (hwc qt) (hwc dyt) m0 (B * nh)) = Some (dk, dv, dq) /\
    (forall b h w c, b < B * nh -> h < Hi -> w < Wi -> dk b h w c = GK Ck Cv Ho Wo quad N (hwc kt) (hwc vt) (hwc qt) (hwc dyt) b h w c) /\
    (forall b h w c, b < B * nh -> h < Hi -> w < Wi -> dv b h w c = GV Ck Ho Wo quad N (hwc kt) (hwc qt) (hwc dyt) b h w c) /\
    (forall b h w c, b < B * nh -> h < Ho -> w < Wo -> dq b h w c = GQ Ck Cv quad N (hwc kt) (hwc vt) (hwc qt) (hwc dyt) b h w c)).
  { unfold N, nbrs in *. destruct (Wi mod Wo =? 0) eqn:E.
    - apply Nat.eqb_eq in E. apply cpu_bwd_spec; auto.
    - destruct Hd as [Hd|Hd]; [rewrite Hd in E; discriminate|]. apply cpu_up_bwd_spec; auto. }
  destruct K as (dk & dv & dq & -> & K2 & K3 & K4). cbn [bindo].
  destruct (unfold_heads_val B nh Hi Wi Ck dk Hn) as (rk & -> & Srk & Vrk). destruct (unfold_heads_val B nh Hi Wi Cv dv Hn) as (rv & -> & Srv & Vrv).
  destruct (unfold_heads_val B nh Ho Wo Ck dq Hn) as (rq & -> & Srq & Vrq). cbn [bindo]. exists rk, rv, rq. split; [reflexivity|].
  apply (grads_of_folded (hwc kt) (hwc vt) (hwc qt) (hwc dyt) dk dv dq); auto.
Qed.

Lemma pairing_teq : forall H W D x x' y, shp x = [B; H; W; D] -> teq x x' -> pairing B H W D x y = pairing B H W D x' y.
Proof.
  intros H W D x x' y S [_ E]. unfold pairing. apply rsum_ext'. intros. apply rsum_ext'. intros. apply rsum_ext'. intros. apply rsum_ext'. intros.
  rewrite E; [reflexivity|]. rewrite S. apply valid4_intro; auto.
Qed.
Lemma ip_unpk : forall C H W g x, 1 <= nh -> pairing B H W (nh * C) (unpk C H W g) x = ip (B * nh) H W C g (ffld nh C x).
Proof.
  intros C H W g x Hn. rewrite pairing_ip by auto. apply ip_ext. intros b h w d Hb Hh Hw Hd. split; [|reflexivity].
  destruct (unfold_idx nh B b Hn Hb) as (L1 & L2 & E). unfold ffld, unpk. cbn [val nth].
  destruct (head_split (b mod nh) nh C d L2 Hd) as (_ & -> & ->). rewrite E. reflexivity.
Qed.
Theorem op_deriv : forall k' v' q' : tensor R,
  is_derive (fun t => pairing B Ho Wo (nh * Cv) dyw (attn_spec nh Ck Cv quad N Ho Wo (along kw k' t) (along vw v' t) (along qw q' t))) 0%R
    (pairing B Hi Wi (nh * Ck) dK k' + pairing B Hi Wi (nh * Cv) dV v' + pairing B Ho Wo (nh * Ck) dQ q')%R.
Proof.
  intros k' v' q'. pose proof OK as [HB Hn HHi HHo HWi HWo Sk Sv Sq Hd HP Hq Hne].
  unfold dK, dV, dQ. rewrite !ip_unpk by auto.
  apply (is_derive_ext (fun t => ip (B * nh) Ho Wo Cv (ffld nh Cv dyw) (fun b ho wo c => attn_at Ck quad (N ho wo)
    (line (ffld nh Ck kw) (ffld nh Ck k') t b) (line (ffld nh Cv vw) (ffld nh Cv v') t b) (line (ffld nh Ck qw) (ffld nh Ck q') t b) ho wo c))).
  - intros t. rewrite pairing_ip by auto. apply ip_ext. intros b h w d Hb Hh Hw Hdd. split; [reflexivity|].
    destruct (unfold_idx nh B b Hn Hb) as (L1 & L2 & E). symmetry. unfold ffld at 1. unfold attn_spec, attn_packed. cbn [val nth].
    destruct (head_split (b mod nh) nh Cv d L2 Hdd) as (_ & -> & ->). reflexivity.
  - apply attn_deriv; auto. intros. apply (op_nin ho wo); auto.
Qed.
End Op.
