(** The attention operators on tensors: head folding, layouts, and the operators. *)
From Coq Require Import List Arith Lia Bool Reals Lra.
From Coquelicot Require Import Coquelicot.
From Verif Require Import TensorModel TensorProofs BigSum DistSpectralProofs DiscoModel DiscoSortProofs DiscoTensorProofs
  AttnModel AttnSpec AttnCoreProofs AttnKernelProofs AttnUpProofs AttnGradProofs AttnBwdProofs AttnCpuBwdProofs AttnCpuUpBwdProofs.
Import ListNotations.
Local Open Scope nat_scope.

(** ** Views *)
Lemma reshape_val : forall A (s : list nat) (t : tensor A), prod_list s = prod_list (shp t) ->
  exists r, reshape s t = Some r /\ shp r = s /\ forall i i', valid (shp t) i' -> ravel s i = ravel (shp t) i' -> val r i = val t i'.
Proof.
  intros A s t E. unfold reshape. rewrite E, Nat.eqb_refl. cbn [guard bindo]. eexists. split; [reflexivity|]. split; [reflexivity|].
  intros i i' V R. cbn [val]. rewrite R, unravel_ravel by auto. reflexivity.
Qed.
Lemma split_head : forall d nh C, d < nh * C -> d / C < nh /\ d mod C < C /\ d / C * C + d mod C = d.
Proof.
  intros. assert (C <> 0) by nia. split; [apply Nat.div_lt_upper_bound; lia|]. split; [apply Nat.mod_upper_bound; auto|].
  pose proof (Nat.div_mod d C). lia.
Qed.
Lemma head_split : forall n nh C c, n < nh -> c < C -> n * C + c < nh * C /\ (n * C + c) / C = n /\ (n * C + c) mod C = c.
Proof.
  intros. split; [nia|]. split; symmetry; [apply (Nat.div_unique _ _ _ c)|apply (Nat.mod_unique _ _ n)]; lia.
Qed.

(** the folded tensor, channels last and channels first *)
Definition folded (B nh H W C : nat) (t : tensor R) (f : fld) : Prop :=
  forall b n y x c, b < B -> n < nh -> y < H -> x < W -> c < C -> f (b * nh + n) y x c = val t [b; y; x; n * C + c].
Lemma fold_heads_val : forall B nh H W C t, 1 <= nh -> shp t = [B; H; W; nh * C] ->
  exists r, fold_heads t nh = Some r /\ shp r = [B * nh; H; W; C] /\ folded B nh H W C t (hwc r).
Proof.
  intros B nh H W C t Hn S. unfold fold_heads. destruct (Nat.eqb_spec nh 1) as [->|Hd].
  - exists t. split; [reflexivity|]. rewrite S, Nat.mul_1_r, Nat.mul_1_l. split; [reflexivity|].
    intros b n y x c Hb Hn' Hy Hx Hc. unfold hwc. replace n with 0 by lia. rewrite Nat.mul_1_r, Nat.add_0_r. reflexivity.
  - destruct (shape4 t B H W (nh * C) S) as (_ & -> & -> & -> & ->).
    replace (nh * C / nh) with C by (rewrite Nat.mul_comm, Nat.div_mul; lia).
    destruct (reshape_val _ [B; H; W; nh; C] t) as (a & -> & Sa & Va). { rewrite S. cbn [prod_list fold_right]. ring. }
    cbn [bindo]. set (p := permute [0; 3; 1; 2; 4] a).
    assert (Sp : shp p = [B; nh; H; W; C]) by (unfold p, permute, dimsz; cbn [shp map]; rewrite Sa; reflexivity).
    destruct (reshape_val _ [B * nh; H; W; C] p) as (r & -> & Sr & Vr). { rewrite Sp. cbn [prod_list fold_right]. ring. }
    exists r. split; [reflexivity|]. split; [exact Sr|]. intros b n y x c Hb Hn' Hy Hx Hc. unfold hwc.
    rewrite (Vr _ [b; n; y; x; c]).
    + unfold p, permute. cbn [val length seq map index_of Nat.eqb nth]. apply Va.
      * rewrite S. apply valid4_intro; auto. nia.
      * rewrite S. cbn [ravel prod_list fold_right]. ring.
    + rewrite Sp. apply valid5_intro; auto.
    + rewrite Sp. cbn [ravel prod_list fold_right]. ring.
Qed.
Lemma unfold_heads_val : forall B nh H W C f, 1 <= nh ->
  exists r, unfold_heads (mk_hwc (B * nh) H W C f) nh = Some r /\ shp r = [B; H; W; nh * C] /\
  forall b y x d, b < B -> y < H -> x < W -> d < nh * C -> val r [b; y; x; d] = f (b * nh + d / C) y x (d mod C).
Proof.
  intros B nh H W C f Hn. unfold unfold_heads. destruct (Nat.eqb_spec nh 1) as [->|Hd].
  - eexists. split; [reflexivity|]. cbn [mk_hwc shp]. rewrite Nat.mul_1_r, Nat.mul_1_l. split; [reflexivity|].
    intros b y x d Hb Hy Hx Hd. cbn [mk_hwc val nth]. rewrite Nat.mul_1_r, Nat.div_small, Nat.mod_small, Nat.add_0_r by lia. reflexivity.
  - unfold dimsz. cbn [mk_hwc shp nth]. rewrite Nat.div_mul by lia. set (t := mk_hwc (B * nh) H W C f).
    destruct (reshape_val _ [B; nh; H; W; C] t) as (a & -> & Sa & Va). { unfold t. cbn [mk_hwc shp prod_list fold_right]. ring. }
    cbn [bindo]. set (p := permute [0; 2; 3; 1; 4] a).
    assert (Sp : shp p = [B; H; W; nh; C]) by (unfold p, permute, dimsz; cbn [shp map]; rewrite Sa; reflexivity).
    destruct (reshape_val _ [B; H; W; nh * C] p) as (r & -> & Sr & Vr). { rewrite Sp. cbn [prod_list fold_right]. ring. }
    exists r. split; [reflexivity|]. split; [exact Sr|]. intros b y x d Hb Hy Hx Hdd. destruct (split_head d nh C Hdd) as (L1 & L2 & E).
    rewrite (Vr _ [b; y; x; d / C; d mod C]).
    + unfold p, permute. cbn [val length seq map index_of Nat.eqb nth].
      rewrite (Va _ [b * nh + d / C; y; x; d mod C]).
      * reflexivity.
      * unfold t. cbn [mk_hwc shp]. apply valid4_intro; auto. nia.
      * unfold t. cbn [mk_hwc shp ravel prod_list fold_right]. ring.
    + rewrite Sp. apply valid5_intro; auto.
    + rewrite Sp. cbn [ravel prod_list fold_right]. rewrite <- E at 1. ring.
Qed.
Lemma to_cf_val : forall B nh H W C t, 1 <= nh -> 1 <= B -> 1 <= H -> 1 <= W -> shp t = [B; H; W; nh * C] ->
  exists r, to_cf t nh = Some r /\ shp r = [B * nh; C; H; W] /\ folded B nh H W C t (cf r).
Proof.
  intros B nh H W C t Hn HB HH HW S. unfold to_cf. destruct (shape4 t B H W (nh * C) S) as (-> & -> & -> & -> & ->).
  rewrite guard_true.
  2:{ rewrite !andb_true_iff. split; [split; [reflexivity|apply Nat.leb_le; auto]|apply Nat.leb_le; nia]. }
  cbv zeta. replace (nh * C / nh) with C by (rewrite Nat.mul_comm, Nat.div_mul; lia).
  destruct (reshape_val _ [B; H; W; nh; C] t) as (a & -> & Sa & Va). { rewrite S. cbn [prod_list fold_right]. ring. }
  cbn [bindo]. set (p := permute [0; 3; 4; 1; 2] a).
  assert (Sp : shp p = [B; nh; C; H; W]) by (unfold p, permute, dimsz; cbn [shp map]; rewrite Sa; reflexivity).
  destruct (reshape_val _ [B * nh; C; H; W] p) as (r & -> & Sr & Vr). { rewrite Sp. cbn [prod_list fold_right]. ring. }
  exists r. split; [reflexivity|]. split; [exact Sr|]. intros b n y x c Hb Hn' Hy Hx Hc. unfold cf.
  rewrite (Vr _ [b; n; c; y; x]).
  - unfold p, permute. cbn [val length seq map index_of Nat.eqb nth]. apply Va.
    + rewrite S. apply valid4_intro; auto. nia.
    + rewrite S. cbn [ravel prod_list fold_right]. ring.
  - rewrite Sp. apply valid5_intro; auto.
  - rewrite Sp. cbn [ravel prod_list fold_right]. ring.
Qed.
Lemma of_cf_val : forall B nh H W C f, 1 <= nh ->
  exists r, of_cf (mk_cf (B * nh) C H W f) nh = Some r /\ shp r = [B; H; W; nh * C] /\
  forall b y x d, b < B -> y < H -> x < W -> d < nh * C -> val r [b; y; x; d] = f (b * nh + d / C) y x (d mod C).
Proof.
  intros B nh H W C f Hn. unfold of_cf. unfold dimsz. cbn [mk_cf shp nth]. rewrite Nat.div_mul by lia. set (t := mk_cf (B * nh) C H W f).
  destruct (reshape_val _ [B; nh; C; H; W] t) as (a & -> & Sa & Va). { unfold t. cbn [mk_cf shp prod_list fold_right]. ring. }
  cbn [bindo]. set (p := permute [0; 3; 4; 1; 2] a).
  assert (Sp : shp p = [B; H; W; nh; C]) by (unfold p, permute, dimsz; cbn [shp map]; rewrite Sa; reflexivity).
  destruct (reshape_val _ [B; H; W; nh * C] p) as (r & -> & Sr & Vr). { rewrite Sp. cbn [prod_list fold_right]. ring. }
  exists r. split; [reflexivity|]. split; [exact Sr|]. intros b y x d Hb Hy Hx Hdd. destruct (split_head d nh C Hdd) as (L1 & L2 & E).
  rewrite (Vr _ [b; y; x; d / C; d mod C]).
  - unfold p, permute. cbn [val length seq map index_of Nat.eqb nth].
    rewrite (Va _ [b * nh + d / C; d mod C; y; x]).
    + reflexivity.
    + unfold t. cbn [mk_cf shp]. apply valid4_intro; auto. nia.
    + unfold t. cbn [mk_cf shp ravel prod_list fold_right]. ring.
  - rewrite Sp. apply valid5_intro; auto.
  - rewrite Sp. cbn [ravel prod_list fold_right]. rewrite <- E at 1. ring.
Qed.
Lemma folded_head : forall B nh H W C t f b n y x c, folded B nh H W C t f -> b < B -> n < nh -> y < H -> x < W -> c < C ->
  f (b * nh + n) y x c = head t C b n y x c.
Proof. intros. unfold head. auto. Qed.

(** ** Shapes *)
Lemma op_shapes_ok : forall B nh Ck Cv Hi Wi Ho Wo kw vw qw, 1 <= nh ->
  shp kw = [B; Hi; Wi; nh * Ck] -> shp vw = [B; Hi; Wi; nh * Cv] -> shp qw = [B; Ho; Wo; nh * Ck] ->
  op_shapes nh kw vw qw Wi Ho Wo = Some (mkA B Ck Cv Hi).
Proof.
  intros B nh Ck Cv Hi Wi Ho Wo kw vw qw Hn Sk Sv Sq. unfold op_shapes.
  destruct (shape4 _ _ _ _ _ Sk) as (_ & _ & -> & _). destruct (shape4 _ _ _ _ _ Sv) as (_ & _ & _ & _ & ->).
  destruct (shape4 _ _ _ _ _ Sq) as (_ & -> & _ & _ & ->). cbv zeta. rewrite Sk, Sv, Sq, !(proj2 (shape_eqb_true _ _) eq_refl).
  rewrite guard_true.
  - rewrite !(Nat.mul_comm nh), !Nat.div_mul by lia. reflexivity.
  - rewrite !(Nat.mul_comm nh), !Nat.mod_mul by lia. cbn [andb Nat.eqb]. rewrite !andb_true_r. apply Nat.leb_le. auto.
Qed.
