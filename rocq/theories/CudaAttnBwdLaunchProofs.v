(** The selection of the backward kernel of CUDA attention. *)
From Coq Require Import List Arith Lia Bool Reals Lra Permutation.
From Verif Require Import TensorModel TensorProofs BigSum AttnModel AttnOpValProofs GpuModel GpuSpec CudaDiscoModel CudaWarpModel CudaAttnModel CudaAttnUpModel CudaAttnBwdModel CudaJobSpec CudaAttnSpec CudaAttnBwdSpec CudaAttnProofs CudaAttnFwdProofs2 WarpKernelProofs CudaAttnLaunchProofs CudaAttnUpLaunchProofs CudaAttnBwdProofs3.
From Verif Require Import AttnSpec.
Import ListNotations.
Local Open Scope nat_scope.

Section Launch.
Variables (B nh Ck Cv Hi Wi Ho Wo : nat) (old : bool) (fmin : R) (kw vw qw dyw : tensor R) (quad : nat -> R) (P : pattern) (row_idx : list nat) (dev : device) (vec : bool).
Hypotheses (Hok : attn_ok B nh Ck Cv Hi Wi Ho Wo quad P kw vw qw) (Sd : shp dyw = [B; Ho; Wo; nh * Cv]) (Hdiv : Wi mod Wo = 0).
Notation launch := (attn_cuda_bwd dev vec old fmin row_idx kw vw qw dyw quad (columns P) (offsets 0 P) nh Wi Ho Wo).
Definition right (g : tensor R * tensor R * tensor R) : Prop :=
  teq (fst (fst g)) (dK B nh Ck Cv Hi Wi Ho Wo quad P kw vw qw dyw) /\ teq (snd (fst g)) (dV B nh Ck Cv Hi Wi Ho Wo quad P kw qw dyw) /\ teq (snd g) (dQ B nh Ck Cv Hi Wi Ho Wo quad P kw vw qw dyw).
Lemma width_512 : forall C, C <= 16 * 1024 -> (block_width C <= 512 <-> C <= 16 * 512).
Proof.
  intros C H. unfold block_width. destruct (Nat.leb_spec C (16 * 32)) as [L5|L5]; [lia|]. destruct (Nat.leb_spec C (16 * 64)) as [L6|L6]; [lia|]. destruct (Nat.leb_spec C (16 * 128)) as [L7|L7]; [lia|].
  destruct (Nat.leb_spec C (16 * 256)) as [L8|L8]; [lia|]. destruct (Nat.leb_spec C (16 * 512)) as [L9|L9]; lia.
Qed.
Lemma pick_512 : forall C, (pick_bdimx C <=? 512) = (C <=? 16 * 512).
Proof.
  intros C. apply eq_true_iff_eq. rewrite !Nat.leb_le. destruct (Nat.le_gt_cases C (16 * 1024)) as [L|L]; [rewrite pick_width by exact L; now apply width_512|]. assert (G := pick_large C L). lia.
Qed.
Notation arr := [(prod_list (shp kw), flat kw); (prod_list (shp vw), flat vw); (prod_list (shp qw), flat qw); (prod_list (shp dyw), flat dyw); (Hi, quad)].
Notation ks := (B * Hi * Wi * (nh * Ck)). Notation vs := (B * Hi * Wi * (nh * Cv)). Notation qz := (B * Ho * Wo * (nh * Ck)).
Definition one_job (groups threads shared : nat) (code : nat -> nat -> list instr) : job (tensor R * tensor R * tensor R) :=
  JRun (mkKernel groups threads shared (list_sum (map fst arr)) (joined arr) (ks + vs + qz) code) (fun _ => 0%R)
    (fun o => JEnd (tensor_of [B; Hi; Wi; nh * Ck] o, tensor_of [B; Hi; Wi; nh * Cv] (fun i => o (ks + i)), tensor_of [B; Ho; Wo; nh * Ck] (fun i => o (ks + vs + i)))).
Lemma open_eq : op_shapes nh kw vw qw Wi Ho Wo = Some (mkA B Ck Cv Hi) /\ shape_eqb (shp dyw) [dimsz qw 0; Ho; Wo; dimsz vw 3] = true /\ (1 <=? Wo) && (Wi mod Wo =? 0) = true.
Proof.
  split; [now apply (shapes_ok B nh Ck Cv Hi Wi Ho Wo kw vw qw quad P)|]. rewrite Sd, Hdiv. unfold dimsz. rewrite (ao_q _ _ _ _ _ _ _ _ _ _ _ _ _ Hok), (ao_v _ _ _ _ _ _ _ _ _ _ _ _ _ Hok). cbn [nth]. rewrite shape_refl. split; [reflexivity|].
  assert (H := ao_Wo _ _ _ _ _ _ _ _ _ _ _ _ _ Hok). destruct (Nat.leb_spec 1 Wo) as [_|G]; [reflexivity|lia].
Qed.
Theorem bwd_small : 1 <= Ck -> Ck <= 16 * 512 -> exists j, (Permutation row_idx (seq 0 Ho) -> job_settles j right) /\
  launch = if launchable dev (div_up (Ho * Wo) (bwd_points Ck)) (B * nh) (bwd_shared Ck Cv) then Some j else None.
Proof.
  intros H1 H2. destruct (vec_spec vec Ck Cv) as (V & nci & nco & EV & HV & Ek & Ev & Dk & Dv). destruct (width_facts Ck ltac:(lia)) as (NW & EW & HN & U & L & I).
  assert (F := nloc_facts V nci NW HV ltac:(rewrite <- Ek; exact H1) ltac:(rewrite <- Ek; exact U) ltac:(rewrite <- Ek; exact L) ltac:(lia)). cbv zeta in F. destruct F as (F1 & F2 & F3). set (nloc := div_up nci (32 * NW)) in *.
  destruct open_eq as (E1 & E2 & E3). set (BY := if 32 * NW =? 32 then 2 else 1). set (sw := if 32 * NW =? 32 then 0 else 32 * NW / 32).
  assert (EBY : bwd_points Ck = BY /\ V * (nci + nco) * BY + sw = bwd_shared Ck Cv).
  { unfold bwd_points, bwd_shared, BY, sw. rewrite EW. destruct (Nat.leb_spec Ck (16 * 32)) as [Q|Q].
    - assert (NW = 1) by tauto. subst NW. change (32 * 1 =? 32) with true. cbv iota. split; [reflexivity|]. rewrite Ek, Ev. ring.
    - assert (N1 : NW <> 1) by (intros ->; destruct I; lia). destruct (Nat.eqb_spec (32 * NW) 32); [lia|]. rewrite (proj2 (Nat.leb_le _ _) H2). split; [reflexivity|]. rewrite Ek, Ev. ring. }
  destruct EBY as [EBY Esh]. rewrite EBY, <- Esh.
  exists (one_job (B * nh * (div_up (Ho * Wo) BY * BY)) (32 * NW) (V * (nci + nco) + sw) (fun g => code_of (bwd_group BY nh Ho Wo row_idx (offsets 0 P) (columns P)
    (spc_body (32 * NW) V nloc nh nci nco Hi Wi Ho Wo ((32 * NW * (nloc - 1) <=? nco) && (nco <=? 32 * NW * nloc)) old fmin (part arr 0) (part arr 1) (part arr 2) (part arr 3) (part arr 4) (0, ks) (ks, vs) (ks + vs, qz)) g))). split.
  - intros Hp. unfold one_job. cbn [job_settles]. intros rg sh. unfold right. rewrite Ek, Ev. rewrite Ek, Ev in Hok. rewrite Ev in Sd. apply (special_grads V B nh nci nco Hi Wi Ho Wo old fmin kw vw qw dyw quad P row_idx HV Hok Sd Hdiv Hp NW nloc BY (V * (nci + nco) + sw)); auto.
    + intros T. apply andb_true_iff in T. destruct T as [T1 T2]. apply Nat.leb_le in T1, T2. rewrite !(Nat.mul_comm _ (32 * NW)). split; assumption.
    + unfold BY. destruct (32 * NW =? 32); lia.
    + lia.
    + intros G. unfold sw. destruct (Nat.eqb_spec (32 * NW) 32); [lia|]. rewrite (Nat.mul_comm 32 NW), Nat.div_mul by lia. lia.
  - unfold attn_cuda_bwd. rewrite E1. cbn [bindo a_B a_Ck a_Cv a_Hi]. rewrite E2, E3, EV, Dk, Dv, pick_512, (proj2 (Nat.leb_le _ _) H2), (pick_width Ck) by lia. rewrite EW. fold nloc. rewrite F1. cbn [guard bindo]. cbv zeta. fold BY sw. rewrite guard_do. reflexivity.
Qed.
Theorem bwd_large : 16 * 512 < Ck -> exists j, (Permutation row_idx (seq 0 Ho) -> job_settles j right) /\
  launch = if launchable dev (div_up (Ho * Wo) (bwd_points Ck)) (B * nh) (bwd_shared Ck Cv) then Some j else None.
Proof.
  intros H1. destruct (vec_spec vec Ck Cv) as (V & nci & nco & EV & HV & Ek & Ev & Dk & Dv). destruct open_eq as (E1 & E2 & E3).
  assert (EBY : bwd_points Ck = 2 /\ V * (4 * nci + nco) * 2 = bwd_shared Ck Cv).
  { unfold bwd_points, bwd_shared. rewrite !(proj2 (Nat.leb_gt _ _)) by lia. split; [reflexivity|]. rewrite Ek, Ev. ring. }
  destruct EBY as [EBY Esh]. rewrite EBY, <- Esh.
  exists (one_job (B * nh * (div_up (Ho * Wo) 2 * 2)) 32 (V * (4 * nci + nco)) (fun g => code_of (bwd_group 2 nh Ho Wo row_idx (offsets 0 P) (columns P)
    (gen_body 32 V nh nci nco Hi Wi Ho Wo old fmin (part arr 0) (part arr 1) (part arr 2) (part arr 3) (part arr 4) (0, ks) (ks, vs) (ks + vs, qz)) g))). split.
  - intros Hp. unfold one_job. cbn [job_settles]. intros rg sh. unfold right. rewrite Ek, Ev. rewrite Ek, Ev in Hok. rewrite Ev in Sd. apply (generic_grads V B nh nci nco Hi Wi Ho Wo old fmin kw vw qw dyw quad P row_idx HV Hok Sd Hdiv Hp 2 (V * (4 * nci + nco))); auto.
  - unfold attn_cuda_bwd. rewrite E1. cbn [bindo a_B a_Ck a_Cv a_Hi]. rewrite E2, E3, EV, Dk, Dv, pick_512, (proj2 (Nat.leb_gt _ _) H1). cbn [guard bindo]. cbv zeta. rewrite guard_do. reflexivity.
Qed.
Lemma bwd_case : 1 <= Ck -> exists j, (Permutation row_idx (seq 0 Ho) -> job_settles j right) /\
  launch = if launchable dev (div_up (Ho * Wo) (bwd_points Ck)) (B * nh) (bwd_shared Ck Cv) then Some j else None.
Proof. intros H1. destruct (Nat.le_gt_cases Ck (16 * 512)) as [L|L]; [now apply bwd_small|now apply bwd_large]. Qed.
Theorem bwd_computes : forall j, 1 <= Ck -> Permutation row_idx (seq 0 Ho) -> launch = Some j -> job_settles j right.
Proof. intros j H1 Hp E. destruct (bwd_case H1) as (j' & S & E'). rewrite E' in E. destruct (launchable _ _ _ _); [|discriminate]. injection E as <-. now apply S. Qed.
Theorem bwd_launches : 1 <= Ck -> ((exists j, launch = Some j) <-> bwd_fits dev B nh Ck Cv Ho Wo).
Proof.
  intros H1. destruct (bwd_case H1) as (j & _ & E). rewrite E, if_some. unfold bwd_fits. assert (1 <= bwd_points Ck) by (unfold bwd_points; destruct (Ck <=? 16 * 32), (Ck <=? 16 * 512); lia).
  rewrite launch_iff; [|now apply (points_pos B nh Ck Cv Hi Wi Ho Wo kw vw qw quad P Hok)|destruct Hok; nia]. replace (blocks_for (Ho * Wo) (bwd_points Ck)) with (div_up (Ho * Wo) (bwd_points Ck)) by (unfold blocks_for, div_up; f_equal; lia). reflexivity.
Qed.
(** Without key channels there is no instance of the kernel. *)
Theorem bwd_no_channels : Ck = 0 -> launch = None.
Proof.
  intros H0. destruct open_eq as (E1 & E2 & E3). unfold attn_cuda_bwd. rewrite E1. cbn [bindo a_B a_Ck a_Cv a_Hi]. rewrite E2, E3, pick_512, H0. cbn [guard bindo]. cbv zeta. destruct (vec_spec vec 0 Cv) as (V & nci & nco & EV & HV & _ & _ & Dk & _). rewrite EV. change (0 <=? 16 * 512) with true. cbv iota.
  replace (0 / V) with 0 by (destruct HV as [-> | ->]; reflexivity). rewrite (pick_width 0) by lia. change (block_width 0) with 32. change (div_up 0 32) with 0. change (nloc_ok 32 V 0) with false. reflexivity.
Qed.
End Launch.
