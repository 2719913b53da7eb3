(** The selection of the forward kernel of CUDA attention. *)
From Coq Require Import List Arith Lia Bool Reals Lra Permutation.
From Verif Require Import TensorModel TensorProofs BigSum AttnModel GpuModel GpuSpec GpuProofs GpuProofs2 WarpProofs CudaDiscoModel CudaWarpModel CudaAttnModel CudaAttnProofs CudaAttnLaneProofs CudaAttnFwdProofs CudaAttnFwdProofs2 CudaAttnSpec.
From Verif Require Import AttnSpec.
Import ListNotations.
Local Open Scope nat_scope.

(** ** next_pow2 *)
Definition near (x d i : nat) : bool := existsb (fun j => Nat.testbit x (i + j)) (seq 0 d).
Lemma existsb_app' : forall (f : nat -> bool) a b, existsb f (a ++ b) = existsb f a || existsb f b.
Proof. intros. apply existsb_app. Qed.
Lemma near_double : forall x y d, (forall i, Nat.testbit y i = near x d i) -> forall i, Nat.testbit (Nat.lor y (Nat.shiftr y d)) i = near x (d + d) i.
Proof.
  intros x y d H i. rewrite Nat.lor_spec, Nat.shiftr_spec by lia. rewrite !H. unfold near. rewrite seq_app, existsb_app. f_equal. cbn [plus].
  assert (G : forall n a, existsb (fun j => Nat.testbit x (i + d + j)) (seq a n) = existsb (fun j => Nat.testbit x (i + j)) (seq (d + a) n)).
  { induction n as [|n IH]; intros a; [reflexivity|]. cbn [seq existsb]. rewrite IH. f_equal; [f_equal; lia|f_equal; f_equal; lia]. }
  rewrite G. now rewrite Nat.add_0_r.
Qed.
Lemma smear_bits : forall x i, Nat.testbit (fold_left (fun x i => Nat.lor x (Nat.shiftr x i)) [1; 2; 4; 8; 16] x) i = near x 32 i.
Proof.
  intros x. cbn [fold_left]. assert (H0 : forall i, Nat.testbit x i = near x 1 i) by (intros i; unfold near; cbn [seq existsb]; now rewrite Nat.add_0_r, orb_false_r).
  assert (H1 := near_double x x 1 H0). assert (H2 := near_double x _ 2 H1). assert (H3 := near_double x _ 4 H2). assert (H4 := near_double x _ 8 H3). assert (H5 := near_double x _ 16 H4). exact H5.
Qed.
Lemma near_log : forall x i, 1 <= x -> Nat.log2 x < 32 -> near x 32 i = (i <=? Nat.log2 x).
Proof.
  intros x i Hx Hl. unfold near. destruct (Nat.leb_spec i (Nat.log2 x)) as [L|L].
  - apply existsb_exists. exists (Nat.log2 x - i). split; [apply in_seq; lia|]. replace (i + (Nat.log2 x - i)) with (Nat.log2 x) by lia. apply Nat.bit_log2. lia.
  - apply Bool.not_true_is_false. intros E. apply existsb_exists in E. destruct E as (j & _ & E). rewrite Nat.bits_above_log2 in E by lia. discriminate.
Qed.
Theorem next_pow2_spec : forall x, 2 <= x -> Nat.log2 (x - 1) < 32 -> next_pow2 x = 2 ^ (Nat.log2 (x - 1) + 1).
Proof.
  intros x Hx Hl. unfold next_pow2. assert (E : fold_left (fun x i => Nat.lor x (Nat.shiftr x i)) [1; 2; 4; 8; 16] (x - 1) = Nat.ones (Nat.log2 (x - 1) + 1)).
  { apply Nat.bits_inj. intros i. rewrite smear_bits, near_log by lia. destruct (Nat.leb_spec i (Nat.log2 (x - 1))); [rewrite Nat.ones_spec_low by lia|rewrite Nat.ones_spec_high by lia]; reflexivity. }
  rewrite E, Nat.ones_equiv. pose proof (Nat.pow_nonzero 2 (Nat.log2 (x - 1) + 1)). lia.
Qed.
Lemma smear_ge : forall l x, x <= fold_left (fun x i => Nat.lor x (Nat.shiftr x i)) l x.
Proof.
  induction l as [|d l IH]; intros x; [reflexivity|]. cbn [fold_left]. eapply Nat.le_trans; [|apply IH].
  set (z := Nat.shiftr x d). assert (E : Nat.ldiff x (Nat.lor x z) = 0) by (apply Nat.bits_inj; intros i; rewrite Nat.ldiff_spec, Nat.lor_spec, Nat.bits_0; destruct (Nat.testbit x i), (Nat.testbit z i); reflexivity).
  apply Nat.ldiff_le in E. exact E.
Qed.
Lemma next_pow2_ge : forall x, 1 <= x -> x <= next_pow2 x.
Proof. intros x Hx. unfold next_pow2. pose proof (smear_ge [1; 2; 4; 8; 16] (x - 1)). lia. Qed.

(** ** The block width *)
Lemma div_up_le : forall n k d, 1 <= d -> (div_up n d <= k <-> n <= k * d).
Proof.
  intros n k d Hd. unfold div_up. split; intros H.
  - pose proof (Nat.div_mod (n + (d - 1)) d ltac:(lia)). pose proof (Nat.mod_upper_bound (n + (d - 1)) d ltac:(lia)).
    pose proof (Nat.mul_le_mono_l _ _ d H). rewrite (Nat.mul_comm k d). set (q := (n + (d - 1)) / d) in *. set (r := (n + (d - 1)) mod d) in *. clearbody q r. lia.
  - assert ((n + (d - 1)) / d < k + 1); [|lia]. apply Nat.div_lt_upper_bound; [lia|]. rewrite Nat.mul_add_distr_l, (Nat.mul_comm d k). lia.
Qed.
Lemma pow2_case : forall m a, 2 ^ a < m -> m <= 2 ^ (a + 1) -> a < 32 -> next_pow2 m = 2 ^ (a + 1).
Proof.
  intros m a L U Ha. assert (1 <= 2 ^ a) by (pose proof (Nat.pow_nonzero 2 a); lia). assert (E : Nat.log2 (m - 1) = a) by (apply Nat.log2_unique; [lia|]; replace (S a) with (a + 1) by lia; lia).
  rewrite next_pow2_spec by lia. now rewrite E.
Qed.
Lemma pick_small : forall C a k, C <= 16 * k -> k = 2 ^ (a + 1) -> 2 ^ a < Nat.max (div_up C 16) 32 -> 32 <= k -> a < 32 -> pick_bdimx C = k.
Proof. intros C a k H -> L Hk Ha. unfold pick_bdimx. apply pow2_case; auto. apply Nat.max_lub; [|assumption]. apply div_up_le; lia. Qed.
Lemma div_up_gt : forall n k d, 1 <= d -> k * d < n -> k < div_up n d.
Proof. intros n k d Hd H. destruct (Nat.lt_ge_cases k (div_up n d)) as [|G]; [assumption|]. apply div_up_le in G; lia. Qed.
Theorem pick_width : forall C, C <= 16 * 1024 -> pick_bdimx C = block_width C.
Proof.
  intros C H. unfold block_width. assert (P5 : 2 ^ 5 = 32) by reflexivity. assert (P4 : 2 ^ 4 = 16) by reflexivity. assert (P6 : 2 ^ 6 = 64) by reflexivity. assert (P7 : 2 ^ 7 = 128) by reflexivity.
  assert (P8 : 2 ^ 8 = 256) by reflexivity. assert (P9 : 2 ^ 9 = 512) by reflexivity.
  destruct (Nat.leb_spec C (16 * 32)) as [L5|L5]; [apply (pick_small C 4 32 L5 eq_refl); [rewrite P4|..]; lia|].
  assert (G5 := div_up_gt C 32 16 ltac:(lia) ltac:(lia)).
  destruct (Nat.leb_spec C (16 * 64)) as [L6|L6]; [apply (pick_small C 5 64 L6 eq_refl); [rewrite P5|..]; lia|].
  assert (G6 := div_up_gt C 64 16 ltac:(lia) ltac:(lia)).
  destruct (Nat.leb_spec C (16 * 128)) as [L7|L7]; [apply (pick_small C 6 128 L7 eq_refl); [rewrite P6|..]; lia|].
  assert (G7 := div_up_gt C 128 16 ltac:(lia) ltac:(lia)).
  destruct (Nat.leb_spec C (16 * 256)) as [L8|L8]; [apply (pick_small C 7 256 L8 eq_refl); [rewrite P7|..]; lia|].
  assert (G8 := div_up_gt C 256 16 ltac:(lia) ltac:(lia)).
  destruct (Nat.leb_spec C (16 * 512)) as [L9|L9]; [apply (pick_small C 8 512 L9 eq_refl); [rewrite P8|..]; lia|].
  assert (G9 := div_up_gt C 512 16 ltac:(lia) ltac:(lia)).
  apply (pick_small C 9 1024 H eq_refl); [rewrite P9|..]; lia.
Qed.
Theorem pick_large : forall C, 16 * 1024 < C -> 1024 < pick_bdimx C.
Proof.
  intros C H. unfold pick_bdimx. assert (G := div_up_gt C 1024 16 ltac:(lia) ltac:(lia)).
  pose proof (next_pow2_ge (Nat.max (div_up C 16) 32) ltac:(lia)). lia.
Qed.
(** p threads for C channels: p is 32 times a number of warps, enough for 16 channels each
    and, above 32, needed *)
Lemma width_facts : forall C, C <= 16 * 1024 -> exists NW, block_width C = 32 * NW /\ 1 <= NW <= 32 /\ C <= 16 * (32 * NW) /\ (NW = 1 \/ 2 <= NW /\ 8 * (32 * NW) < C) /\ (NW = 1 <-> C <= 16 * 32).
Proof.
  intros C H. unfold block_width.
  destruct (Nat.leb_spec C (16 * 32)) as [L5|L5]; [exists 1; repeat split; try lia; reflexivity|].
  destruct (Nat.leb_spec C (16 * 64)) as [L6|L6]; [exists 2; repeat split; try lia; reflexivity|].
  destruct (Nat.leb_spec C (16 * 128)) as [L7|L7]; [exists 4; repeat split; try lia; reflexivity|].
  destruct (Nat.leb_spec C (16 * 256)) as [L8|L8]; [exists 8; repeat split; try lia; reflexivity|].
  destruct (Nat.leb_spec C (16 * 512)) as [L9|L9]; [exists 16; repeat split; try lia; reflexivity|].
  exists 32; repeat split; try lia; reflexivity.
Qed.

(** ** The dispatch *)
Lemma vec_spec : forall vec Ck Cv, exists V nci nco, vec_len vec Ck Cv = V /\ (V = 1 \/ V = 4) /\ Ck = V * nci /\ Cv = V * nco /\ Ck / V = nci /\ Cv / V = nco.
Proof.
  intros vec Ck Cv. unfold vec_len. destruct (vec && (Ck mod 4 =? 0) && (Cv mod 4 =? 0)) eqn:E.
  - apply andb_true_iff in E. destruct E as [E E2]. apply andb_true_iff in E. destruct E as [_ E1]. apply Nat.eqb_eq in E1, E2.
    exists 4, (Ck / 4), (Cv / 4). repeat split; auto; [apply Nat.div_exact|apply Nat.div_exact]; auto.
  - exists 1, Ck, Cv. rewrite !Nat.div_1_r. repeat split; auto; lia.
Qed.
Lemma nloc_facts : forall V nco NW, V = 1 \/ V = 4 -> 1 <= V * nco -> V * nco <= 16 * (32 * NW) -> (NW = 1 \/ 2 <= NW /\ 8 * (32 * NW) < V * nco) -> 1 <= NW ->
  let nloc := div_up nco (32 * NW) in nloc_ok (32 * NW) V nloc = true /\ 1 <= nloc /\ (nloc - 1) * (32 * NW) <= nco <= nloc * (32 * NW).
Proof.
  intros V nco NW HV H1 H2 H3 HN nloc. assert (Hd : 1 <= 32 * NW) by lia.
  assert (U : nloc <= 16 / V). { destruct HV as [-> | ->]; apply div_up_le; auto; [change (16 / 1) with 16|change (16 / 4) with 4]; lia. }
  assert (L1 : 1 <= nloc). { assert (0 < nloc); [|lia]. apply div_up_gt; lia. }
  assert (L2 : nco <= nloc * (32 * NW)) by (apply div_up_le; [assumption|reflexivity]).
  split; [|split; [assumption|split; [|assumption]]].
  - unfold nloc_ok. apply andb_true_iff. split; apply Nat.leb_le; [|assumption]. destruct (Nat.eqb_spec (32 * NW) 32) as [e|e]; [assumption|].
    assert (8 * (32 * NW) < V * nco) by (destruct H3 as [H3|H3]; [exfalso; apply e; rewrite H3; reflexivity|tauto]).
    destruct HV as [-> | ->]; [change (16 / 1 / 2 + 1) with 9; apply (div_up_gt nco 8 (32 * NW)); lia|change (16 / 4 / 2 + 1) with 3; apply (div_up_gt nco 2 (32 * NW)); lia].
  - destruct (Nat.le_gt_cases ((nloc - 1) * (32 * NW)) nco) as [|G]; [assumption|]. exfalso. assert (nco <= (nloc - 1) * (32 * NW)) as G' by lia. apply div_up_le in G'; [|assumption]. fold nloc in G'. lia.
Qed.

Section Dispatch.
Variables (B nh Ck Cv Hi Wi Ho Wo : nat) (fmin : R) (kw vw qw : tensor R) (quad : nat -> R) (P : pattern) (row_idx : list nat) (dev : device) (vec : bool).
Hypotheses (Hok : attn_ok B nh Ck Cv Hi Wi Ho Wo quad P kw vw qw) (Hdiv : Wi mod Wo = 0).
Notation launch := (attn_cuda_fwd dev vec fmin row_idx kw vw qw quad (columns P) (offsets 0 P) nh Wi Ho Wo).
Lemma shape_refl : forall s, shape_eqb s s = true.
Proof. intros s. apply shape_eqb_true. reflexivity. Qed.
Lemma shapes_ok : op_shapes nh kw vw qw Wi Ho Wo = Some (mkA B Ck Cv Hi).
Proof using Hok.
  clear Hdiv. destruct Hok. unfold op_shapes, dimsz. rewrite ao_k, ao_v, ao_q. cbn [nth]. rewrite !shape_refl. cbn [andb].
  rewrite !(Nat.mul_comm nh), !Nat.mod_mul, !Nat.div_mul by lia. destruct (Nat.leb_spec 1 nh); [reflexivity|lia].
Qed.
Definition special_of (V nci nco NW nloc : nat) : kernel :=
  special_kernel V B nh nci nco Hi Wi Ho Wo fmin kw vw qw quad P row_idx NW nloc (if 32 * NW =? 32 then 2 else 1) (V * nci + if 32 * NW =? 32 then 0 else 32 * NW / 32)
    ((32 * NW * (nloc - 1) <=? nci) && (nci <=? 32 * NW * nloc)).
Lemma guard_do : forall A b (x : option A), (do _ <- guard b; x) = if b then x else None.
Proof. intros A [] x; reflexivity. Qed.
Lemma launch_small : 1 <= Cv -> Cv <= 16 * 1024 -> exists V nci nco NW nloc, 1 <= V /\ Ck = V * nci /\ Cv = V * nco /\ 1 <= NW <= 32 /\ (NW = 1 <-> Cv <= 16 * 32) /\ block_width Cv = 32 * NW /\ 1 <= nloc /\
  (nloc - 1) * (32 * NW) <= nco <= nloc * (32 * NW) /\
  launch = if launchable dev (div_up (Ho * Wo) (if 32 * NW =? 32 then 2 else 1)) (B * nh) (Ck * (if 32 * NW =? 32 then 2 else 1) + if 32 * NW =? 32 then 0 else 32 * NW / 32) then Some (special_of V nci nco NW nloc) else None.
Proof using Hok Hdiv.
  intros H1 H2. destruct (vec_spec vec Ck Cv) as (V & nci & nco & EV & HV & Ek & Ev & Dk & Dv). destruct (width_facts Cv H2) as (NW & EW & HN & U & L & I).
  assert (F := nloc_facts V nco NW HV ltac:(rewrite <- Ev; exact H1) ltac:(rewrite <- Ev; exact U) ltac:(rewrite <- Ev; exact L) ltac:(lia)). cbv zeta in F. destruct F as (F1 & F2 & F3).
  exists V, nci, nco, NW, (div_up nco (32 * NW)). split; [lia|]. repeat (split; [assumption|]).
  unfold attn_cuda_fwd. rewrite shapes_ok. cbn [bindo a_B a_Ck a_Cv a_Hi]. rewrite EV, Dk, Dv, (pick_width Cv H2), EW, F1, Hdiv. destruct Hok as [q1 q2 q3 q4 q5 q6 _ _ _ _ _ _ _].
  destruct (Nat.leb_spec 1 Wo) as [_|G]; [|lia]. change (0 =? 0) with true. cbn [andb guard bindo]. cbv zeta.
  destruct (Nat.leb_spec (32 * NW) 1024) as [_|G]; [|lia]. rewrite <- Ek. rewrite guard_do.
  destruct (launchable dev _ _ _); [|reflexivity]. f_equal. unfold special_of, special_kernel, groups, ysize. rewrite <- Ek, <- Ev. reflexivity.
Qed.
Lemma launch_large : 16 * 1024 < Cv -> exists V nci nco, 1 <= V /\ Ck = V * nci /\ Cv = V * nco /\
  launch = if launchable dev (div_up (Ho * Wo) 2) (B * nh) (Cv * 2) then Some (generic_kernel V B nh nci nco Hi Wi Ho Wo fmin kw vw qw quad P row_idx (V * nco)) else None.
Proof using Hok Hdiv.
  intros H1. destruct (vec_spec vec Ck Cv) as (V & nci & nco & EV & HV & Ek & Ev & Dk & Dv).
  exists V, nci, nco. split; [lia|]. repeat (split; [assumption|]).
  unfold attn_cuda_fwd. rewrite shapes_ok. cbn [bindo a_B a_Ck a_Cv a_Hi]. rewrite EV, Dk, Dv, Hdiv. pose proof (pick_large Cv H1) as G. destruct Hok as [q1 q2 q3 q4 q5 q6 _ _ _ _ _ _ _].
  destruct (Nat.leb_spec 1 Wo) as [_|?]; [|lia]. change (0 =? 0) with true. cbn [andb guard bindo]. cbv zeta.
  destruct (Nat.leb_spec (pick_bdimx Cv) 1024) as [?|_]; [lia|]. rewrite <- Ev. rewrite guard_do.
  destruct (launchable dev _ _ _); [|reflexivity]. f_equal. unfold generic_kernel, groups, ysize. rewrite <- Ev. reflexivity.
Qed.
Theorem fwd_computes : Permutation row_idx (seq 0 Ho) -> forall k, 1 <= Cv -> launch = Some k -> overwrites k [B; Ho; Wo; nh * Cv] (attn_spec nh Ck Cv quad (nbrs P Hi Wi Wo) Ho Wo kw vw qw).
Proof using Hok Hdiv.
  intros Hp k H1 E. destruct (Nat.le_gt_cases Cv (16 * 1024)) as [H2|H2].
  - destruct (launch_small H1 H2) as (V & nci & nco & NW & nloc & HV & Ek & Ev & HN & I & _ & Hl & F & E'). rewrite E' in E. destruct (launchable dev _ _ _); [|discriminate]. injection E as <-. intros rg sh out.
    unfold special_of. rewrite Ek, Ev. rewrite Ek, Ev in Hok. apply special_settles; auto.
    + intros T. apply andb_true_iff in T. destruct T as [T1 T2]. apply Nat.leb_le in T1, T2. rewrite !(Nat.mul_comm _ (32 * NW)). split; assumption.
    + destruct (32 * NW =? 32); lia.
    + lia.
    + intros G. destruct (Nat.eqb_spec (32 * NW) 32); [lia|]. rewrite (Nat.mul_comm 32 NW), Nat.div_mul by lia. lia.
  - destruct (launch_large H2) as (V & nci & nco & HV & Ek & Ev & E'). rewrite E' in E. destruct (launchable dev _ _ _); [|discriminate]. injection E as <-. intros rg sh out.
    rewrite Ek, Ev. rewrite Ek, Ev in Hok. apply generic_settles; auto.
Qed.
Lemma launchable_spec : forall gx gy s, 1 <= gx -> 1 <= gy -> (launchable dev gx gy s = true <-> gx <= d_gridx dev /\ gy <= d_gridy dev /\ s <= d_shared dev).
Proof. intros gx gy s H1 H2. unfold launchable. rewrite !andb_true_iff, !Nat.leb_le. tauto. Qed.
Lemma blocks_div : forall n p, 1 <= p -> blocks_for n p = div_up n p.
Proof. intros. unfold blocks_for, div_up. f_equal. lia. Qed.
Lemma if_some : forall (A : Type) (b : bool) (k : A), (exists x, (if b then Some k else None) = Some x) <-> b = true.
Proof. intros A [] k; split; intros H; try reflexivity; [now exists k|destruct H; discriminate|discriminate]. Qed.
Lemma points_pos : forall d, 1 <= d -> 1 <= div_up (Ho * Wo) d.
Proof using Hok. clear Hdiv. intros d Hd. destruct Hok. assert (0 < div_up (Ho * Wo) d); [|lia]. apply div_up_gt; [assumption|]. cbn [Nat.mul]. nia. Qed.
Theorem fwd_launches : 1 <= Cv -> Cv <= 16 * 1024 -> ((exists k, launch = Some k) <-> fwd_fits dev B nh Ck Cv Ho Wo).
Proof using Hok Hdiv.
  intros H1 H2. destruct (launch_small H1 H2) as (V & nci & nco & NW & nloc & HV & Ek & Ev & HN & I & EW & Hl & F & E'). rewrite E', if_some. unfold fwd_fits, fwd_shared, block_points. rewrite EW.
  assert (1 <= B * nh) by (destruct Hok; nia).
  destruct (Nat.leb_spec Cv (16 * 32)) as [L|L].
  - assert (NW = 1) by tauto. subst NW. change (32 * 1 =? 32) with true. rewrite launchable_spec; [|apply points_pos; lia|assumption]. rewrite blocks_div by lia. rewrite Nat.add_0_r, (Nat.mul_comm Ck 2). reflexivity.
  - assert (N1 : NW <> 1) by (intros ->; destruct I; lia). destruct (Nat.eqb_spec (32 * NW) 32); [lia|]. rewrite launchable_spec; [|apply points_pos; lia|assumption]. rewrite blocks_div by lia. rewrite Nat.mul_1_r. reflexivity.
Qed.
Theorem fwd_launches_large : 16 * 1024 < Cv -> ((exists k, launch = Some k) <-> blocks_for (Ho * Wo) 2 <= d_gridx dev /\ B * nh <= d_gridy dev /\ 2 * Cv <= d_shared dev).
Proof using Hok Hdiv.
  intros H1. destruct (launch_large H1) as (V & nci & nco & HV & Ek & Ev & E'). rewrite E', if_some. assert (1 <= B * nh) by (destruct Hok; nia).
  rewrite launchable_spec; [|apply points_pos; lia|assumption]. rewrite blocks_div, (Nat.mul_comm Cv 2) by lia. reflexivity.
Qed.
End Dispatch.
