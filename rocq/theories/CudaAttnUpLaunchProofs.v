(** The CUDA attention in the upsampling direction: when it can be launched, and what then comes out. *)
From Coq Require Import List Arith Lia Bool Reals Lra.
From Verif Require Import TensorModel TensorProofs AttnModel GpuModel GpuSpec CudaDiscoModel CudaAttnModel CudaAttnSpec CudaAttnUpModel CudaJobSpec CudaAttnLaunchProofs CudaAttnUpProofs CudaAttnUpProofs4 CudaAttnUpBwdProofs3 AttnOpValProofs WarpKernelProofs CudaAttnUpProofs2.
From Verif Require Import AttnSpec.
Import ListNotations.
Local Open Scope nat_scope.

Lemma launch_iff : forall dev gx gy s, 1 <= gx -> 1 <= gy -> (launchable dev gx gy s = true <-> gx <= d_gridx dev /\ gy <= d_gridy dev /\ s <= d_shared dev).
Proof. intros dev gx gy s H1 H2. unfold launchable. rewrite !andb_true_iff, !Nat.leb_le. tauto. Qed.
Lemma two_per : forall n, blocks_for n 2 = div_up n 2.
Proof. intros. unfold blocks_for, div_up. f_equal. lia. Qed.
Lemma half_pos : forall n m, 1 <= n -> 1 <= m -> 1 <= div_up (n * m) 2.
Proof. intros n m Hn Hm. assert (0 < div_up (n * m) 2); [|lia]. apply div_up_gt; [lia|]. cbn [Nat.mul]. nia. Qed.
Section Launch.
Variables (B nh Ck Cv Hi Wi Ho Wo : nat) (fmin : R) (kw vw qw : tensor R) (quad : nat -> R) (P : pattern) (dev : device).
Hypotheses (Hok : attn_ok B nh Ck Cv Hi Wi Ho Wo quad P kw vw qw) (Hup : Wi mod Wo <> 0).
Lemma dir_ok : (1 <=? Wi) && (1 <=? Wo) && negb (Wi mod Wo =? 0) && (Wo mod Wi =? 0) = true.
Proof using Hok Hup.
  assert (D := up_div B nh Ck Cv Hi Wi Ho Wo quad P kw vw qw Hok Hup). destruct Hok. rewrite !andb_true_iff, negb_true_iff, Nat.eqb_neq, Nat.eqb_eq, !Nat.leb_le. auto.
Qed.
Lemma fwd_up_eq : forall y0, attn_cuda_fwd_up dev fmin y0 kw vw qw quad (columns P) (offsets 0 P) nh Wi Ho Wo =
  if launchable dev (div_up (Hi * Wi) 2) (B * nh) (Ck * 2) && launchable dev (div_up (Hi * Wi) 2) (B * nh) ((Ck + Cv) * 2) && launchable dev (div_up (Ho * Wo) 2) (B * nh) 0
  then Some (up_fwd_job fmin y0 B nh Ck Cv Hi Wi Ho Wo kw vw qw quad (columns P) (offsets 0 P)) else None.
Proof using Hok Hup.
  intros y0. unfold attn_cuda_fwd_up. rewrite (shapes_ok B nh Ck Cv Hi Wi Ho Wo kw vw qw quad P Hok). cbn [bindo a_B a_Ck a_Cv a_Hi]. rewrite dir_ok. cbn [guard bindo]. cbv zeta. apply guard_do.
Qed.
Lemma bwd_up_eq : forall dyw, shp dyw = [B; Ho; Wo; nh * Cv] -> attn_cuda_bwd_up dev fmin kw vw qw dyw quad (columns P) (offsets 0 P) nh Wi Ho Wo =
  if launchable dev (div_up (Hi * Wi) 2) (B * nh) (Ck * 2) && launchable dev (div_up (Hi * Wi) 2) (B * nh) ((Ck + Cv) * 2) && launchable dev (div_up (Ho * Wo) 2) (B * nh) 0 && launchable dev (div_up (Hi * Wi) 2) (B * nh) ((2 * Ck + 2 * Cv) * 2)
  then Some (up_bwd_job fmin B nh Ck Cv Hi Wi Ho Wo kw vw qw dyw quad (columns P) (offsets 0 P)) else None.
Proof using Hok Hup.
  intros dyw Sd. unfold attn_cuda_bwd_up. rewrite (shapes_ok B nh Ck Cv Hi Wi Ho Wo kw vw qw quad P Hok). cbn [bindo a_B a_Ck a_Cv a_Hi]. rewrite dir_ok, Sd. unfold dimsz. rewrite (ao_q _ _ _ _ _ _ _ _ _ _ _ _ _ Hok), (ao_v _ _ _ _ _ _ _ _ _ _ _ _ _ Hok). cbn [nth]. rewrite shape_refl. cbn [guard bindo]. cbv zeta. apply guard_do.
Qed.
Lemma fits_iff : forall s, (launchable dev (div_up (Hi * Wi) 2) (B * nh) s = true /\ launchable dev (div_up (Ho * Wo) 2) (B * nh) 0 = true) <->
  blocks_for (Hi * Wi) 2 <= d_gridx dev /\ blocks_for (Ho * Wo) 2 <= d_gridx dev /\ B * nh <= d_gridy dev /\ s <= d_shared dev.
Proof using Hok.
  clear Hup. intros s. destruct Hok. assert (1 <= B * nh) by nia. rewrite !launch_iff by (auto using half_pos). rewrite !two_per. intuition lia.
Qed.
Theorem fwd_up_launches : forall y0, (exists j, attn_cuda_fwd_up dev fmin y0 kw vw qw quad (columns P) (offsets 0 P) nh Wi Ho Wo = Some j) <-> up_fits dev B nh Hi Wi Ho Wo (Ck + Cv).
Proof using Hok Hup.
  intros y0. rewrite fwd_up_eq, if_some, !andb_true_iff. unfold up_fits. rewrite (Nat.mul_comm 2), <- fits_iff. split; [tauto|]. intros [H1 H2]. repeat split; auto.
  unfold launchable in *. rewrite !andb_true_iff, !Nat.leb_le in *. lia.
Qed.
Theorem bwd_up_launches : forall dyw, shp dyw = [B; Ho; Wo; nh * Cv] -> ((exists j, attn_cuda_bwd_up dev fmin kw vw qw dyw quad (columns P) (offsets 0 P) nh Wi Ho Wo = Some j) <-> up_fits dev B nh Hi Wi Ho Wo (2 * Ck + 2 * Cv)).
Proof using Hok Hup.
  intros dyw Sd. rewrite (bwd_up_eq dyw Sd), if_some, !andb_true_iff. unfold up_fits. rewrite (Nat.mul_comm 2 (2 * Ck + 2 * Cv)), <- fits_iff. split; [tauto|]. intros [H1 H2]. repeat split; auto;
  unfold launchable in *; rewrite !andb_true_iff, !Nat.leb_le in *; lia.
Qed.
Theorem fwd_up_computes : forall y0 j, attn_cuda_fwd_up dev fmin y0 kw vw qw quad (columns P) (offsets 0 P) nh Wi Ho Wo = Some j -> job_settles j (fun y => teq y (attn_spec nh Ck Cv quad (nbrs P Hi Wi Wo) Ho Wo kw vw qw)).
Proof using Hok Hup. intros y0 j E. rewrite fwd_up_eq in E. destruct (_ && _ && _); [|discriminate]. injection E as <-. now apply up_fwd_job_ok. Qed.
Theorem bwd_up_computes : forall dyw j, shp dyw = [B; Ho; Wo; nh * Cv] -> attn_cuda_bwd_up dev fmin kw vw qw dyw quad (columns P) (offsets 0 P) nh Wi Ho Wo = Some j ->
  job_settles j (fun g => teq (fst (fst g)) (dK B nh Ck Cv Hi Wi Ho Wo quad P kw vw qw dyw) /\ teq (snd (fst g)) (dV B nh Ck Cv Hi Wi Ho Wo quad P kw qw dyw) /\ teq (snd g) (dQ B nh Ck Cv Hi Wi Ho Wo quad P kw vw qw dyw)).
Proof using Hok Hup. intros dyw j Sd E. rewrite (bwd_up_eq dyw Sd) in E. destruct (_ && _ && _ && _); [|discriminate]. injection E as <-. now apply up_bwd_job_ok. Qed.
(** the buffer of maxima the first launch leaves: for every image, head and output point no score is larger, and one is equal unless it is the initial value *)
Definition maxima (m : nat -> R) : Prop := forall b n ho wo, b < B -> n < nh -> ho < Ho -> wo < Wo ->
  let x := m (((b * nh + n) * Ho + ho) * Wo + wo) in let s := score Ck (head kw Ck b n) (head qw Ck b n) ho wo in let N := nbrs P Hi Wi Wo ho wo in
  (forall p, In p N -> (s p <= x)%R) /\ (x = fmin \/ exists p, In p N /\ x = s p).
Theorem fwd_up_maxima : forall y0 j, attn_cuda_fwd_up dev fmin y0 kw vw qw quad (columns P) (offsets 0 P) nh Wi Ho Wo = Some j ->
  exists k next, j = JRun k (fun _ => fmin) next /\ forall rg sh, settles k (start k rg sh (fun _ => fmin)) maxima.
Proof using Hok Hup.
  intros y0 j E. rewrite fwd_up_eq in E. destruct (_ && _ && _); [|discriminate]. injection E as <-. unfold up_fwd_job. eexists. eexists. split; [reflexivity|]. intros rg sh.
  eapply settles_impl; [apply (max_ok B nh Ck Cv Hi Wi Ho Wo fmin quad P kw vw qw Hok Hup)|]. intros m Hm b n ho wo Hb Hn Hh Hw. assert (L : b * nh + n < B * nh) by nia. destruct (Hm (b * nh + n) ho wo L Hh Hw) as (_ & M1 & M2).
  unfold bcell in M1, M2. replace ((b * nh + n) * Ho * Wo + (ho * Wo + wo)) with (((b * nh + n) * Ho + ho) * Wo + wo) in M1, M2 by ring.
  assert (F : forall t, ffld nh Ck t (b * nh + n) = head t Ck b n) by (intros t; unfold ffld, head; destruct (fold_idx nh b n Hn) as (-> & ->); reflexivity). unfold Kf, Qf in M1, M2. rewrite !F in M1, M2. split; assumption.
Qed.
End Launch.
Lemma job_impl : forall A (j : job A) (Q Q' : A -> Prop), (forall a, Q a -> Q' a) -> job_settles j Q -> job_settles j Q'.
Proof. induction j as [k init next IH|a]; intros Q Q' H HQ; cbn [job_settles] in *; [|auto]. intros rg sh. eapply settles_impl; [apply HQ|]. intros o Ho. eapply IH; eauto. Qed.
