(** The CUDA attention forward pass in the upsampling direction: the three launches. *)
From Coq Require Import List Arith Lia Bool Reals Lra Permutation FunctionalExtensionality.
From Verif Require Import TensorModel TensorProofs BigSum DiscoModel DiscoSortProofs AttnModel AttnCoreProofs AttnKernelProofs AttnUpProofs AttnGradProofs AttnOpProofs AttnOpValProofs GpuModel GpuSpec GpuProofs GpuProofs2 WarpProofs CudaDiscoModel CudaWarpModel CudaAttnModel CudaAttnUpModel CudaJobSpec CudaAttnProofs CudaAttnLaneProofs CudaAttnFwdProofs2 WarpKernelProofs CudaKeyProofs CudaAttnUpProofs CudaAttnUpProofs2 CudaAttnUpProofs3.
From Verif Require Import AttnSpec.
Import ListNotations.
Local Open Scope nat_scope.

Lemma part_size : forall l i, snd (part l i) = fst (nth i l (0, fun _ => 0%R)).
Proof. intros. unfold part. cbn [snd]. change 0 with (fst (0, fun _ : nat => 0%R)) at 1. apply map_nth. Qed.
Lemma array_reads : forall l i n f, i < length l -> nth i l (0, fun _ => 0%R) = (n, f) -> reads (joined l) (list_sum (map fst l)) (part l i) 0 n f.
Proof.
  intros l i n f Hi E c Hc. assert (L : 0 + c < snd (part l i)) by (rewrite part_size, E; exact Hc). split; [exact L|]. split; [now apply part_in|]. rewrite joined_part by auto. rewrite E. reflexivity.
Qed.
Lemma pidx_flat : forall nh H W C b h w c, 1 <= nh -> b mod nh < nh -> pidx nh (H * W) C b (h * W + w) c = ((b / nh * H + h) * W + w) * (nh * C) + (b mod nh * C + c).
Proof. intros. unfold pidx. ring. Qed.
Lemma tensor_reads : forall l i B nh C H W x, i < length l -> nth i l (0, fun _ => 0%R) = (prod_list (shp x), flat x) -> shp x = [B; H; W; nh * C] -> 1 <= nh ->
  cells_read B nh (joined l) (list_sum (map fst l)) (part l i) C H W (ffld nh C x).
Proof.
  intros l i B nh C H W x Hi E Sx Hn bh h w Hb Hh Hw c Hc. rewrite cell_at_pidx by auto. destruct (unfold_idx nh B bh Hn Hb) as (L1 & L2 & _). assert (Hd := chan_lt nh C (bh mod nh) c L2 Hc).
  rewrite pidx_flat by auto. assert (L := addr4_lt B H W (nh * C) (bh / nh) h w _ L1 Hh Hw Hd). set (a := ((bh / nh * H + h) * W + w) * (nh * C) + (bh mod nh * C + c)) in *.
  assert (La : a < snd (part l i)). { rewrite part_size, E. cbn [fst]. rewrite Sx. cbn [prod_list fold_right]. lia. }
  split; [exact La|]. split; [now apply part_in|]. rewrite joined_part by auto. rewrite E. cbn [snd]. unfold a. rewrite (flat4 x B H W (nh * C)) by auto. reflexivity.
Qed.
Lemma ffld_folded : forall B nh H W C x, folded B nh H W C x (ffld nh C x).
Proof. intros B nh H W C x b n y z c Hb Hn Hy Hz Hc. unfold ffld. destruct (fold_idx nh b n Hn) as (-> & ->). reflexivity. Qed.
Lemma tensor_of_pidx : forall B nh C H W o b h x d, b < B -> h < H -> x < W -> d < nh * C -> 
  val (tensor_of [B; H; W; nh * C] o) [b; h; x; d] = o (pidx nh (H * W) C (b * nh + d / C) (h * W + x) (d mod C)).
Proof.
  intros B nh C H W o b h x d Hb Hh Hx Hd. unfold tensor_of. cbn [val]. f_equal. assert (HC : 1 <= C) by (destruct C; lia). assert (Hn : d / C < nh) by (apply Nat.div_lt_upper_bound; lia).
  unfold pidx. destruct (fold_idx nh b (d / C) Hn) as (-> & ->). cbn [ravel prod_list fold_right]. assert (D := Nat.div_mod d C ltac:(lia)). rewrite D at 1. ring.
Qed.
Lemma unf_lt : forall B nh C b d, b < B -> d < nh * C -> b * nh + d / C < B * nh /\ d mod C < C.
Proof. intros B nh C b d Hb Hd. assert (HC : 1 <= C) by (destruct C; lia). assert (Hn : d / C < nh) by (apply Nat.div_lt_upper_bound; lia). split; [nia|]. apply Nat.mod_upper_bound. lia. Qed.

Section Fwd.
Variables (B nh Ck Cv Hi Wi Ho Wo : nat) (fmin : R) (y0 : nat -> R) (quad : nat -> R) (P : pattern) (kw vw qw : tensor R).
Hypotheses (OK : attn_ok B nh Ck Cv Hi Wi Ho Wo quad P kw vw qw) (Hup : Wi mod Wo <> 0).
Notation spec := (attn_spec nh Ck Cv quad (nbrs P Hi Wi Wo) Ho Wo kw vw qw).
Lemma up_div : Wo mod Wi = 0.
Proof. destruct (ao_div _ _ _ _ _ _ _ _ _ _ _ _ _ OK); [contradiction|assumption]. Qed.
Lemma up_P : pattern_ok P Hi (Ho * Wo).
Proof. assert (H := ao_P _ _ _ _ _ _ _ _ _ _ _ _ _ OK). apply Nat.eqb_neq in Hup. rewrite Hup in H. exact H. Qed.
Lemma up_N : nbrs P Hi Wi Wo = nbrs_scatter P Hi Wi Wo.
Proof. apply Nat.eqb_neq in Hup. apply functional_extensionality. intros ho. apply functional_extensionality. intros wo. unfold nbrs. now rewrite Hup. Qed.
Lemma up_ne : forall ho wo, ho < Ho -> wo < Wo -> nbrs_scatter P Hi Wi Wo ho wo <> [].
Proof. intros ho wo H1 H2. assert (H := ao_ne _ _ _ _ _ _ _ _ _ _ _ _ _ OK ho wo H1 H2). now rewrite up_N in H. Qed.
Lemma up_in : forall ho wo p, ho < Ho -> wo < Wo -> In p (nbrs_scatter P Hi Wi Wo ho wo) -> fst p < Hi /\ snd p < Wi.
Proof. intros ho wo p _ _ Hp. eapply scatter_in. exact Hp. Qed.
Notation cells := (B * nh * Ho * Wo).
Notation kA := (prod_list (shp kw), flat kw). Notation vA := (prod_list (shp vw), flat vw). Notation qA := (prod_list (shp qw), flat qw).
Definition Kf := ffld nh Ck kw. Definition Vf := ffld nh Cv vw. Definition Qf := ffld nh Ck qw.
(** the buffer of the maxima: for every cell at least every score of the cell, and one of them unless it is the initial value *)
Definition max_good (m : nat -> R) : Prop := forall b ho wo, b < B * nh -> ho < Ho -> wo < Wo -> let x := m (bcell Ho Wo b (ho * Wo + wo)) in
  (fmin <= x)%R /\ (forall p, In p (nbrs P Hi Wi Wo ho wo) -> (score Ck (Kf b) (Qf b) ho wo p <= x)%R) /\ (x = fmin \/ exists p, In p (nbrs P Hi Wi Wo ho wo) /\ x = score Ck (Kf b) (Qf b) ho wo p).
Definition max_kernel : kernel := warp_kernel (B * nh) (Hi * Wi) Ck [kA; qA] cells (up_group nh Hi Wi (offsets 0 P) (columns P) (max_body (B * nh) nh Ck Hi Wi Ho Wo (part [kA; qA] 0) (part [kA; qA] 1))).
Lemma max_ok : forall rg sh, settles max_kernel (start max_kernel rg sh (fun _ => fmin)) max_good.
Proof.
  destruct OK as [HB Hn HHi HHo HWi HWo Sk Sv Sq _ _ Hq _]. intros rg sh.
  eapply settles_impl; [apply (max_settles B nh Hi Wi Ho Wo P Ck Kf Qf HWi HWo up_div up_P max_kernel (part [kA; qA] 0) (part [kA; qA] 1)); try reflexivity; apply tensor_reads; auto; cbn; lia|].
  intros m -> b ho wo Hb Hh Hw. rewrite up_N. exact (max_spec B nh Hi Wi Ho Wo P HWi HWo up_div up_P Ck Kf Qf fmin b ho wo Hb Hh Hw).
Qed.
Theorem up_fwd_job_ok : job_settles (up_fwd_job fmin y0 B nh Ck Cv Hi Wi Ho Wo kw vw qw quad (columns P) (offsets 0 P)) (fun y => teq y spec).
Proof.
  assert (OK' := OK). destruct OK' as [HB Hn HHi HHo HWi HWo Sk Sv Sq _ _ Hq _]. unfold up_fwd_job. cbn [job_settles]. intros rg1 sh1. eapply settles_impl; [apply max_ok|].
  intros m _ rg2 sh2. set (arr := [kA; vA; qA; (Hi, quad); (cells, m)]).
  eapply settles_impl; [apply (acc_settles B nh Hi Wi Ho Wo P Ck Kf Qf HWi HWo up_div up_P Cv Vf quad m _ (part arr 0) (part arr 1) (part arr 2) (part arr 3) (part arr 4)); try reflexivity|].
  1-3: apply tensor_reads; auto; cbn; lia.
  1-2: apply array_reads; [cbn; lia|reflexivity].
  intros o Eo rg3 sh3. set (arr' := [(cells * Cv, o); (cells, fun i => o (cells * Cv + i))]).
  eapply settles_impl; [apply (final_settles B nh Cv Ho Wo _ (part arr' 0) (part arr' 1) o (fun i => o (cells * Cv + i)) Hn); try reflexivity; apply array_reads; try reflexivity; cbn; lia|].
  intros y Hy.
  set (yf := fun b ho wo c => (o (bcell Ho Wo b (ho * Wo + wo) * Cv + c)%nat * (1 / o (cells * Cv + bcell Ho Wo b (ho * Wo + wo))%nat))%R).
  apply (spec_of_folded B nh Ck Cv Hi Wi Ho Wo quad P kw vw qw OK Kf Vf Qf yf); try apply ffld_folded; [|reflexivity|].
  - intros b ho wo c Hb Hh Hw Hc. rewrite up_N. unfold yf.
    assert (Ed : o (cells * Cv + bcell Ho Wo b (ho * Wo + wo)) = rlsum (alm Ck quad Kf Qf b ho wo (m (bcell Ho Wo b (ho * Wo + wo)))) (nbrs_scatter P Hi Wi Wo ho wo)) by (rewrite Eo; exact (acc_den B nh Hi Wi Ho Wo P HWi HWo up_div up_P Ck Cv Kf Qf Vf quad m b ho wo Hb Hh Hw)).
    assert (En : o (bcell Ho Wo b (ho * Wo + wo) * Cv + c) = rlsum (fun p => alm Ck quad Kf Qf b ho wo (m (bcell Ho Wo b (ho * Wo + wo)%nat)) p * Vf b (fst p) (snd p) c)%R (nbrs_scatter P Hi Wi Wo ho wo)) by (rewrite Eo; exact (acc_num B nh Hi Wi Ho Wo P HWi HWo up_div up_P Ck Cv Kf Qf Vf quad m b ho wo c Hb Hh Hw Hc)).
    rewrite Ed, En.
    set (mu := m (bcell Ho Wo b (ho * Wo + wo))).
    transitivity (rlsum (fun p => alm Ck quad Kf Qf b ho wo mu p * Vf b (fst p) (snd p) c)%R (nbrs_scatter P Hi Wi Wo ho wo) / rlsum (alm Ck quad Kf Qf b ho wo mu) (nbrs_scatter P Hi Wi Wo ho wo))%R; [unfold Rdiv; ring|].
    rewrite (alm_avg Ck Hi Wi Ho Wo quad (nbrs_scatter P Hi Wi Wo) Kf Qf Hq up_in up_ne b ho wo mu Hh Hw (fun p => Vf b (fst p) (snd p) c)).
    symmetry. apply prob_avg with (Ho := Ho) (Wo := Wo); auto.
  - intros b h x d Hb Hh Hx Hd. rewrite tensor_of_pidx by auto. destruct (unf_lt B nh Cv b d Hb Hd) as [U1 U2]. rewrite Hy by (auto; now apply cell_lt). reflexivity.
Qed.
End Fwd.
