(** C70: the first backward pass of a ring step of distributed attention in the gather direction
    leaves the buffers on the GPU, under every schedule, holding what the step computes cell by
    cell, whether its rows are long or short; and so does a rank's whole first backward pass. *)
From Coq Require Import List Arith Lia Bool ZArith Reals Lra Permutation Sorted.
From Verif Require Import TensorModel BigSum GpuModel GpuSpec GpuRwModel GpuRwSpec AttnModel AttnLayerModel DistAttnModel DistAttnBwdModel CudaDiscoModel CudaAttnModel CudaAttnSpec CudaUtilsModel CudaRescaleSpec CudaRingModel CudaRingUpSpec CudaRingSpec CudaRingBwdModel CudaRingBwdSpec CudaRingBwdProofs5 CudaRingBwdProofs10 AttnSpec.
Import ListNotations.
Local Open Scope nat_scope.

(** One step.  With long rows the key channels have to fit one warp (or the block runs in lockstep): the kernel that
    rescales the accumulators of wider ones has a race (C66). *)
Theorem C70_backward_step : forall vec ninf B Ck Cv H W Wi ps lon_lo lat0 Ho Wo nq P kA vA qA dyA quad kf vf qf df row_idx n_long max_len mid_len,
  1 <= Wi -> pattern_ok P Ho (nq * Wi) -> lays B H W Ck kA kf -> lays B H W Cv vA vf -> lays B Ho Wo Ck qA qf -> lays B Ho Wo Cv dyA df -> scores_above ninf B H W Ho Wo Ck kf qf ->
  Permutation row_idx (seq 0 Ho) -> lengths_ok P row_idx n_long max_len mid_len -> n_long <= Ho ->
  forall ws dev k buf o, n_long = 0 \/ block_width Ck <= ws ->
  ring_pass1 dev vec ninf B Ck Cv H W Wi ps lon_lo lat0 Ho Wo nq kA vA qA dyA quad row_idx (offsets 0 P) (columns P) n_long max_len mid_len = Some k ->
  bmaxima_above B Ho Wo ninf buf -> all_bhold B Ho Wo Ck ninf o buf ->
  ring_ends ws (B * Ho * Wo) k o (fun o' => all_bhold B Ho Wo Ck ninf o' (bring_step Ck Cv quad (offsets 0 P) (columns P) H W lon_lo lat0 Ho Wo kf vf qf df Wi ps row_idx B buf)).
Proof. intros. eapply pass1_step; eauto. Qed.
(** The hypotheses hold again after it. *)
Theorem C70_maxima_stay : forall ninf B Ck Cv H W Wi ps lon_lo lat0 Ho Wo nq P quad kf vf qf df row_idx, 1 <= Wi -> pattern_ok P Ho (nq * Wi) -> scores_above ninf B H W Ho Wo Ck kf qf -> Permutation row_idx (seq 0 Ho) ->
  forall buf, bmaxima_above B Ho Wo ninf buf ->
  bmaxima_above B Ho Wo ninf (bring_step Ck Cv quad (offsets 0 P) (columns P) H W lon_lo lat0 Ho Wo kf vf qf df Wi ps row_idx B buf).
Proof. intros. eapply pass1_above; eauto. Qed.
(** A rank's whole first pass, from empty buffers, over the chunks in the order in which it sees them.  (What its
    constructor builds meets the hypotheses on pattern and rows: C68_layer.) *)
Theorem C70_first_pass : forall ws dev vec ninf thres o p a visits qn dyn sv B Ck Cv P nq n mx md, let L := da_L o in let Ho := nth p (da_lat_out o) 0 in let Wo := nth a (da_lon_out o) 0 in
  da_up o = false -> da_roff o = offsets 0 P -> da_col o = columns P -> pattern_ok P Ho (nq * na_Wi L) -> 1 <= na_Wi L ->
  Permutation (da_row o) (seq 0 Ho) -> StronglySorted (fun x y => length (nth y P []) <= length (nth x P [])) (da_row o) -> split_cpu thres (da_row o) (da_roff o) Ho = (n, mx, md) ->
  n = 0 \/ block_width Ck <= ws -> shp qn = [B; Ho; Wo; Ck] -> shp dyn = [B; Ho; Wo; Cv] ->
  let ch (s : nat * (tensor R * tensor R)) := let k := fst (snd s) in let v := snd (snd s) in
    mkChunk (dimsz k 1) (dimsz k 2) (nth (fst s) (split_starts (da_lon_in o)) 0) (Z.of_nat (nth p (split_starts (da_lat_in o)) 0%nat) - Z.of_nat (da_r_lat o)) P (flat k) (flat v) (hwc k) (hwc v) in
  let ks c := ring_pass1 dev vec ninf B Ck Cv (c_H c) (c_W c) (na_Wi L) (na_Wi L / na_Wo L) (c_lon c) (c_lat c) Ho Wo nq (c_kA c) (c_vA c) (flat qn) (flat dyn) (na_quad L) (da_row o) (da_roff o) (da_col o) n mx md in
  (forall s, In s visits -> (exists H W, shp (fst (snd s)) = [B; H; W; Ck] /\ shp (snd (snd s)) = [B; H; W; Cv] /\ scores_above ninf B H W Ho Wo Ck (hwc (fst (snd s))) (hwc qn)) /\ ks (ch s) <> None) ->
  rings_end ws (B * Ho * Wo) ks (map ch visits) (fun i => if i <? B * Ho * Wo then ninf else 0%R) (fun o' => all_bhold B Ho Wo Ck ninf o' (bwd_state o p a visits qn dyn sv B)).
Proof. exact pass1_layer. Qed.
(** two rows, one treated as long, one as short; everything launches *)
Definition ringb1_P : pattern := [[1]; [0; 1]].
Example C70_step_hyps : pattern_ok ringb1_P 2 (1 * 2) /\ Permutation [1; 0] (seq 0 2) /\ lengths_ok ringb1_P [1; 0] 1 2 1 /\ scores_above (-1) 1 1 2 2 2 3 (fun _ _ _ _ => 1%R) (fun _ _ _ _ => 1%R) /\
  lays 1 1 2 3 (fun _ => 1%R) (fun _ _ _ _ => 1%R) /\ block_width 3 <= 32 /\ bmaxima_above 1 2 2 (-1) (fun _ _ _ => bst0) /\ all_bhold 1 2 2 3 (-1) (fun i => if i <? 4 then (-1)%R else 0%R) (fun _ _ _ => bst0) /\
  match ring_pass1 odd_dev true (-1) 1 3 5 1 2 2 1 0 0 2 2 1 (fun _ => 1%R) (fun _ => 2%R) (fun _ => 1%R) (fun _ => 3%R) (fun _ => 1%R) [1; 0] (offsets 0 ringb1_P) (columns ringb1_P) 1 2 1 with Some (Some _, Some _) => True | _ => False end.
Proof.
  split. { split; [reflexivity|]. intros r c Hr Hc. cbn in Hr. destruct Hr as [<-|[<-|[]]]; cbn in Hc; intuition lia. }
  split; [apply perm_swap|]. split. { split; intros r Hr; cbn in Hr; destruct Hr as [<-|[]]; cbn; lia. }
  split. { intros b h w ho wo _ _ _ _ _. unfold dot. cbn. lra. } split; [intros b h w c _ _ _ _; reflexivity|]. split; [vm_compute; lia|]. split; [intros b h w m _ _ _ E; discriminate|]. split; [exact (bempty_hold 1 2 2 3 (-1))|].
  vm_compute. exact I.
Qed.
Print Assumptions C70_backward_step.
Print Assumptions C70_maxima_stay.
Print Assumptions C70_first_pass.
