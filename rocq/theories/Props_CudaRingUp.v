(** C67: a ring step of distributed attention in the upsampling direction leaves the buffers on
    the GPU, under every schedule, holding what the step computes cell by cell; so do the
    statistics and the key and value gradients of the backward pass. *)
From Coq Require Import List Arith Lia Bool ZArith Reals Lra.
From Verif Require Import TensorModel BigSum GpuModel GpuSpec GpuRwModel GpuRwSpec AttnModel DistAttnModel DistAttnBwdModel CudaDiscoModel CudaAttnModel CudaRescaleSpec CudaRingUpModel CudaRingUpSpec CudaRingUpProofs3 AttnSpec.
Import ListNotations.
Local Open Scope nat_scope.

(** One forward step: the three launches. *)
Theorem C67_forward_step : forall ninf B nci nco H W Ho Wo WoG ps lon_lo nq lat0 P kA vA qA quad kf vf qf, 1 <= W -> pattern_ok P H (Ho * WoG) -> rows_inside H lat0 P nq ->
  lays B H W nci kA kf -> lays B H W nco vA vf -> lays B Ho Wo nci qA qf -> scores_above ninf B H W Ho Wo nci kf qf ->
  forall ws dev k buf o, 32 <= ws -> ring_up_fwd B nci nco H W Ho Wo WoG ps lon_lo lat0 (offsets 0 P) (columns P) nq kA vA qA quad dev ninf = Some k ->
  maxima_above B Ho Wo ninf buf -> all_hold B Ho Wo nco ninf o buf ->
  step_ends ws (B * Ho * Wo) k o (fun o' => all_hold B Ho Wo nco ninf o' (ring_step_up nci quad (offsets 0 P) (columns P) H W lon_lo lat0 Ho Wo kf vf qf WoG ps B buf)).
Proof. exact fwd_step. Qed.
(** All steps, one chunk after the other, from any state (the first one starts from empty buffers). *)
Theorem C67_forward_ring : forall ws dev ninf B nci nco Ho Wo WoG ps nq qA quad qf, lays B Ho Wo nci qA qf -> 32 <= ws ->
  let ks c := ring_up_fwd B nci nco (c_H c) (c_W c) Ho Wo WoG ps (c_lon c) (c_lat c) (offsets 0 (c_pat c)) (columns (c_pat c)) nq (c_kA c) (c_vA c) qA quad dev ninf in
  let seq_step buf c := ring_step_up nci quad (offsets 0 (c_pat c)) (columns (c_pat c)) (c_H c) (c_W c) (c_lon c) (c_lat c) Ho Wo (c_k c) (c_v c) qf WoG ps B buf in
  forall l o buf, (forall c, In c l -> chunk_ok B nci nco Ho Wo WoG nq ninf qf c /\ ks c <> None) -> maxima_above B Ho Wo ninf buf -> all_hold B Ho Wo nco ninf o buf ->
  steps_end ws (B * Ho * Wo) ks l o (fun o' => all_hold B Ho Wo nco ninf o' (fold_left seq_step l buf)).
Proof. exact ring_up_round. Qed.
(** a chunk whose first row lies outside the sphere and has no entries; it launches, it touches
    both cells of the output, and empty buffers hold the empty state *)
Definition ex_dev : device := mkDev (16 * 1024) (16 * 1024) (16 * 1024).
Definition ex_chunk : chunk := mkChunk 2 1 0 (-1) [[]; [0; 1]] (fun _ => 1%R) (fun _ => 2%R) (fun _ _ _ _ => 1%R) (fun _ _ _ _ => 2%R).
Example C67_forward_hyps : chunk_ok 1 1 1 1 2 2 1 (-1) (fun _ _ _ _ => 1%R) ex_chunk /\
  ring_up_fwd 1 1 1 (c_H ex_chunk) (c_W ex_chunk) 1 2 2 2 (c_lon ex_chunk) (c_lat ex_chunk) (offsets 0 (c_pat ex_chunk)) (columns (c_pat ex_chunk)) 1 (c_kA ex_chunk) (c_vA ex_chunk) (fun _ => 1%R) (fun _ => 1%R) ex_dev (-1) <> None /\
  chunk_trips (offsets 0 (c_pat ex_chunk)) (columns (c_pat ex_chunk)) 2 1 0 2 2 2 = [((1, 0), (0, 0)); ((1, 0), (0, 1))] /\
  lays 1 1 2 1 (fun _ => 1%R) (fun _ _ _ _ => 1%R) /\ maxima_above 1 1 2 (-1) (fun _ _ _ => rst0) /\ all_hold 1 1 2 1 (-1) (fun a => if a <? 2 then (-1)%R else 0%R) (fun _ _ _ => rst0).
Proof.
  split; [|split; [discriminate|split; [reflexivity|split; [intros b h w c _ _ _ _; reflexivity|split; [intros b h w m _ _ _ E; discriminate|]]]]].
  - split; try (cbn; lia).
    + split; [reflexivity|]. cbn [c_pat ex_chunk]. intros r c Hr Hc. cbn in Hr. destruct Hr as [<-|[<-|[]]]; cbn in Hc; [destruct Hc|]. destruct Hc as [<-|[<-|[]]]; cbn; lia.
    + intros [|[|hi]] Hh Hn; cbn in Hh, Hn |- *; try lia; congruence.
    + intros b h w c _ _ _ _. reflexivity.
    + intros b h w c _ _ _ _. reflexivity.
    + intros b h w ho wo _ _ _ _ _. unfold dot. cbn. lra.
  - intros b h w Hb Hh Hw. assert (b = 0) by lia. assert (h = 0) by lia. subst. destruct w as [|[|w]]; [| |lia]; unfold holds, the_max, the_sum, the_acc; cbn; (split; [reflexivity|]; split; [reflexivity|]; intros ch Hc; assert (ch = 0) by lia; subst; reflexivity).
Qed.
(** The pattern a rank builds in the upsampling direction meets the hypotheses on the chunk. *)
Theorem C67_layer_chunks : forall P Hi Ho Wo lat_in lat_out p lon_lo r, pattern_ok P Hi (Ho * Wo) -> 1 <= Wo -> lon_lo <= Wo -> let n := nth p lat_in 0 + 2 * r in let len_o := nth p lat_out 0 in
  exists P', local_psi_up Wo Hi lat_in lat_out (offsets 0 P) (columns P) p lon_lo r = (offsets 0 P', columns P') /\
  pattern_ok P' n (len_o * Wo) /\ rows_inside n (Z.of_nat (nth p (split_starts lat_in) 0) - Z.of_nat r) P' Hi.
Proof. exact layer_rows. Qed.
Example C67_layer_chunks_case : pattern_ok [[0; 3]; [5]] 2 (4 * 2) /\ local_psi_up 2 2 [1; 1] [2; 2] (offsets 0 [[0; 3]; [5]]) (columns [[0; 3]; [5]]) 1 1 1 = (offsets 0 [[]; [0]; []], columns [[]; [0]; []]).
Proof. split; [|reflexivity]. split; [reflexivity|]. intros row c Hr Hc. cbn in Hr. destruct Hr as [<-|[<-|[]]]; cbn in Hc; intuition lia. Qed.
(** The maxima stay above [ninf], so the hypotheses of a step hold again after it. *)
Theorem C67_maxima_stay : forall ninf B nci H W Ho Wo WoG ps lon_lo lat0 P quad kf vf qf, 1 <= W -> pattern_ok P H (Ho * WoG) -> scores_above ninf B H W Ho Wo nci kf qf ->
  forall buf, maxima_above B Ho Wo ninf buf -> maxima_above B Ho Wo ninf (ring_step_up nci quad (offsets 0 P) (columns P) H W lon_lo lat0 Ho Wo kf vf qf WoG ps B buf).
Proof. exact fwd_above. Qed.
(** The first pass of the backward step: integral, alpha_k and alpha_kvw. *)
Theorem C67_backward_statistics : forall B nci nco H W Ho Wo WoG ps lon_lo nq lat0 P kA vA qA quad kf vf qf, 1 <= W -> pattern_ok P H (Ho * WoG) -> rows_inside H lat0 P nq ->
  lays B H W nci kA kf -> lays B H W nco vA vf -> lays B Ho Wo nci qA qf -> forall dA df, lays B Ho Wo nco dA df ->
  forall maxs mA, (forall b h w m, b < B -> h < Ho -> w < Wo -> maxs b h w = Some m -> mA ((b * Ho + h) * Wo + w) = m) ->
  (forall b t, b < B -> In t (chunk_trips (offsets 0 P) (columns P) H W lon_lo Wo WoG ps) -> maxs b (fst (snd t)) (snd (snd t)) <> None) ->
  forall dev k o buf, ring_up_pass1 B nci nco H W Ho Wo WoG ps lon_lo lat0 (offsets 0 P) (columns P) nq kA vA qA dA quad dev mA = Some k -> stats_hold B Ho Wo nci o buf ->
  forall rg sh, settles k (start k rg sh o) (fun o' => stats_hold B Ho Wo nci o' (bring_step_up nci nco quad (offsets 0 P) (columns P) H W lon_lo lat0 Wo kf vf qf df WoG ps maxs B buf)).
Proof. exact pass1. Qed.
(** The second pass, on zeroed outputs: the gradients of the chunk's keys and values. *)
Theorem C67_backward_gradients : forall B nci nco H W Ho Wo WoG ps lon_lo nq lat0 P kA vA qA quad kf vf qf, 1 <= W -> pattern_ok P H (Ho * WoG) -> rows_inside H lat0 P nq ->
  lays B H W nci kA kf -> lays B H W nco vA vf -> lays B Ho Wo nci qA qf -> forall dA df, lays B Ho Wo nco dA df ->
  forall maxs mA, (forall b h w m, b < B -> h < Ho -> w < Wo -> maxs b h w = Some m -> mA ((b * Ho + h) * Wo + w) = m) ->
  (forall b t, b < B -> In t (chunk_trips (offsets 0 P) (columns P) H W lon_lo Wo WoG ps) -> maxs b (fst (snd t)) (snd (snd t)) <> None) ->
  forall sums inorm sA iA, lays1 B Ho Wo sA sums -> lays1 B Ho Wo iA inorm ->
  forall dev k, ring_up_pass2 B nci nco H W Ho Wo WoG ps lon_lo lat0 (offsets 0 P) (columns P) nq kA vA qA dA quad dev sA mA iA = Some k ->
  forall rg sh, settles k (start k rg sh (fun _ => 0%R)) (fun o =>
    let g := dkv_step_up nci nco quad (offsets 0 P) (columns P) H W lon_lo lat0 Wo kf vf qf df WoG ps sums maxs inorm B in
    lays B H W nci o (fst g) /\ lays B H W nco (fun a => o (B * H * W * nci + a)) (snd g)).
Proof. exact pass2. Qed.
Example C67_backward_hyps : let P := c_pat ex_chunk in let maxs := (fun _ _ _ => Some 1%R) : nat -> nat -> nat -> option R in
  ring_up_pass1 1 1 1 2 1 1 2 2 2 0 (-1) (offsets 0 P) (columns P) 1 (fun _ => 1%R) (fun _ => 2%R) (fun _ => 1%R) (fun _ => 3%R) (fun _ => 1%R) ex_dev (fun _ => 1%R) <> None /\
  ring_up_pass2 1 1 1 2 1 1 2 2 2 0 (-1) (offsets 0 P) (columns P) 1 (fun _ => 1%R) (fun _ => 2%R) (fun _ => 1%R) (fun _ => 3%R) (fun _ => 1%R) ex_dev (fun _ => 1%R) (fun _ => 1%R) (fun _ => 6%R) <> None /\
  (forall b h w m, b < 1 -> h < 1 -> w < 2 -> maxs b h w = Some m -> 1%R = m) /\ (forall b t, b < 1 -> In t (chunk_trips (offsets 0 P) (columns P) 2 1 0 2 2 2) -> maxs b (fst (snd t)) (snd (snd t)) <> None) /\
  stats_hold 1 1 2 1 (fun _ => 0%R) (fun _ _ _ => bst0) /\ lays1 1 1 2 (fun _ => 6%R) (fun _ _ _ => 6%R).
Proof.
  cbv zeta. split; [discriminate|]. split; [discriminate|]. split; [intros b h w m _ _ _ [= <-]; reflexivity|]. split; [intros; discriminate|]. split; [|intros b h w _ _ _; reflexivity].
  intros b h w _ _ _. cbv zeta. split; [reflexivity|]. intros x _. split; reflexivity.
Qed.
Print Assumptions C67_forward_step.
Print Assumptions C67_forward_ring.
Print Assumptions C67_layer_chunks.
Print Assumptions C67_maxima_stay.
Print Assumptions C67_backward_statistics.
Print Assumptions C67_backward_gradients.
