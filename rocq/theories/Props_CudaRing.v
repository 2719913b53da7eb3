(** C68: a ring step of distributed attention in the gather direction leaves the buffers on the GPU,
    under every schedule, holding what the step computes cell by cell, whether its rows are long
    or short; and so does a rank's whole forward pass. *)
From Coq Require Import List Arith Lia Bool ZArith Reals Lra Permutation Sorted.
From Verif Require Import TensorModel BigSum GpuModel GpuSpec GpuRwModel GpuRwSpec AttnModel AttnLayerModel DistAttnModel CudaDiscoModel CudaAttnModel CudaAttnSpec CudaUtilsModel CudaRescaleSpec CudaRingModel CudaRingUpSpec CudaRingSpec CudaRingProofs8 CudaCompactModel CudaCompactProofs AttnSpec.
Import ListNotations.
Local Open Scope nat_scope.

(** One step.  With long rows the channels have to fit one warp (or the block runs in lockstep): the kernel that rescales
    the accumulators of wider ones has a race (C66). *)
Theorem C68_forward_step : forall vec ninf B Ck Cv H W Wi ps lon_lo lat0 Ho Wo nq P kA vA qA quad kf vf qf row_idx n_long max_len mid_len,
  1 <= Wi -> pattern_ok P Ho (nq * Wi) -> lays B H W Ck kA kf -> lays B H W Cv vA vf -> lays B Ho Wo Ck qA qf -> scores_above ninf B H W Ho Wo Ck kf qf ->
  Permutation row_idx (seq 0 Ho) -> lengths_ok P row_idx n_long max_len mid_len -> n_long <= Ho ->
  forall ws dev k buf o, n_long = 0 \/ block_width Cv <= ws ->
  ring_fwd dev vec ninf B Ck Cv H W Wi ps lon_lo lat0 Ho Wo nq kA vA qA quad row_idx (offsets 0 P) (columns P) n_long max_len mid_len = Some k ->
  maxima_above B Ho Wo ninf buf -> all_hold B Ho Wo Cv ninf o buf ->
  ring_ends ws (B * Ho * Wo) k o (fun o' => all_hold B Ho Wo Cv ninf o' (ring_step Ck quad (offsets 0 P) (columns P) H W lon_lo lat0 Ho Wo kf vf qf Wi ps row_idx B buf)).
Proof. exact gather_step. Qed.
(** The hypotheses hold again after it. *)
Theorem C68_maxima_stay : forall ninf B Ck Cv H W Wi ps lon_lo lat0 Ho Wo nq P quad kf vf qf row_idx, 1 <= Wi -> pattern_ok P Ho (nq * Wi) -> scores_above ninf B H W Ho Wo Ck kf qf -> Permutation row_idx (seq 0 Ho) ->
  1 <= Cv -> Cv <= 16 * 1024 -> forall buf, maxima_above B Ho Wo ninf buf ->
  maxima_above B Ho Wo ninf (ring_step Ck quad (offsets 0 P) (columns P) H W lon_lo lat0 Ho Wo kf vf qf Wi ps row_idx B buf).
Proof. intros. eapply (gather_above true); eauto. Qed.
(** A rank's whole forward pass, from empty buffers, over the chunks in the order in which it sees them. *)
Theorem C68_forward_pass : forall ws dev vec ninf thres o p a visits qn B Ck Cv P nq n mx md, let L := da_L o in let Ho := nth p (da_lat_out o) 0 in let Wo := nth a (da_lon_out o) 0 in
  da_up o = false -> da_roff o = offsets 0 P -> da_col o = columns P -> pattern_ok P Ho (nq * na_Wi L) -> 1 <= na_Wi L ->
  Permutation (da_row o) (seq 0 Ho) -> StronglySorted (fun x y => length (nth y P []) <= length (nth x P [])) (da_row o) -> split_cpu thres (da_row o) (da_roff o) Ho = (n, mx, md) ->
  1 <= Cv -> Cv <= 16 * 1024 -> n = 0 \/ block_width Cv <= ws -> shp qn = [B; Ho; Wo; Ck] ->
  let ch (sv : nat * (tensor R * tensor R)) := let k := fst (snd sv) in let v := snd (snd sv) in
    mkChunk (dimsz k 1) (dimsz k 2) (nth (fst sv) (split_starts (da_lon_in o)) 0) (Z.of_nat (nth p (split_starts (da_lat_in o)) 0%nat) - Z.of_nat (da_r_lat o)) P (flat k) (flat v) (hwc k) (hwc v) in
  let ks c := ring_fwd dev vec ninf B Ck Cv (c_H c) (c_W c) (na_Wi L) (na_Wi L / na_Wo L) (c_lon c) (c_lat c) Ho Wo nq (c_kA c) (c_vA c) (flat qn) (na_quad L) (da_row o) (da_roff o) (da_col o) n mx md in
  (forall sv, In sv visits -> (exists H W, shp (fst (snd sv)) = [B; H; W; Ck] /\ shp (snd (snd sv)) = [B; H; W; Cv] /\ scores_above ninf B H W Ho Wo Ck (hwc (fst (snd sv))) (hwc qn)) /\ ks (ch sv) <> None) ->
  rings_end ws (B * Ho * Wo) ks (map ch visits) (fun i => if i <? B * Ho * Wo then ninf else 0%R) (fun o' => all_hold B Ho Wo Cv ninf o' (ring_state o p a visits qn B)).
Proof. exact layer_ring. Qed.
(** What a rank's constructor builds meets the hypotheses on pattern and rows. *)
Theorem C68_layer : forall argsort Np A L p a o P nq, dist_na_init argsort Np A L p a = Some o -> da_up o = false -> na_roff L = offsets 0 P -> na_col L = columns P -> pattern_ok P (na_Ho L) (nq * na_Wi L) ->
  1 <= Np <= na_Ho L -> p < Np -> (forall l, Permutation (argsort l) (seq 0 (length l)) /\ StronglySorted (fun x y => nth y l 0 <= nth x l 0) (argsort l)) ->
  exists P', da_L o = L /\ da_roff o = offsets 0 P' /\ da_col o = columns P' /\ pattern_ok P' (nth p (da_lat_out o) 0) (nq * na_Wi L) /\ 1 <= na_Wi L /\
    Permutation (da_row o) (seq 0 (nth p (da_lat_out o) 0)) /\ StronglySorted (fun x y => length (nth y P' []) <= length (nth x P' [])) (da_row o).
Proof. exact layer_init. Qed.
(** The split into long and short rows bounds their lengths; rows of fewer than 1024 entries all count as short, and the
    step is right for any number of channels and any schedule. *)
Theorem C68_row_split : forall thres P Ho N idx n mx md, pattern_ok P Ho N -> Permutation idx (seq 0 Ho) -> StronglySorted (fun a b => length (nth b P []) <= length (nth a P [])) idx ->
  split_cpu thres idx (offsets 0 P) Ho = (n, mx, md) -> lengths_ok P idx n mx md /\ n <= Ho /\ ((forall r, In r P -> length r < 16 * 64) -> n = 0).
Proof.
  intros thres P Ho N idx n mx md HP Hp Hs E. destruct (layer_split thres P Ho N idx n mx md HP Hp Hs E) as [A B]. split; [exact A|]. split; [exact B|]. intros Hl. assert (Q := short_split thres P Ho N idx HP Hp Hs Hl). now rewrite E in Q.
Qed.

(** Collecting the neighbours: every thread learns how many threads before it found one and how many did in all, so the
    threads that found one take the places 0, 1, ... in their order. *)
Theorem C68_compact : forall BD pred, BD mod 32 = 0 -> 1 <= BD -> (forall t, t < BD -> compact BD pred t = (length (filter pred (seq 0 t)), length (filter pred (seq 0 BD)))) /\
  map (fun t => fst (compact BD pred t)) (filter pred (seq 0 BD)) = seq 0 (length (filter pred (seq 0 BD))).
Proof. intros BD pred Hm H1. split; [intros t Ht; now apply compact_spec|now apply compact_places]. Qed.
Example C68_compact_case : map (fun t => fst (compact 128 (fun t => t mod 3 =? 0) t)) [0; 33; 126] = [0; 11; 42] /\ snd (compact 128 (fun t => t mod 3 =? 0) 5) = 43.
Proof. vm_compute. split; reflexivity. Qed.

(** two rows, one treated as long, one as short; everything launches *)
Definition ring_dev : device := mkDev (16 * 1024) (16 * 1024) (16 * 1024).
Definition ring_P : pattern := [[1]; [0; 1]].
Example C68_step_hyps : pattern_ok ring_P 2 (1 * 2) /\ Permutation [1; 0] (seq 0 2) /\ lengths_ok ring_P [1; 0] 1 2 1 /\ scores_above (-1) 1 1 2 2 2 3 (fun _ _ _ _ => 1%R) (fun _ _ _ _ => 1%R) /\
  lays 1 1 2 3 (fun _ => 1%R) (fun _ _ _ _ => 1%R) /\ block_width 5 <= 32 /\ maxima_above 1 2 2 (-1) (fun _ _ _ => rst0) /\ all_hold 1 2 2 5 (-1) (fun i => if i <? 4 then (-1)%R else 0%R) (fun _ _ _ => rst0) /\
  match ring_fwd ring_dev true (-1) 1 3 5 1 2 2 1 0 0 2 2 1 (fun _ => 1%R) (fun _ => 2%R) (fun _ => 1%R) (fun _ => 1%R) [1; 0] (offsets 0 ring_P) (columns ring_P) 1 2 1 with Some (Some _, Some _) => True | _ => False end.
Proof.
  split. { split; [reflexivity|]. intros r c Hr Hc. cbn in Hr. destruct Hr as [<-|[<-|[]]]; cbn in Hc; intuition lia. }
  split; [apply perm_swap|]. split. { split; intros r Hr; cbn in Hr; destruct Hr as [<-|[]]; cbn; lia. }
  split. { intros b h w ho wo _ _ _ _ _. unfold dot. cbn. lra. } split; [intros b h w c _ _ _ _; reflexivity|]. split; [vm_compute; lia|]. split; [intros b h w m _ _ _ E; discriminate|]. split; [exact (empty_hold 1 2 2 5 (-1))|].
  vm_compute. exact I.
Qed.
(** the pattern of a rank of the second row of two, shifted by its first longitude *)
Definition ring_layer : nalayer := mkNA 2 4 2 4 1 (mkT [] (fun _ => 0%R)) (mkT [] (fun _ => 0%R)) (mkT [] (fun _ => 0%R)) (mkT [] (fun _ => 0%R)) None None None None None None 1 (fun _ => 1%R) [1; 4; 5; 6] [0; 1; 4].
Example C68_layer_case : exists o, dist_na_init (fun l => seq 0 (length l)) 2 2 ring_layer 1 1 = Some o /\ da_up o = false /\ da_roff o = offsets 0 [[6; 7; 4]] /\ da_col o = columns [[6; 7; 4]] /\
  split_cpu (fun m => m / 10) (da_row o) (da_roff o) 1 = (0, 0, 3).
Proof. eexists. repeat split. Qed.
Print Assumptions C68_forward_step.
Print Assumptions C68_maxima_stay.
Print Assumptions C68_forward_pass.
Print Assumptions C68_layer.
Print Assumptions C68_row_split.
Print Assumptions C68_compact.
