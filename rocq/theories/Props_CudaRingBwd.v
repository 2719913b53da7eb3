(** C69: the second backward pass of a ring step of distributed attention in the gather direction
    adds on the GPU, under every schedule, the gradients of the keys and values of the chunk that
    the step computes cell by cell. *)
From Coq Require Import List Arith Lia Bool ZArith Reals Lra Permutation Sorted.
From Verif Require Import TensorModel BigSum GpuModel GpuSpec AttnModel AttnLayerModel DistAttnModel DistAttnBwdModel CudaDiscoModel CudaAttnModel CudaAttnSpec PrimModel DistStateModel CudaRingModel CudaRingUpSpec CudaRingSpec CudaRingBwdModel CudaRingBwdSpec CudaRingBwdProofs5 AttnSpec.
Import ListNotations.
Local Open Scope nat_scope.

(** One step, long and short rows.  The entries of the pattern have to lead to rows of the chunk. *)
Theorem C69_key_value_gradients : forall vec old B Ck Cv H W Wi ps lon_lo lat0 Ho Wo nq P kA vA qA dyA quad kf vf qf df row_idx n_long max_len mid_len sA mA iA sums maxs inorm,
  1 <= Wi -> pattern_ok P Ho (nq * Wi) -> lays B H W Ck kA kf -> lays B H W Cv vA vf -> lays B Ho Wo Ck qA qf -> lays B Ho Wo Cv dyA df ->
  lays1 B Ho Wo sA sums -> lays_max B Ho Wo mA maxs -> lays1 B Ho Wo iA inorm ->
  Permutation row_idx (seq 0 Ho) -> lengths_ok P row_idx n_long max_len mid_len -> n_long <= Ho -> rows_in_chunk H Wi lat0 P ->
  forall dev k st, ring_pass2 dev vec old B Ck Cv H W Wi ps lon_lo lat0 Ho Wo nq kA vA qA dyA quad row_idx (offsets 0 P) (columns P) n_long max_len mid_len sA mA iA = Some k ->
  let step := dkv_step Ck Cv quad (offsets 0 P) (columns P) H W lon_lo lat0 Ho Wo kf vf qf df Wi ps row_idx sums maxs inorm B in
  pass2_ends k st (fun o => grads_add B H W Ck Cv st o (fst step) (snd step)).
Proof. intros. eapply pass2_step; eauto. Qed.
(** On a rank the halo has all rows that its pattern leads to. *)
Theorem C69_halo_rows : forall argsort Np A L p a o P P', dist_na_init argsort Np A L p a = Some o -> da_up o = false -> na_roff L = offsets 0 P -> na_col L = columns P -> pattern_ok P (na_Ho L) (na_Hi L * na_Wi L) ->
  1 <= Np -> Np <= na_Ho L -> Np <= na_Hi L -> p < Np -> da_roff o = offsets 0 P' -> da_col o = columns P' -> length P' = nth p (da_lat_out o) 0 ->
  rows_in_chunk (nth p (da_lat_in o) 0 + 2 * da_r_lat o) (na_Wi L) (Z.of_nat (nth p (split_starts (da_lat_in o)) 0) - Z.of_nat (da_r_lat o)) P'.
Proof. exact layer_inside. Qed.
(** Without that, where pass 1 and the generic kernel skip an entry, this kernel reads and adds in
    front of the chunk: no run ends, whatever the arrays hold. *)
Theorem C69_row_outside_refuted : forall vec old kA vA qA dyA quad sA mA iA st Q,
  exists k, ring_pass2 odd_dev vec old 1 1 1 1 1 1 1 0 3 1 1 1 kA vA qA dyA quad [0] (offsets 0 [[0]]) (columns [[0]]) 0 0 1 sA mA iA = Some k /\ ~ pass2_ends k st Q.
Proof. exact outside_faults. Qed.
Example C69_row_outside_case : pattern_ok [[0]] 1 (1 * 1) /\ Permutation [0] (seq 0 1) /\ lengths_ok [[0]] [0] 0 0 1 /\ ~ rows_in_chunk 1 1 3 [[0]].
Proof.
  split. { split; [reflexivity|]. intros r c Hr Hc. cbn in Hr. destruct Hr as [<-|[]]. cbn in Hc. lia. }
  split; [reflexivity|]. split. { split; intros r Hr; cbn in Hr; [destruct Hr|]. destruct Hr as [<-|[]]. cbn. lia. }
  intros Q. specialize (Q 0 0 (or_introl eq_refl)). cbn in Q. lia.
Qed.
(** two rows, one treated as long, one as short; everything launches *)
Definition ringb_P : pattern := [[1]; [0; 1]].
Example C69_step_hyps : pattern_ok ringb_P 2 (1 * 2) /\ Permutation [1; 0] (seq 0 2) /\ lengths_ok ringb_P [1; 0] 1 2 1 /\ rows_in_chunk 1 2 0 ringb_P /\
  lays 1 1 2 3 (fun _ => 1%R) (fun _ _ _ _ => 1%R) /\ lays1 1 2 2 (fun _ => 2%R) (fun _ _ _ => 2%R) /\ lays_max 1 2 2 (fun _ => 1%R) (fun _ _ _ => Some 1%R) /\
  match ring_pass2 odd_dev true true 1 3 5 1 2 2 1 0 0 2 2 1 (fun _ => 1%R) (fun _ => 2%R) (fun _ => 1%R) (fun _ => 1%R) (fun _ => 1%R) [1; 0] (offsets 0 ringb_P) (columns ringb_P) 1 2 1 (fun _ => 1%R) (fun _ => 1%R) (fun _ => 1%R) with Some (Some _, Some _) => True | _ => False end.
Proof.
  split. { split; [reflexivity|]. intros r c Hr Hc. cbn in Hr. destruct Hr as [<-|[<-|[]]]; cbn in Hc; intuition lia. }
  split; [apply perm_swap|]. split. { split; intros r Hr; cbn in Hr; destruct Hr as [<-|[]]; cbn; lia. }
  split. { intros h c Hc. destruct h as [|[|h]]; cbn in Hc; [| |destruct h; destruct Hc]; repeat (destruct Hc as [<-|Hc]; [cbn; lia|]); destruct Hc. }
  split; [intros b h w c _ _ _ _; reflexivity|]. split; [intros b h w _ _ _; reflexivity|]. split; [intros b h w _ _ _; reflexivity|].
  vm_compute. exact I.
Qed.
(** a rank of the second row of two: a halo of one row covers the entries of its outputs *)
Definition ringb_layer : nalayer := mkNA 2 4 2 4 1 (mkT [] (fun _ => 0%R)) (mkT [] (fun _ => 0%R)) (mkT [] (fun _ => 0%R)) (mkT [] (fun _ => 0%R)) None None None None None None 1 (fun _ => 1%R) [1; 2; 5; 6] [0; 1; 4].
Example C69_halo_case : exists o, dist_na_init (fun l => seq 0 (length l)) 2 2 ringb_layer 1 1 = Some o /\ da_up o = false /\ da_r_lat o = 1 /\ da_roff o = offsets 0 [[0; 7; 4]] /\ da_col o = columns [[0; 7; 4]].
Proof. eexists. repeat split. Qed.
Print Assumptions C69_key_value_gradients.
Print Assumptions C69_halo_rows.
Print Assumptions C69_row_outside_refuted.
