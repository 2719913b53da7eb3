(** The backward ring steps, pass 2: what is launched. *)
From Coq Require Import List Arith Lia Bool ZArith Reals Lra Permutation FunctionalExtensionality.
From Verif Require Import TensorModel TensorProofs BigSum DiscoModel DiscoSortProofs DistAttnModel DistAttnBwdModel DistAttnProofs AttnModel AttnCoreProofs GpuModel GpuSpec GpuProofs GpuProofs2 WarpProofs CudaDiscoModel CudaAttnModel CudaAttnSpec CudaAttnProofs CudaAttnLaneProofs CudaAttnFwdProofs CudaAttnFwdProofs2 CudaAttnLaunchProofs CudaAttnBwdModel CudaAttnBwdLaunchProofs WarpKernelProofs CudaAttnUpProofs3 CudaKeyProofs CudaRescaleModel CudaRingUpSpec CudaRingSpec CudaRingModel CudaRingProofs CudaRingProofs2 CudaRingProofs6 CudaRingProofs8 CudaRingBwdModel CudaRingBwdSpec CudaRingBwdProofs3 CudaRingBwdProofs4.
From Verif Require DistAttnBwdProofs.
From Verif Require Import AttnSpec.
Import ListNotations.
Local Open Scope nat_scope.

Lemma nodup_skip : forall n (l : list nat), NoDup l -> NoDup (skipn n l).
Proof. intros n l N. rewrite <- (firstn_skipn n l) in N. revert N. generalize (firstn n l) (skipn n l). intros l1 l2 N. induction l1 as [|x l1 IH]; [exact N|]. apply IH. cbn in N. now apply NoDup_cons_iff in N. Qed.
Lemma in_first : forall n (l : list nat) i, i < n -> n <= length l -> In (nth i l 0) (firstn n l).
Proof. intros n l i Hi Hn. rewrite <- (firstn_skipn n l) at 1. rewrite app_nth1 by (rewrite firstn_length; lia). apply nth_In. rewrite firstn_length. lia. Qed.

Section Step.
Variables (vec old : bool) (B Ck Cv H W Wi ps lon_lo : nat) (lat0 : Z) (Ho Wo nq : nat) (P : pattern) (kA vA qA dyA quad : nat -> R) (kf vf qf df : fld) (row_idx : list nat) (n_long max_len mid_len : nat) (sA mA iA : nat -> R) (sums : nat -> nat -> nat -> R) (maxs : nat -> nat -> nat -> option R) (inorm : nat -> nat -> nat -> R).
Hypotheses (HWi : 1 <= Wi) (HP : pattern_ok P Ho (nq * Wi)) (Lk : lays B H W Ck kA kf) (Lv : lays B H W Cv vA vf) (Lq : lays B Ho Wo Ck qA qf) (Ld : lays B Ho Wo Cv dyA df).
Hypotheses (HsA : lays1 B Ho Wo sA sums) (HmA : lays_max B Ho Wo mA maxs) (HiA : lays1 B Ho Wo iA inorm).
Hypotheses (Hperm : Permutation row_idx (seq 0 Ho)) (Hlens : lengths_ok P row_idx n_long max_len mid_len) (Hn : n_long <= Ho) (Hins : rows_in_chunk H Wi lat0 P).
Notation step := (dkv_step Ck Cv quad (offsets 0 P) (columns P) H W lon_lo lat0 Ho Wo kf vf qf df Wi ps row_idx sums maxs inorm B).
Theorem pass2_step : forall dev k st, ring_pass2 dev vec old B Ck Cv H W Wi ps lon_lo lat0 Ho Wo nq kA vA qA dyA quad row_idx (offsets 0 P) (columns P) n_long max_len mid_len sA mA iA = Some k ->
  pass2_ends k st (fun o => grads_add B H W Ck Cv st o (fst step) (snd step)).
Proof.
  intros dev k st E. unfold ring_pass2 in E. cbv zeta in E.
  destruct (Nat.leb_spec (pick_bdimx Ck) 512) as [Lp|]; [|discriminate E]. cbn [guard bindo] in E.
  assert (HCk : Ck <= 16 * 1024) by (destruct (Nat.le_gt_cases Ck (16 * 1024)) as [|G]; [assumption|apply pick_large in G; lia]).
  destruct (vec_spec vec Ck Cv) as (V & nci & nco & EV & HV & Ek & Ev & Dk & Dv). destruct (width_facts Ck HCk) as (NW & EW & HN & U & L & I).
  rewrite EV, Dk, Dv, (pick_width Ck HCk), EW in E. destruct (nloc_ok _ _ _) eqn:Eok; [|discriminate E]. cbn [guard bindo] in E.
  assert (HC1 : 1 <= Ck). { destruct Ck as [|]; [exfalso|lia]. assert (En : nci = 0) by (destruct HV as [-> | ->]; lia). rewrite En in Eok. unfold nloc_ok in Eok. apply andb_true_iff in Eok. destruct Eok as [Eok _]. apply Nat.leb_le in Eok. assert (Z0 : div_up 0 (32 * NW) = 0) by (unfold div_up; apply Nat.div_small; lia). rewrite Z0 in Eok. destruct (32 * NW =? 32); lia. }
  assert (F := nloc_facts V nci NW HV ltac:(rewrite <- Ek; exact HC1) ltac:(rewrite <- Ek; exact U) ltac:(rewrite <- Ek; exact L) ltac:(lia)). cbv zeta in F. destruct F as (_ & F2 & F3).
  set (nloc := div_up nci (32 * NW)) in *. set (BY := if 32 * NW =? 32 then 2 else 1) in *. set (as_in := (_ <=? _) && (_ <=? _)) in E.
  assert (HBY : 1 <= BY) by (unfold BY; destruct (_ =? _); lia). assert (HV1 : 1 <= V) by lia.
  assert (Hco : as_in = true -> (nloc - 1) * (32 * NW) <= nco <= nloc * (32 * NW)) by (intros T; unfold as_in in T; apply andb_true_iff in T; destruct T as [T1 T2]; apply Nat.leb_le in T1, T2; rewrite !(Nat.mul_comm _ (32 * NW)); split; assumption).
  assert (HL := rows_len Ho row_idx Hperm). assert (Rl := rows_lt Wi Ho row_idx n_long HWi Hperm Hn). destruct Hlens as [HL1 HL2].
  rewrite Ek in Lk, Lq. rewrite Ev in Lv, Ld. rewrite Ek, Ev.
  set (hs := fun rs b h w x => rlsum (fun ho => rlsum (fun wo => rlsum (DistAttnBwdProofs.hits H W lon_lo lat0 Wi ps (fun hg hl wl => DistAttnBwdProofs.scale_at (V * nci) (V * nco) quad kf vf qf df sums maxs inorm b ho wo hg hl wl * qf b ho wo x)%R wo h w) (nth ho P [])) (seq 0 Wo)) rs).
  set (ha := fun rs b h w x => rlsum (fun ho => rlsum (fun wo => rlsum (DistAttnBwdProofs.hits H W lon_lo lat0 Wi ps (fun hg hl wl => DistAttnBwdProofs.alpha_at (V * nci) quad kf qf sums maxs b ho wo hg hl wl * df b ho wo x)%R wo h w) (nth ho P [])) (seq 0 Wo)) rs).
  (* one launch *)
  assert (One : forall mid per nl rows st0, 1 <= per -> nl <= length rows -> (forall h, h < nl -> nth h rows 0 < Ho) ->
    (forall h s wo, h < nl -> s < per -> length (found (32 * NW) H W Wi ps lon_lo lat0 wo (share per s (nth (nth h rows 0) P []))) <= mid) ->
    ends (p2_kernel (32 * NW) BY V nloc nci nco H W Wi ps lon_lo lat0 B Ho Wo as_in old (offsets 0 P) (columns P) nq kA vA qA dyA quad sA mA iA mid per nl rows) st0
      (fun o => grads_add B H W (V * nci) (V * nco) st0 o (hs (firstn nl rows)) (ha (firstn nl rows)))).
  { intros mid per nl rows st0 Hper Hlen Hrows Hmid rg sh. eapply settles_impl; [refine (p2_settles0 NW BY V nloc nci nco H W Wi ps lon_lo lat0 B Ho Wo as_in old P nq kA vA qA dyA quad kf vf qf df HN HV1 F2 F3 Hco HBY HWi HP Lk Lv Lq Ld mid per nl rows sA mA iA Hper Hlen Hrows Hmid _ rg sh st0)|].
    - intros h c _ Hc. now apply (Hins h).
    - cbv beta. intros o -> b h w Hb Hh Hw. exact (p2_sums NW BY V nloc nci nco H W Wi ps lon_lo lat0 B Ho Wo as_in old P nq quad kf vf qf df HN HV1 F2 F3 Hco HBY HWi HP per nl rows sA mA iA Hper Hlen Hrows sums maxs inorm HsA HmA HiA st0 b h w Hb Hh Hw). }
  assert (Tot : forall o, grads_add B H W (V * nci) (V * nco) st o (hs row_idx) (ha row_idx) -> grads_add B H W (V * nci) (V * nco) st o (fst (dkv_step (V * nci) (V * nco) quad (offsets 0 P) (columns P) H W lon_lo lat0 Ho Wo kf vf qf df Wi ps row_idx sums maxs inorm B)) (snd (dkv_step (V * nci) (V * nco) quad (offsets 0 P) (columns P) H W lon_lo lat0 Ho Wo kf vf qf df Wi ps row_idx sums maxs inorm B))).
  { intros o G b h w Hb Hh Hw c. destruct (G b h w Hb Hh Hw) as [G1 G2].
    assert (Q := fun x => DistAttnBwdProofs.dkv_sum (V * nci) (V * nco) quad (offsets 0 P) (columns P) H W lon_lo lat0 Ho Wo kf vf qf df Wi ps row_idx sums maxs inorm B b h w x Hperm Hb). cbv zeta in Q.
    split; intros x Hx; destruct (Q x) as [Q1 Q2].
    - rewrite Q1. unfold c. rewrite (G1 x Hx). f_equal. unfold hs. rewrite (lsum_perm RT _ _ _ _ Hperm). apply lsum_ext. intros ho Hho. apply in_seq in Hho. apply lsum_ext. intros wo _. rewrite csr_row_spec by (destruct HP; lia). reflexivity.
    - rewrite Q2. unfold c. rewrite (G2 x Hx). f_equal. unfold ha. rewrite (lsum_perm RT _ _ _ _ Hperm). apply lsum_ext. intros ho Hho. apply in_seq in Hho. apply lsum_ext. intros wo _. rewrite csr_row_spec by (destruct HP; lia). reflexivity. }
  assert (Trans : forall o1 o2, grads_add B H W (V * nci) (V * nco) st o1 (hs (firstn n_long row_idx)) (ha (firstn n_long row_idx)) -> grads_add B H W (V * nci) (V * nco) o1 o2 (hs (skipn n_long row_idx)) (ha (skipn n_long row_idx)) -> grads_add B H W (V * nci) (V * nco) st o2 (hs row_idx) (ha row_idx)).
  { intros o1 o2 G1 G2 b h w Hb Hh Hw c. destruct (G1 b h w Hb Hh Hw) as [A1 A2]. destruct (G2 b h w Hb Hh Hw) as [B1 B2]. split; intros x Hx.
    - unfold c. rewrite (B1 x Hx), (A1 x Hx), Rplus_assoc. f_equal. unfold hs. rewrite <- (lsum_app RT), firstn_skipn. reflexivity.
    - unfold c. rewrite (B2 x Hx), (A2 x Hx), Rplus_assoc. f_equal. unfold ha. rewrite <- (lsum_app RT), firstn_skipn. reflexivity. }
  assert (Nil : grads_add B H W (V * nci) (V * nco) st st (hs []) (ha [])) by (intros b h w _ _ _ c; unfold hs, ha; cbn [lsum_ fold_right]; split; intros; ring).
  unfold pass2_steps in E. cbv zeta in E. set (per := Nat.max 1 (Nat.min 32 (div_up max_len 32))) in E. assert (Hper : 1 <= per) by (unfold per; lia).
  assert (Fl : forall wo es, length (found (32 * NW) H W Wi ps lon_lo lat0 wo es) <= length es) by (intros; apply (found_length NW BY V nloc nci nci H W Wi ps lon_lo lat0 false HN HV1 F2 F3 ltac:(discriminate) HBY HWi)).
  assert (Hshort : forall s o1, (if Ho - n_long =? 0 then Some None else do _ <- guard (launchable dev (div_up ((Ho - n_long) * Wo) BY) 1 (p2_size (32 * NW) BY V nci nco old (div_up mid_len 1)) && (B <=? d_gridy dev) && (1 <=? B)); Some (Some (p2_kernel (32 * NW) BY V nloc nci nco H W Wi ps lon_lo lat0 B Ho Wo as_in old (offsets 0 P) (columns P) nq kA vA qA dyA quad sA mA iA (div_up mid_len 1) 1 (Ho - n_long) (skipn n_long row_idx)))) = Some s ->
    grads_add B H W (V * nci) (V * nco) st o1 (hs (firstn n_long row_idx)) (ha (firstn n_long row_idx)) -> if_any ends s o1 (fun o => grads_add B H W (V * nci) (V * nco) st o (fst (dkv_step (V * nci) (V * nco) quad (offsets 0 P) (columns P) H W lon_lo lat0 Ho Wo kf vf qf df Wi ps row_idx sums maxs inorm B)) (snd (dkv_step (V * nci) (V * nco) quad (offsets 0 P) (columns P) H W lon_lo lat0 Ho Wo kf vf qf df Wi ps row_idx sums maxs inorm B)))).
  { intros s o1 Es G1. destruct (Nat.eqb_spec (Ho - n_long) 0) as [Z|Z].
    - injection Es as <-. cbn [if_any]. apply Tot. rewrite firstn_all2 in G1 by lia. exact G1.
    - destruct (guard _) eqn:Eg in Es; [|discriminate Es]. cbn [bindo] in Es. injection Es as <-. cbn [if_any]. intros rg sh. assert (Sl : length (skipn n_long row_idx) = Ho - n_long) by (rewrite skipn_length; lia).
      eapply settles_impl; [refine (One (div_up mid_len 1) 1 (Ho - n_long) (skipn n_long row_idx) o1 (le_n 1) _ _ _ rg sh)|].
      + lia.
      + intros h Hh. apply Rl, (in_skip n_long), nth_In. lia.
      + intros h s wo Hh Hs. eapply Nat.le_trans; [apply Fl|]. eapply Nat.le_trans; [apply share_length; auto|]. apply div_up_mono; [lia|]. apply HL2, nth_In. lia.
      + cbv beta. intros o G2. apply Tot. apply (Trans o1 o G1). rewrite <- Sl, firstn_all in G2. exact G2. }
  destruct (Nat.eqb_spec n_long 0) as [Z|Z].
  - cbn [bindo] in E. destruct (if Ho - n_long =? 0 then _ else _) as [s|] eqn:Es in E; [|discriminate E]. cbn [bindo] in E. injection E as <-. unfold pass2_ends. cbn [fst snd if_any]. apply (Hshort s st Es). rewrite Z. exact Nil.
  - destruct (guard _) eqn:Eg in E; [|discriminate E]. cbn [bindo] in E. destruct (if Ho - n_long =? 0 then _ else _) as [s|] eqn:Es in E; [|discriminate E]. cbn [bindo] in E. injection E as <-. unfold pass2_ends. cbn [fst snd if_any]. intros rg sh.
    eapply settles_impl; [refine (One (div_up max_len per) per n_long row_idx st Hper _ _ _ rg sh)|].
    + lia.
    + intros h Hh. apply Rl, nth_In. lia.
    + intros h s0 wo Hh Hs. eapply Nat.le_trans; [apply Fl|]. eapply Nat.le_trans; [apply share_length; auto|]. apply div_up_mono; [exact Hper|]. apply HL1, in_first; lia.
    + cbv beta. intros o1 G1. exact (Hshort s o1 Es G1).
Qed.
End Step.

(** ** The chunks a rank receives have all rows its pattern leads to *)
From Verif Require Import AttnLayerModel DistAttnProofs2 PrimModel PrimSpec PrimProofs DistStateModel.
Theorem layer_inside : forall argsort Np A L p a o P P', dist_na_init argsort Np A L p a = Some o -> da_up o = false -> na_roff L = offsets 0 P -> na_col L = columns P -> pattern_ok P (na_Ho L) (na_Hi L * na_Wi L) ->
  1 <= Np -> Np <= na_Ho L -> Np <= na_Hi L -> p < Np -> da_roff o = offsets 0 P' -> da_col o = columns P' -> length P' = nth p (da_lat_out o) 0 ->
  rows_in_chunk (nth p (da_lat_in o) 0 + 2 * da_r_lat o) (na_Wi L) (Z.of_nat (nth p (split_starts (da_lat_in o)) 0) - Z.of_nat (da_r_lat o)) P'.
Proof.
  intros argsort Np A L p a o P P' E Eup Er Ec HP HN1 HNo HNi Hp Er' Ec' Lp h c Hc. unfold dist_na_init in E.
  rewrite (css_some (na_Hi L) Np) in E by lia. cbn [bindo] in E. destruct (compute_split_shapes (na_Wi L) A) as [lon_in|]; [|discriminate E]. cbn [bindo] in E.
  rewrite (css_some (na_Ho L) Np) in E by lia. cbn [bindo] in E. destruct (compute_split_shapes (na_Wo L) A) as [lon_out|]; [|discriminate E]. cbn [bindo] in E.
  destruct ((1 <=? na_Wi L) && (1 <=? na_Wo L)) eqn:EW; [|discriminate E]. cbn [guard bindo] in E. apply andb_true_iff in EW. destruct EW as [HWi _]. apply Nat.leb_le in HWi.
  destruct (guard (uniform_split _ _ _ _ _)); [|discriminate E]. cbn [bindo] in E. destruct (na_upsample (na_Wi L) (na_Wo L)) eqn:EU.
  - exfalso. cbv zeta in E. destruct (local_psi_up _ _ _ _ _ _ _ _ _) as [r c0]. assert (Q : da_up o = true) by (injection E as <-; reflexivity). congruence.
  - pose proof (chunk_bound (na_Ho L) Np p HN1 Hp) as HB.
    assert (LR := fun ho => local_psi_row P (na_Wi L) (na_Wo L) (bal (na_Ho L) Np) p (nth a (split_starts lon_out) 0) ho). cbv zeta in LR. rewrite starts_bal, chunk_len_nth in LR by lia. rewrite Er, Ec in E.
    destruct (local_psi _ _ _ _ _ _ _) as [rr cc] eqn:EP in E. rewrite EP in LR. cbn [fst snd] in LR.
    assert (Q : o = mkDA L false (bal (na_Hi L) Np) lon_in (bal (na_Ho L) Np) lon_out (compute_r_lat Np (na_Wi L) (bal (na_Hi L) Np) (bal (na_Ho L) Np) (offsets 0 P) (columns P)) rr cc (argsort (row_lengths rr))) by congruence.
    subst o. cbn [da_L da_roff da_col da_lat_out da_lat_in da_r_lat] in *. rewrite chunk_len_nth in Lp by lia. rewrite starts_bal, chunk_len_nth by lia.
    assert (Hh : h < chunk_len (na_Ho L) Np p). { rewrite <- Lp. destruct (Nat.lt_ge_cases h (length P')) as [|G]; [assumption|]. rewrite (nth_overflow P' [] G) in Hc. destruct Hc. }
    specialize (LR h ltac:(rewrite (proj1 HP); lia) Hh). rewrite Er', Ec' in LR. rewrite csr_row_spec in LR by lia. rewrite LR in Hc. apply in_map_iff in Hc. destruct Hc as (c' & <- & Hc).
    destruct (shift_col_split (na_Wi L) (na_Wo L) (nth a (split_starts lon_out) 0) c' HWi) as (E1 & _). rewrite E1.
    destruct (r_lat_covers P (na_Hi L) (na_Ho L) (na_Wi L) Np p (chunk_lo (na_Ho L) Np p + h) c' HN1 HNi HNo HP Hp ltac:(lia) ltac:(lia) Hc) as [Q1 Q2]. lia.
Qed.

(** ** An entry outside of the chunk *)
From Verif Require Import CudaSortProofs.
Definition has_fault (c : list instr) : bool := existsb (fun i => match i with IFault => true | _ => false end) c.
Lemma has_fault_in : forall c, has_fault c = true -> In IFault c.
Proof. intros c H. apply existsb_exists in H. destruct H as (i & Hi & E). destruct i; try discriminate. exact Hi. Qed.
Definition odd_dev : device := mkDev (16 * 1024) (16 * 1024) (16 * 1024).
Theorem outside_faults : forall vec old kA vA qA dyA quad sA mA iA st Q,
  exists k, ring_pass2 odd_dev vec old 1 1 1 1 1 1 1 0 3 1 1 1 kA vA qA dyA quad [0] (offsets 0 [[0]]) (columns [[0]]) 0 0 1 sA mA iA = Some k /\ ~ pass2_ends k st Q.
Proof.
  intros. destruct (ring_pass2 _ _ _ _ _ _ _ _ _ _ _ _ _ _ _ _ _ _ _ _ _ _ _ _ _ _ _ _ _) as [k|] eqn:E; [|destruct vec, old; vm_compute in E; discriminate E]. exists k. split; [reflexivity|].
  assert (S : match k with (None, Some k) => k_groups k = 2 /\ k_threads k = 32 /\ has_fault (k_code k 0 0) = true | _ => False end) by (destruct vec, old; vm_compute in E; injection E as <-; vm_compute; repeat split).
  destruct k as [[l|] [s|]]; try contradiction. destruct S as (S1 & S2 & S3). unfold pass2_ends. cbn [fst snd if_any]. intros HE. specialize (HE (fun _ _ _ => 0%R) (fun _ _ => 0%R)). revert HE. apply (fault_never s _ _ 0 0); [lia|lia|]. cbn [start s_code]. now apply has_fault_in.
Qed.
