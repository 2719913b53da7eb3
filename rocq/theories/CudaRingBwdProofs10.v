(** The backward ring steps, pass 1: what is launched, and all steps of a rank. *)
From Coq Require Import List Arith Lia Bool ZArith Reals Lra Permutation FunctionalExtensionality.
From Verif Require Import TensorModel TensorProofs BigSum DiscoModel DiscoSortProofs DistAttnModel DistAttnBwdModel DistAttnProofs AttnModel AttnCoreProofs GpuModel GpuSpec GpuProofs GpuProofs2 GpuRwModel GpuRwSpec GpuRwSyncProofs WarpProofs CudaDiscoModel CudaWarpModel CudaAttnModel CudaAttnSpec CudaAttnProofs CudaAttnLaneProofs CudaAttnFwdProofs CudaAttnFwdProofs2 CudaAttnLaunchProofs CudaAttnBwdModel CudaAttnBwdLaunchProofs WarpKernelProofs CudaAttnUpProofs3 CudaAttnUpProofs4 CudaKeyProofs CudaRescaleModel CudaRescaleSpec CudaRescaleProofs4 CudaRescaleProofs5 CudaRingUpSpec CudaRingSpec CudaRingModel CudaRingProofs CudaRingProofs2 CudaRingProofs6 CudaRingProofs8 CudaRingBwdModel CudaRingBwdSpec CudaRingBwdProofs5 CudaRingBwdProofs8 CudaRingBwdProofs9.
From Verif Require DistAttnBwdProofs.
From Verif Require Import AttnSpec.
Import ListNotations.
Local Open Scope nat_scope.

Lemma p1_long_inv : forall BD BY V nloc nci nco H W Wi ps lon_lo lat0 B Ho Wo as_in ninf roff col nq kA vA qA dA quad dev nl maxlen rows k,
  p1_long BD BY V nloc nci nco H W Wi ps lon_lo lat0 B Ho Wo as_in ninf roff col nq kA vA qA dA quad dev nl maxlen rows = Some k ->
  exists per, 1 <= per /\ let mid := div_up maxlen per in
  k = (p1_softmax_kernel BD BY V nci H W Wi ps lon_lo lat0 B Ho Wo roff col kA qA mid per nl rows, bwd_rescale ninf B Ho Wo V nci BD BY nloc nl rows, p1_final_kernel BD BY V nloc nci nco H W Wi ps lon_lo lat0 B Ho Wo as_in roff col nq kA vA qA dA quad mid per nl rows).
Proof.
  intros until k. intros E. unfold p1_long in E. cbv zeta in E. exists (Nat.min 32 (div_up maxlen 32)). destruct (launchable _ _ (Nat.min 32 (div_up maxlen 32)) (2 * _ * _ + _)) eqn:E1; [|discriminate E]. cbn [andb] in E.
  destruct (guard (_ && _)); [|discriminate E]. destruct (guard _); [|discriminate E]. destruct (guard _); [|discriminate E]. cbn [bindo] in E. split.
  - unfold launchable in E1. apply andb_true_iff in E1. destruct E1 as [E1 _]. apply andb_true_iff in E1. destruct E1 as [E1 _]. apply andb_true_iff in E1. destruct E1 as [_ E1]. now apply Nat.leb_le in E1.
  - cbv zeta. congruence.
Qed.

Section Step.
Variables (vec : bool) (ninf : R) (B Ck Cv H W Wi ps lon_lo : nat) (lat0 : Z) (Ho Wo nq : nat) (P : pattern) (kA vA qA dyA quad : nat -> R) (kf vf qf df : fld) (row_idx : list nat) (n_long max_len mid_len : nat).
Hypotheses (HWi : 1 <= Wi) (HP : pattern_ok P Ho (nq * Wi)) (Lk : lays B H W Ck kA kf) (Lv : lays B H W Cv vA vf) (Lq : lays B Ho Wo Ck qA qf) (Ld : lays B Ho Wo Cv dyA df) (HS : scores_above ninf B H W Ho Wo Ck kf qf).
Hypotheses (Hperm : Permutation row_idx (seq 0 Ho)) (Hlens : lengths_ok P row_idx n_long max_len mid_len) (Hn : n_long <= Ho).
Notation cells := (B * Ho * Wo).
Notation step := (bring_step Ck Cv quad (offsets 0 P) (columns P) H W lon_lo lat0 Ho Wo kf vf qf df Wi ps row_idx B).
Notation visits b h w := (fold_left (bring_visit Ck Cv quad H W lon_lo lat0 kf vf qf df Wi ps b h w) (nth h P [])).
Lemma bstep_cell : forall buf b h w, b < B -> h < Ho -> w < Wo -> step buf b h w = visits b h w (buf b h w).
Proof. intros buf b h w Hb Hh Hw. rewrite DistAttnBwdProofs.bring_step_cell by auto. rewrite csr_row_spec; [reflexivity|]. destruct HP as [E _]. lia. Qed.
Lemma bvisits_above : forall buf b h w m, bmaxima_above B Ho Wo ninf buf -> b < B -> h < Ho -> w < Wo -> b_max (visits b h w (buf b h w)) = Some m -> (ninf < m)%R.
Proof.
  intros buf b h w m HA Hb Hh Hw E. assert (Q := brun_above 1 Ck Cv H W Wi ps lon_lo lat0 B Ho Wo ninf P quad kf vf qf df HWi). rewrite !Nat.mul_1_l in Q. apply (Q HS b h w (buf b h w) m); auto. intros x. now apply HA.
Qed.
Theorem pass1_above : forall buf, bmaxima_above B Ho Wo ninf buf -> bmaxima_above B Ho Wo ninf (step buf).
Proof. intros buf HA b h w m Hb Hh Hw E. rewrite bstep_cell in E by auto. eapply bvisits_above; eauto. Qed.
Theorem pass1_step : forall ws dev k buf o, n_long = 0 \/ block_width Ck <= ws ->
  ring_pass1 dev vec ninf B Ck Cv H W Wi ps lon_lo lat0 Ho Wo nq kA vA qA dyA quad row_idx (offsets 0 P) (columns P) n_long max_len mid_len = Some k ->
  bmaxima_above B Ho Wo ninf buf -> all_bhold B Ho Wo Ck ninf o buf ->
  ring_ends ws cells k o (fun o' => all_bhold B Ho Wo Ck ninf o' (step buf)).
Proof.
  intros ws dev k buf o Hws E HA HO. unfold ring_pass1 in E. cbv zeta in E.
  destruct (Nat.leb_spec (pick_bdimx Ck) 512) as [Lp|]; [|discriminate E]. cbn [guard bindo] in E.
  assert (HCk : Ck <= 16 * 1024) by (destruct (Nat.le_gt_cases Ck (16 * 1024)) as [|G]; [assumption|apply pick_large in G; lia]).
  destruct (vec_spec vec Ck Cv) as (V & nci & nco & EV & HV & Ek & Ev & Dk & Dv). destruct (width_facts Ck HCk) as (NW & EW & HN & U & L & I).
  rewrite EV, Dk, Dv, (pick_width Ck HCk), EW in E. destruct (nloc_ok _ _ _) eqn:Eok; [|discriminate E]. cbn [guard bindo] in E.
  assert (HC1 : 1 <= Ck). { destruct Ck as [|]; [exfalso|lia]. assert (En : nci = 0) by (destruct HV as [-> | ->]; lia). rewrite En in Eok. unfold nloc_ok in Eok. apply andb_true_iff in Eok. destruct Eok as [Eok _]. apply Nat.leb_le in Eok. assert (Z0 : div_up 0 (32 * NW) = 0) by (unfold div_up; apply Nat.div_small; lia). rewrite Z0 in Eok. destruct (32 * NW =? 32); lia. }
  assert (F := nloc_facts V nci NW HV ltac:(rewrite <- Ek; exact HC1) ltac:(rewrite <- Ek; exact U) ltac:(rewrite <- Ek; exact L) ltac:(lia)). cbv zeta in F. destruct F as (_ & F2 & F3).
  set (nloc := div_up nci (32 * NW)) in *. set (BY := if 32 * NW =? 32 then 2 else 1) in *. set (as_in := (_ <=? _) && (_ <=? _)) in E.
  assert (HBY : 1 <= BY) by (unfold BY; destruct (_ =? _); lia). assert (HV1 : 1 <= V) by lia.
  assert (Hco : as_in = true -> (nloc - 1) * (32 * NW) <= nco <= nloc * (32 * NW)) by (intros T; unfold as_in in T; apply andb_true_iff in T; destruct T as [T1 T2]; apply Nat.leb_le in T1, T2; rewrite !(Nat.mul_comm _ (32 * NW)); split; assumption).
  assert (HL := rows_len Ho row_idx Hperm). assert (NDr := rows_nd Ho row_idx Hperm). assert (Rl := rows_lt Wi Ho row_idx n_long HWi Hperm Hn). destruct Hlens as [HL1 HL2].
  set (buf1 := fun b h w => if in_dec Nat.eq_dec h (firstn n_long row_idx) then visits b h w (buf b h w) else buf b h w).
  assert (HA1 : bmaxima_above B Ho Wo ninf buf1).
  { intros b h w m Hb Hh Hw Em. unfold buf1 in Em. destruct (in_dec _ _ _); [|now apply (HA b h w)]. eapply bvisits_above; eauto. }
  assert (Lk1 := Lk). assert (Lq1 := Lq). assert (Lv1 := Lv). assert (Ld1 := Ld). assert (HS1 := HS). rewrite Ek in Lk1, Lq1, HS1. rewrite Ev in Lv1, Ld1.
  unfold pass1_steps in E.
  assert (Hshort : forall s o1, (if Ho - n_long =? 0 then Some None else do s <- p1_short (32 * NW) BY V nloc nci nco H W Wi ps lon_lo lat0 B Ho Wo as_in ninf (offsets 0 P) (columns P) nq kA vA qA dyA quad dev n_long mid_len row_idx; Some (Some s)) = Some s ->
    all_bhold B Ho Wo Ck ninf o1 buf1 -> if_any short_ends s o1 (fun o' => all_bhold B Ho Wo Ck ninf o' (step buf))).
  { intros s o1 Es HO1. destruct (Nat.eqb_spec (Ho - n_long) 0) as [Z|Z].
    - injection Es as <-. cbn [if_any]. intros b h w Hb Hh Hw. rewrite bstep_cell by auto. specialize (HO1 b h w Hb Hh Hw). unfold buf1 in HO1. destruct (in_dec _ _ _) as [|Nin]; [exact HO1|exfalso]. apply Nin. rewrite firstn_all2 by lia. apply (Permutation_in _ (Permutation_sym Hperm)). apply in_seq. lia.
    - destruct (p1_short _ _ _ _ _ _ _ _ _ _ _ _ _ _ _ _ _ _ _ _ _ _ _ _ _ _ _ _ _) as [s0|] eqn:Es0; [|discriminate Es]. cbn [bindo] in Es. injection Es as <-. unfold p1_short in Es0. cbv zeta in Es0. destruct (guard _); [|discriminate Es0]. cbn [bindo] in Es0.
      assert (Es1 : s0 = p1_kernel (32 * NW) BY V nloc nci nco H W Wi ps lon_lo lat0 B Ho Wo as_in ninf (offsets 0 P) (columns P) nq kA vA qA dyA quad mid_len (Ho - n_long) (skipn n_long row_idx)) by congruence. clear Es0. subst s0. cbn [if_any]. intros rg sh.
      set (base := list_sum (map fst [(B * H * W * (V * nci), kA); (B * H * W * (V * nco), vA); (cells * (V * nci), qA); (cells * (V * nco), dyA); (nq, quad)])).
      replace (k_insize _ - k_outsize _) with base by (unfold p1_kernel; cbn [k_insize k_outsize]; cbv zeta; fold base; lia).
      rewrite Ek in HO1.
      assert (Sl : length (skipn n_long row_idx) = Ho - n_long) by (rewrite skipn_length; lia).
      eapply lsettles_mono; [|refine (short_settles NW BY V nloc nci nco H W Wi ps lon_lo lat0 B Ho Wo as_in ninf P nq kA vA qA dyA quad kf vf qf df HN HV1 F2 F3 Hco HBY HWi HP Lk1 Lv1 Lq1 Ld1 HS1 mid_len (Ho - n_long) (skipn n_long row_idx) _ _ _ _ o1 buf1 HA1 HO1 rg sh)].
      + cbv beta. intros o2 Ho2 b h w Hb Hh Hw. rewrite bstep_cell by auto. destruct (Ho2 b h w Hb Hh Hw) as [P1 P2]. rewrite firstn_all2 in P1, P2 by lia. rewrite <- Ek, <- Ev in P1. rewrite <- Ek in P2.
        assert (Nd2 := NDr). rewrite <- (firstn_skipn n_long row_idx) in Nd2.
        destruct (in_dec Nat.eq_dec h (skipn n_long row_idx)) as [Hi|Hi].
        * specialize (P1 Hi). unfold buf1 in P1. destruct (in_dec _ _ _) as [Hj|_]; [exfalso|exact P1]. clear - Nd2 Hi Hj. revert Nd2. generalize (firstn n_long row_idx) (skipn n_long row_idx) Hi Hj. intros l1 l2 H2 H1 N. induction l1 as [|x l1 IH]; [destruct H1|]. cbn in N. apply NoDup_cons_iff in N. destruct N as [N1 N2]. destruct H1 as [->|H1]; [apply N1, in_or_app; now right|now apply IH].
        * specialize (P2 Hi). unfold buf1 in P2. destruct (in_dec _ _ _) as [Hj|Hj]; [exact P2|exfalso]. assert (Hin : In h row_idx) by (apply (Permutation_in _ (Permutation_sym Hperm)), in_seq; lia). rewrite <- (firstn_skipn n_long row_idx) in Hin. apply in_app_iff in Hin. tauto.
      + lia.
      + now apply nodup_skip.
      + intros h Hh. apply Rl, (in_skip n_long), nth_In. lia.
      + intros h Hh. apply HL2, nth_In. lia. }
  destruct (Nat.eqb_spec n_long 0) as [Z|Z].
  - cbn [bindo] in E. destruct (if Ho - n_long =? 0 then _ else _) as [s|] eqn:Es in E; [|discriminate E]. cbn [bindo] in E. injection E as <-. unfold ring_ends. cbn [fst snd if_any]. apply (Hshort s o Es). intros b h w Hb Hh Hw. unfold buf1. rewrite Z. cbn [firstn]. destruct (in_dec _ _ _) as [[]|_]. now apply HO.
  - destruct (p1_long _ _ _ _ _ _ _ _ _ _ _ _ _ _ _ _ _ _ _ _ _ _ _ _ _ _ _ _ _) as [l|] eqn:El in E; [|discriminate E]. cbn [bindo] in E. destruct (if Ho - n_long =? 0 then _ else _) as [s|] eqn:Es in E; [|discriminate E]. cbn [bindo] in E. injection E as <-. unfold ring_ends. cbn [fst snd if_any].
    apply p1_long_inv in El. destruct El as (per & Hper & El). cbv zeta in El. subst l. destruct Hws as [|Hws]; [lia|].
    assert (HO1 := HO). rewrite Ek in HO1.
    eapply long_ends_mono; [|refine (blong_settles NW BY V nloc nci nco H W Wi ps lon_lo lat0 B Ho Wo as_in ninf P nq kA vA qA dyA quad kf vf qf df HN HV1 F2 F3 Hco HBY HWi HP Lk1 Lv1 Lq1 Ld1 HS1 (div_up max_len per) per n_long row_idx Hper _ NDr Rl _ _ ws _ o buf HA HO1)].
    + cbv beta. intros o1 Ho1. apply (Hshort s o1 Es). intros b h w Hb Hh Hw. destruct (Ho1 b h w Hb Hh Hw) as [P1 P2]. rewrite <- Ek, <- Ev in P1. rewrite <- Ek in P2. unfold buf1. destruct (in_dec _ _ _) as [Hi|Hi]; [now apply P1|now apply P2].
    + lia.
    + intros h s0 wo Hh Hs0. eapply Nat.le_trans; [apply (found_length NW BY V nloc nci nci H W Wi ps lon_lo lat0 false HN HV1 F2 F3 ltac:(discriminate) HBY HWi)|]. eapply Nat.le_trans; [apply share_length; auto|]. apply div_up_mono; [exact Hper|]. apply HL1, in_first; lia.
    + intros cur out rg sh. assert (Mv : (V * nci) mod V = 0) by (rewrite Nat.mul_comm; apply Nat.mod_mul; lia). assert (Dv' : V * nci / V = nci) by (rewrite Nat.mul_comm; apply Nat.div_mul; lia).
      assert (Q := long_together ninf B Ho Wo V (V * nci) n_long row_idx cur HV1 Mv ltac:(rewrite <- Ek; exact HC1) ltac:(lia) NDr Rl (32 * NW) ltac:(lia) 2 ws out rg sh ltac:(rewrite <- EW; exact Hws)). rewrite Dv' in Q. exact Q.
Qed.
End Step.

(** Round the ring *)
Theorem pass1_round : forall ws dev vec ninf B Ck Cv Wi ps Ho Wo nq qA dyA quad qf df (row_idx : chunk -> list nat) (n_long max_len mid_len : chunk -> nat), lays B Ho Wo Ck qA qf -> lays B Ho Wo Cv dyA df -> 1 <= Wi ->
  let ks c := ring_pass1 dev vec ninf B Ck Cv (c_H c) (c_W c) Wi ps (c_lon c) (c_lat c) Ho Wo nq (c_kA c) (c_vA c) qA dyA quad (row_idx c) (offsets 0 (c_pat c)) (columns (c_pat c)) (n_long c) (max_len c) (mid_len c) in
  let seq_step buf c := bring_step Ck Cv quad (offsets 0 (c_pat c)) (columns (c_pat c)) (c_H c) (c_W c) (c_lon c) (c_lat c) Ho Wo (c_k c) (c_v c) qf df Wi ps (row_idx c) B buf in
  forall l o buf, (forall c, In c l -> gchunk_ok B Ck Cv Ho Wo Wi nq ninf qf c /\ Permutation (row_idx c) (seq 0 Ho) /\ lengths_ok (c_pat c) (row_idx c) (n_long c) (max_len c) (mid_len c) /\ n_long c <= Ho /\ (n_long c = 0 \/ block_width Ck <= ws) /\ ks c <> None) ->
  bmaxima_above B Ho Wo ninf buf -> all_bhold B Ho Wo Ck ninf o buf ->
  rings_end ws (B * Ho * Wo) ks l o (fun o' => all_bhold B Ho Wo Ck ninf o' (fold_left seq_step l buf)).
Proof.
  intros ws dev vec ninf B Ck Cv Wi ps Ho Wo nq qA dyA quad qf df row_idx n_long max_len mid_len HQ HD HWi ks seq_step. induction l as [|c l IH]; intros o buf HC HA HO; [exact HO|]. cbn [rings_end fold_left]. destruct (HC c (or_introl eq_refl)) as ([C1 C2 C3 C4] & Hp & Hl & Hn & Hw & Nk). destruct (ks c) as [k|] eqn:Ek; [|congruence].
  eapply ring_ends_mono; [|eapply (pass1_step vec ninf B Ck Cv (c_H c) (c_W c) Wi ps (c_lon c) (c_lat c) Ho Wo nq (c_pat c) (c_kA c) (c_vA c) qA dyA quad (c_k c) (c_v c) qf df (row_idx c) (n_long c) (max_len c) (mid_len c)); eauto].
  cbv beta. intros o' Ho'. apply (IH o' (seq_step buf c)); [intros c' Hc'; apply HC; now right| |exact Ho'].
  eapply (pass1_above ninf B Ck Cv (c_H c) (c_W c) Wi ps (c_lon c) (c_lat c) Ho Wo nq (c_pat c) quad (c_k c) (c_v c) qf df); eauto.
Qed.

(** ** The first backward pass of a rank *)
From Verif Require Import AttnLayerModel CudaUtilsModel.
Lemma bempty_hold : forall B Ho Wo Ck ninf, all_bhold B Ho Wo Ck ninf (fun i => if i <? B * Ho * Wo then ninf else 0%R) (fun _ _ _ => bst0).
Proof.
  intros B Ho Wo Ck ninf b h w Hb Hh Hw. assert (L : (b * Ho + h) * Wo + w < B * Ho * Wo) by (rewrite <- (CudaRingProofs2.cell_of_eq Ho Wo b h w); now apply CudaRingProofs2.cell_of_lt).
  set (c := (b * Ho + h) * Wo + w) in *. set (N := B * Ho * Wo) in *. clearbody c N. split; [|split; [|split]].
  - unfold the_max. now rewrite (proj2 (Nat.ltb_lt _ _) L).
  - unfold CudaRescaleSpec.the_sum. rewrite (proj2 (Nat.ltb_ge _ _)) by lia. reflexivity.
  - unfold CudaRescaleSpec.the_sum. rewrite (proj2 (Nat.ltb_ge _ _)) by lia. reflexivity.
  - intros ch Hc. unfold the_acc. rewrite !(proj2 (Nat.ltb_ge _ _)) by lia. split; reflexivity.
Qed.
Theorem pass1_layer : forall ws dev vec ninf thres o p a visits qn dyn sv B Ck Cv P nq n mx md, let L := da_L o in let Ho := nth p (da_lat_out o) 0 in let Wo := nth a (da_lon_out o) 0 in
  da_up o = false -> da_roff o = offsets 0 P -> da_col o = columns P -> pattern_ok P Ho (nq * na_Wi L) -> 1 <= na_Wi L ->
  Permutation (da_row o) (seq 0 Ho) -> Sorted.StronglySorted (fun x y => length (nth y P []) <= length (nth x P [])) (da_row o) -> split_cpu thres (da_row o) (da_roff o) Ho = (n, mx, md) ->
  n = 0 \/ block_width Ck <= ws -> shp qn = [B; Ho; Wo; Ck] -> shp dyn = [B; Ho; Wo; Cv] ->
  let ch (s : nat * (tensor R * tensor R)) := let k := fst (snd s) in let v := snd (snd s) in
    mkChunk (dimsz k 1) (dimsz k 2) (nth (fst s) (split_starts (da_lon_in o)) 0) (Z.of_nat (nth p (split_starts (da_lat_in o)) 0%nat) - Z.of_nat (da_r_lat o)) P (flat k) (flat v) (hwc k) (hwc v) in
  let ks c := ring_pass1 dev vec ninf B Ck Cv (c_H c) (c_W c) (na_Wi L) (na_Wi L / na_Wo L) (c_lon c) (c_lat c) Ho Wo nq (c_kA c) (c_vA c) (flat qn) (flat dyn) (na_quad L) (da_row o) (da_roff o) (da_col o) n mx md in
  (forall s, In s visits -> (exists H W, shp (fst (snd s)) = [B; H; W; Ck] /\ shp (snd (snd s)) = [B; H; W; Cv] /\ scores_above ninf B H W Ho Wo Ck (hwc (fst (snd s))) (hwc qn)) /\ ks (ch s) <> None) ->
  rings_end ws (B * Ho * Wo) ks (map ch visits) (fun i => if i <? B * Ho * Wo then ninf else 0%R) (fun o' => all_bhold B Ho Wo Ck ninf o' (bwd_state o p a visits qn dyn sv B)).
Proof.
  intros ws dev vec ninf thres o p a visits qn dyn sv B Ck Cv P nq n mx md L Ho Wo Eup Er Ec HP HWi Hp Hs Esp Hw Sq Sd ch ks HV.
  rewrite Er in Esp. destruct (layer_split thres P Ho _ (da_row o) n mx md HP Hp Hs Esp) as [Hl Hn].
  assert (Lq : lays B Ho Wo Ck (flat qn) (hwc qn)) by (intros b h w c Hb Hh Hww Hc; exact (flat4 qn B Ho Wo Ck b h w c Sq Hb Hh Hww Hc)).
  assert (Ld : lays B Ho Wo Cv (flat dyn) (hwc dyn)) by (intros b h w c Hb Hh Hww Hc; exact (flat4 dyn B Ho Wo Cv b h w c Sd Hb Hh Hww Hc)).
  assert (Q := pass1_round ws dev vec ninf B Ck Cv (na_Wi L) (na_Wi L / na_Wo L) Ho Wo nq (flat qn) (flat dyn) (na_quad L) (hwc qn) (hwc dyn) (fun _ => da_row o) (fun _ => n) (fun _ => mx) (fun _ => md) Lq Ld HWi). cbv zeta in Q.
  assert (Es : fold_left (fun buf c => bring_step Ck Cv (na_quad L) (offsets 0 (c_pat c)) (columns (c_pat c)) (c_H c) (c_W c) (c_lon c) (c_lat c) Ho Wo (c_k c) (c_v c) (hwc qn) (hwc dyn) (na_Wi L) (na_Wi L / na_Wo L) (da_row o) B buf) (map ch visits) (fun _ _ _ => bst0) = bwd_state o p a visits qn dyn sv B).
  { assert (D3 : dimsz qn 3 = Ck) by (unfold dimsz; rewrite Sq; reflexivity). unfold bwd_state. cbv zeta. rewrite Eup, Er, Ec, D3. generalize (fun _ _ _ : nat => bst0).
    assert (Dv : forall s, In s visits -> dimsz (snd (snd s)) 3 = Cv) by (intros s Hin; destruct (HV s Hin) as ((H & W & _ & S2 & _) & _); unfold dimsz; rewrite S2; reflexivity). clear HV. induction visits as [|s l IH]; intros buf; [reflexivity|]. cbn [map fold_left]. rewrite IH by (intros; apply Dv; now right). rewrite (Dv s (or_introl eq_refl)). reflexivity. }
  rewrite <- Es.
  assert (Ek : forall c, c_pat c = P -> ks c = ring_pass1 dev vec ninf B Ck Cv (c_H c) (c_W c) (na_Wi L) (na_Wi L / na_Wo L) (c_lon c) (c_lat c) Ho Wo nq (c_kA c) (c_vA c) (flat qn) (flat dyn) (na_quad L) (da_row o) (offsets 0 (c_pat c)) (columns (c_pat c)) n mx md) by (intros c Epc; unfold ks; rewrite Epc, Er, Ec; reflexivity).
  assert (Ext : forall l st X, (forall c, In c l -> c_pat c = P) -> rings_end ws (B * Ho * Wo) (fun c => ring_pass1 dev vec ninf B Ck Cv (c_H c) (c_W c) (na_Wi L) (na_Wi L / na_Wo L) (c_lon c) (c_lat c) Ho Wo nq (c_kA c) (c_vA c) (flat qn) (flat dyn) (na_quad L) (da_row o) (offsets 0 (c_pat c)) (columns (c_pat c)) n mx md) l st X -> rings_end ws (B * Ho * Wo) ks l st X).
  { clear - Ek. induction l as [|c l IH]; intros st X Hc HR; [exact HR|]. cbn [rings_end] in *. rewrite Ek by (apply Hc; now left). destruct (ring_pass1 _ _ _ _ _ _ _ _ _ _ _ _ _ _ _ _ _ _ _ _ _ _ _ _ _ _) as [k|]; [|destruct HR]. eapply ring_ends_mono; [|exact HR]. cbv beta. intros o'. apply IH. intros c' Hc'. apply Hc. now right. }
  apply Ext; [intros c Hc; apply in_map_iff in Hc; destruct Hc as (s & <- & _); reflexivity|]. apply Q.
  - intros c Hc. apply in_map_iff in Hc. destruct Hc as (s & <- & Hsv). destruct (HV s Hsv) as ((H & W & S1 & S2 & S3) & Nk). rewrite Ek in Nk by reflexivity.
    assert (D1 : dimsz (fst (snd s)) 1 = H) by (unfold dimsz; rewrite S1; reflexivity). assert (D2 : dimsz (fst (snd s)) 2 = W) by (unfold dimsz; rewrite S1; reflexivity).
    split; [|split; [exact Hp|split; [exact Hl|split; [exact Hn|split; [exact Hw|exact Nk]]]]]. split; cbn [ch c_pat c_H c_W c_kA c_k c_vA c_v]; rewrite ?D1, ?D2; [exact HP|intros b h w c Hb Hh Hww Hc; exact (flat4 _ B H W Ck b h w c S1 Hb Hh Hww Hc)|intros b h w c Hb Hh Hww Hc; exact (flat4 _ B H W Cv b h w c S2 Hb Hh Hww Hc)|exact S3].
  - intros b h w m _ _ _ E. discriminate.
  - apply bempty_hold.
Qed.
