(** One ring step of the gather direction, and all of them. *)
From Coq Require Import List Arith Lia Bool ZArith Reals Lra Permutation.
From Verif Require Import TensorModel TensorProofs BigSum DiscoModel DiscoSortProofs DistAttnModel DistAttnProofs AttnModel AttnCoreProofs GpuModel GpuSpec GpuProofs GpuProofs2 GpuRwModel GpuRwSpec GpuRwSyncProofs CudaDiscoModel CudaWarpModel CudaAttnModel CudaAttnSpec CudaAttnProofs CudaAttnFwdProofs CudaAttnFwdProofs2 CudaAttnLaunchProofs CudaKeyProofs WarpKernelProofs CudaAttnUpProofs3 CudaAttnUpProofs4 CudaRescaleModel CudaRescaleSpec CudaRescaleProofs4 CudaRescaleProofs5 CudaRingUpSpec CudaRingSpec CudaRingModel CudaRingProofs CudaRingProofs2 CudaRingProofs3 CudaRingProofs4 CudaRingProofs7.
From Verif Require Import AttnSpec.
Import ListNotations.
Local Open Scope nat_scope.

Lemma long_ends_mono : forall ws cells k st (Q Q' : (nat -> R) -> Prop), (forall o, Q o -> Q' o) -> long_ends ws cells k st Q -> long_ends ws cells k st Q'.
Proof.
  intros ws cells [[k1 k2] k3] st Q Q' HQ HS rg1 sh1. eapply settles_impl; [apply HS|]. cbv beta. intros m Hm rg2 sh2. eapply lsettles_mono; [|apply Hm]. cbv beta. intros s Hs rg3 sh3. eapply settles_impl; [apply Hs|]. cbv beta. intros o Ho. apply HQ, Ho.
Qed.
Lemma ring_ends_mono : forall ws cells k st (Q Q' : (nat -> R) -> Prop), (forall o, Q o -> Q' o) -> ring_ends ws cells k st Q -> ring_ends ws cells k st Q'.
Proof.
  intros ws cells [l s] st Q Q' HQ HS. unfold ring_ends, if_any in *. cbn [fst snd] in *. assert (HQs : forall o, match s with None => Q o | Some k => short_ends k o Q end -> match s with None => Q' o | Some k => short_ends k o Q' end).
  { intros o Ho. destruct s as [k|]; [|now apply HQ]. intros rg sh. eapply lsettles_mono; [exact HQ|apply Ho]. }
  destruct l as [k|]; [|now apply HQs]. eapply long_ends_mono; [exact HQs|exact HS].
Qed.
Lemma in_skip : forall n (l : list nat) x, In x (skipn n l) -> In x l.
Proof. intros n l x Hx. rewrite <- (firstn_skipn n l). apply in_or_app. now right. Qed.
Lemma in_skip' : forall A (x : A) n (l : list A), In x (skipn n l) -> In x l.
Proof. intros A x n l Hx. rewrite <- (firstn_skipn n l). apply in_or_app. now right. Qed.
Lemma div_up_mono : forall a b d, 1 <= d -> a <= b -> div_up a d <= div_up b d.
Proof. intros a b d Hd Hab. unfold div_up. apply Nat.div_le_mono; lia. Qed.
Lemma long_step_inv : forall BD BY V nloc nci nco H W Wi ps lon_lo lat0 B Ho Wo as_out ninf roff col nq kA vA qA quad dev nl maxlen rows k,
  long_step BD BY V nloc nci nco H W Wi ps lon_lo lat0 B Ho Wo as_out ninf roff col nq kA vA qA quad dev nl maxlen rows = Some k ->
  exists per, 1 <= per /\ let mid := div_up maxlen per in
  k = (rsoftmax_kernel BD BY V nci H W Wi ps lon_lo lat0 B Ho Wo roff col kA qA mid per nl rows, fwd_rescale ninf B Ho Wo V nco BD BY nloc nl rows, rfinal_kernel BD BY V nloc nci nco H W Wi ps lon_lo lat0 B Ho Wo as_out roff col nq kA vA qA quad mid per nl rows).
Proof.
  intros until k. intros E. unfold long_step in E. cbv zeta in E. exists (Nat.min 32 (div_up maxlen 32)). destruct (launchable _ _ (Nat.min 32 (div_up maxlen 32)) ((V * nci + 2 * _) * _ + _)) eqn:E1; [|discriminate E]. cbn [andb] in E.
  destruct (guard (_ && _)); [|discriminate E]. destruct (guard _); [|discriminate E]. destruct (guard _); [|discriminate E]. cbn [bindo] in E. split.
  - unfold launchable in E1. apply andb_true_iff in E1. destruct E1 as [E1 _]. apply andb_true_iff in E1. destruct E1 as [E1 _]. apply andb_true_iff in E1. destruct E1 as [_ E1]. now apply Nat.leb_le in E1.
  - cbv zeta. congruence.
Qed.
Section Step.
Variables (vec : bool) (ninf : R) (B Ck Cv H W Wi ps lon_lo : nat) (lat0 : Z) (Ho Wo nq : nat) (P : pattern) (kA vA qA quad : nat -> R) (kf vf qf : fld) (row_idx : list nat) (n_long max_len mid_len : nat).
Hypotheses (HWi : 1 <= Wi) (HP : pattern_ok P Ho (nq * Wi)) (Lk : lays B H W Ck kA kf) (Lv : lays B H W Cv vA vf) (Lq : lays B Ho Wo Ck qA qf) (HS : scores_above ninf B H W Ho Wo Ck kf qf).
Hypotheses (Hperm : Permutation row_idx (seq 0 Ho)) (Hlens : lengths_ok P row_idx n_long max_len mid_len) (Hn : n_long <= Ho).
Notation cells := (B * Ho * Wo).
Notation step := (ring_step Ck quad (offsets 0 P) (columns P) H W lon_lo lat0 Ho Wo kf vf qf Wi ps row_idx B).
Notation fwd dev := (ring_fwd dev vec ninf B Ck Cv H W Wi ps lon_lo lat0 Ho Wo nq kA vA qA quad row_idx (offsets 0 P) (columns P) n_long max_len mid_len).
Notation visits b h w := (fold_left (ring_visit Ck quad H W lon_lo lat0 kf vf qf Wi ps b h w) (nth h P [])).
Lemma step_cell : forall buf b h w, b < B -> h < Ho -> w < Wo -> step buf b h w = visits b h w (buf b h w).
Proof. intros buf b h w Hb Hh Hw. rewrite ring_step_cell by auto. rewrite csr_row_spec; [reflexivity|]. destruct HP as [E _]. lia. Qed.
Lemma rows_len : length row_idx = Ho.
Proof. rewrite (Permutation_length Hperm). apply seq_length. Qed.
Lemma rows_nd : NoDup row_idx.
Proof. eapply Permutation_NoDup; [symmetry; exact Hperm|apply seq_NoDup]. Qed.
Lemma rows_lt : forall r, In r row_idx -> r < Ho.
Proof. intros r Hr. apply (Permutation_in _ Hperm) in Hr. apply in_seq in Hr. lia. Qed.
Theorem gather_step : forall ws dev k buf o, n_long = 0 \/ block_width Cv <= ws -> fwd dev = Some k -> maxima_above B Ho Wo ninf buf -> all_hold B Ho Wo Cv ninf o buf ->
  ring_ends ws cells k o (fun o' => all_hold B Ho Wo Cv ninf o' (step buf)).
Proof.
  intros ws dev k buf o Hws E HA HO. unfold ring_fwd in E. cbv zeta in E.
  destruct (Nat.leb_spec (pick_bdimx Cv) 1024) as [Lp|]; [|discriminate E]. cbn [guard bindo] in E.
  assert (HCv : Cv <= 16 * 1024) by (destruct (Nat.le_gt_cases Cv (16 * 1024)) as [|G]; [assumption|apply pick_large in G; lia]).
  destruct (vec_spec vec Ck Cv) as (V & nci & nco & EV & HV & Ek & Ev & Dk & Dv). destruct (width_facts Cv HCv) as (NW & EW & HN & U & L & I).
  rewrite EV, Dk, Dv, (pick_width Cv HCv), EW in E. destruct (nloc_ok _ _ _) eqn:Eok; [|discriminate E]. cbn [guard bindo] in E.
  assert (HC1 : 1 <= Cv). { destruct Cv as [|]; [exfalso|lia]. assert (En : nco = 0) by (destruct HV as [-> | ->]; lia). rewrite En in Eok. unfold nloc_ok in Eok. apply andb_true_iff in Eok. destruct Eok as [Eok _]. apply Nat.leb_le in Eok. assert (Z0 : div_up 0 (32 * NW) = 0) by (unfold div_up; apply Nat.div_small; lia). rewrite Z0 in Eok. destruct (32 * NW =? 32); lia. }
  assert (F := nloc_facts V nco NW HV ltac:(rewrite <- Ev; exact HC1) ltac:(rewrite <- Ev; exact U) ltac:(rewrite <- Ev; exact L) ltac:(lia)). cbv zeta in F. destruct F as (_ & F2 & F3).
  set (nloc := div_up nco (32 * NW)) in *. set (BY := if 32 * NW =? 32 then 2 else 1) in *. set (as_out := (_ <=? _) && (_ <=? _)) in E.
  assert (HBY : 1 <= BY) by (unfold BY; destruct (_ =? _); lia). assert (HV1 : 1 <= V) by lia.
  assert (Hin : as_out = true -> (nloc - 1) * (32 * NW) <= nci <= nloc * (32 * NW)) by (intros T; unfold as_out in T; apply andb_true_iff in T; destruct T as [T1 T2]; apply Nat.leb_le in T1, T2; rewrite !(Nat.mul_comm _ (32 * NW)); split; assumption).
  assert (HL := rows_len). assert (NDr := rows_nd). destruct Hlens as [HL1 HL2].
  (* after the long rows *)
  set (buf1 := fun b h w => if in_dec Nat.eq_dec h (firstn n_long row_idx) then visits b h w (buf b h w) else buf b h w).
  assert (HA1 : maxima_above B Ho Wo ninf buf1).
  { intros b h w m Hb Hh Hw Em. unfold buf1 in Em. destruct (in_dec _ _ _); [|now apply (HA b h w)]. rewrite Ek in Em, HS. eapply (run_above NW BY V nloc nci nco H W Wi ps lon_lo lat0 B Ho Wo as_out ninf P quad kf vf qf); eauto. }
  unfold both_steps in E.
  assert (Hshort : forall s o1, (if Ho - n_long =? 0 then Some None else do s <- short_step (32 * NW) BY V nloc nci nco H W Wi ps lon_lo lat0 B Ho Wo as_out ninf (offsets 0 P) (columns P) nq kA vA qA quad dev n_long mid_len row_idx; Some (Some s)) = Some s ->
    all_hold B Ho Wo Cv ninf o1 buf1 -> if_any short_ends s o1 (fun o' => all_hold B Ho Wo Cv ninf o' (step buf))).
  { intros s o1 Es HO1. destruct (Nat.eqb_spec (Ho - n_long) 0) as [Z|Z].
    - injection Es as <-. cbn [if_any]. intros b h w Hb Hh Hw. rewrite step_cell by auto. specialize (HO1 b h w Hb Hh Hw). unfold buf1 in HO1. destruct (in_dec _ _ _) as [|Nin]; [exact HO1|exfalso]. apply Nin. rewrite firstn_all2 by lia. apply (Permutation_in _ (Permutation_sym Hperm)). apply in_seq. lia.
    - destruct (short_step _ _ _ _ _ _ _ _ _ _ _ _ _ _ _ _ _ _ _ _ _ _ _ _ _ _ _ _) as [s0|] eqn:Es0; [|discriminate Es]. cbn [bindo] in Es. injection Es as <-. unfold short_step in Es0. cbv zeta in Es0. destruct (guard _); [|discriminate Es0]. cbn [bindo] in Es0. assert (Es1 : s0 = rspecial_kernel (32 * NW) BY V nloc nci nco H W Wi ps lon_lo lat0 B Ho Wo as_out ninf (offsets 0 P) (columns P) nq kA vA qA quad mid_len (Ho - n_long) (skipn n_long row_idx)) by congruence. clear Es0. subst s0. cbn [if_any]. intros rg sh.
      set (base := list_sum (map fst [(B * H * W * (V * nci), kA); (B * H * W * (V * nco), vA); (cells * (V * nci), qA); (nq, quad)])).
      replace (k_insize _ - k_outsize _) with base by (unfold rspecial_kernel; cbn [k_insize k_outsize]; cbv zeta; fold base; lia).
      rewrite Ek in Lk, Lq, HS. rewrite Ev in Lv, HO1. rewrite Ev.
      assert (Sl : length (skipn n_long row_idx) = Ho - n_long) by (rewrite skipn_length; lia).
      eapply lsettles_mono; [|refine (special_settles NW BY V nloc nci nco H W Wi ps lon_lo lat0 B Ho Wo as_out ninf P nq kA vA qA quad kf vf qf HN HV1 F2 F3 Hin HBY HWi HP Lk Lv Lq HS mid_len (Ho - n_long) (skipn n_long row_idx) _ _ _ _ o1 buf1 HA1 HO1 rg sh)].
      + cbv beta. intros o2 Ho2 b h w Hb Hh Hw. rewrite step_cell by auto. destruct (Ho2 b h w Hb Hh Hw) as [P1 P2]. rewrite firstn_all2 in P1, P2 by lia.
        assert (Nd2 := NDr). rewrite <- (firstn_skipn n_long row_idx) in Nd2.
        destruct (in_dec Nat.eq_dec h (skipn n_long row_idx)) as [Hi|Hi].
        * specialize (P1 Hi). unfold buf1 in P1. destruct (in_dec _ _ _) as [Hj|_]; [exfalso|rewrite Ek; exact P1]. clear - Nd2 Hi Hj. revert Nd2. generalize (firstn n_long row_idx) (skipn n_long row_idx) Hi Hj. intros l1 l2 H2 H1 N. induction l1 as [|x l1 IH]; [destruct H1|]. cbn in N. apply NoDup_cons_iff in N. destruct N as [N1 N2]. destruct H1 as [->|H1]; [apply N1, in_or_app; now right|now apply IH].
        * specialize (P2 Hi). unfold buf1 in P2. destruct (in_dec _ _ _) as [Hj|Hj]; [rewrite Ek; rewrite Ek in P2; exact P2|exfalso]. assert (In h row_idx) by (apply (Permutation_in _ (Permutation_sym Hperm)), in_seq; lia). rewrite <- (firstn_skipn n_long row_idx) in H0. apply in_app_iff in H0. tauto.
      + lia.
      + rewrite <- (firstn_skipn n_long row_idx) in NDr. clear - NDr. revert NDr. generalize (firstn n_long row_idx) (skipn n_long row_idx). intros l1 l2 N. induction l1 as [|x l1 IH]; [exact N|]. apply IH. cbn in N. now apply NoDup_cons_iff in N.
      + intros h Hh. apply rows_lt, (in_skip n_long), nth_In. lia.
      + intros h Hh. apply HL2, nth_In. lia. }
  destruct (Nat.eqb_spec n_long 0) as [Z|Z].
  - cbn [bindo] in E. destruct (if Ho - n_long =? 0 then _ else _) as [s|] eqn:Es in E; [|discriminate E]. cbn [bindo] in E. injection E as <-. unfold ring_ends. cbn [fst snd if_any]. apply (Hshort s o Es). intros b h w Hb Hh Hw. unfold buf1. rewrite Z. cbn [firstn]. destruct (in_dec _ _ _) as [[]|_]. now apply HO.
  - destruct (long_step _ _ _ _ _ _ _ _ _ _ _ _ _ _ _ _ _ _ _ _ _ _ _ _ _ _ _ _) as [l|] eqn:El in E; [|discriminate E]. cbn [bindo] in E. destruct (if Ho - n_long =? 0 then _ else _) as [s|] eqn:Es in E; [|discriminate E]. cbn [bindo] in E. injection E as <-. unfold ring_ends. cbn [fst snd if_any].
    apply long_step_inv in El. destruct El as (per & Hper & El). cbv zeta in El. subst l. destruct Hws as [|Hws]; [lia|].
    assert (Lk1 := Lk). assert (Lq1 := Lq). assert (Lv1 := Lv). assert (HS1 := HS). assert (HO1 := HO). rewrite Ek in Lk1, Lq1, HS1. rewrite Ev in Lv1, HO1.
    eapply long_ends_mono; [|refine (long_settles NW BY V nloc nci nco H W Wi ps lon_lo lat0 B Ho Wo as_out ninf P nq kA vA qA quad kf vf qf HN HV1 F2 F3 Hin HBY HWi HP Lk1 Lv1 Lq1 HS1 (div_up max_len per) per n_long row_idx Hper _ NDr rows_lt _ _ ws _ o buf HA HO1)].
    + cbv beta. intros o1 Ho1. apply (Hshort s o1 Es). intros b h w Hb Hh Hw. destruct (Ho1 b h w Hb Hh Hw) as [P1 P2]. unfold buf1. rewrite Ev. destruct (in_dec _ _ _) as [Hi|Hi]; [rewrite Ek; now apply P1|now apply P2].
    + lia.
    + intros h s0 wo Hh Hs0. eapply Nat.le_trans; [apply (found_length NW BY V nloc nci nco H W Wi ps lon_lo lat0 as_out HN HV1 F2 F3 Hin HBY HWi)|]. eapply Nat.le_trans; [apply share_length; auto|]. apply div_up_mono; [exact Hper|]. apply HL1. rewrite <- (firstn_skipn n_long row_idx) at 1. rewrite app_nth1 by (rewrite firstn_length; lia). apply nth_In. rewrite firstn_length. lia.
    + intros cur out rg sh. assert (Mv : (V * nco) mod V = 0) by (rewrite Nat.mul_comm; apply Nat.mod_mul; lia). assert (Dv' : V * nco / V = nco) by (rewrite Nat.mul_comm; apply Nat.div_mul; lia).
      assert (Q := long_together ninf B Ho Wo V (V * nco) n_long row_idx cur HV1 Mv ltac:(rewrite <- Ev; exact HC1) ltac:(lia) NDr rows_lt (32 * NW) ltac:(lia) 1 ws out rg sh ltac:(rewrite <- EW; exact Hws)). rewrite Dv' in Q. exact Q.
Qed.
Theorem gather_above : 1 <= Cv -> Cv <= 16 * 1024 -> forall buf, maxima_above B Ho Wo ninf buf -> maxima_above B Ho Wo ninf (step buf).
Proof.
  intros HC1 HCv buf HA b h w m Hb Hh Hw Em. rewrite step_cell in Em by auto.
  destruct (vec_spec vec Ck Cv) as (V & nci & nco & EV & HV & Ek & Ev & Dk & Dv). destruct (width_facts Cv HCv) as (NW & EW & HN & U & L & I).
  assert (F := nloc_facts V nco NW HV ltac:(rewrite <- Ev; exact HC1) ltac:(rewrite <- Ev; exact U) ltac:(rewrite <- Ev; exact L) ltac:(lia)). cbv zeta in F. destruct F as (_ & F2 & F3).
  rewrite Ek in Em, HS. eapply (run_above NW 1 V (div_up nco (32 * NW)) nci nco H W Wi ps lon_lo lat0 B Ho Wo false ninf P quad kf vf qf); eauto; try lia.
Qed.
End Step.
(** Round the ring *)
Theorem gather_round : forall ws dev vec ninf B Ck Cv Wi ps Ho Wo nq qA quad qf (row_idx : chunk -> list nat) (n_long max_len mid_len : chunk -> nat), lays B Ho Wo Ck qA qf -> 1 <= Wi -> 1 <= Cv -> Cv <= 16 * 1024 ->
  let ks c := ring_fwd dev vec ninf B Ck Cv (c_H c) (c_W c) Wi ps (c_lon c) (c_lat c) Ho Wo nq (c_kA c) (c_vA c) qA quad (row_idx c) (offsets 0 (c_pat c)) (columns (c_pat c)) (n_long c) (max_len c) (mid_len c) in
  let seq_step buf c := ring_step Ck quad (offsets 0 (c_pat c)) (columns (c_pat c)) (c_H c) (c_W c) (c_lon c) (c_lat c) Ho Wo (c_k c) (c_v c) qf Wi ps (row_idx c) B buf in
  forall l o buf, (forall c, In c l -> gchunk_ok B Ck Cv Ho Wo Wi nq ninf qf c /\ Permutation (row_idx c) (seq 0 Ho) /\ lengths_ok (c_pat c) (row_idx c) (n_long c) (max_len c) (mid_len c) /\ n_long c <= Ho /\ (n_long c = 0 \/ block_width Cv <= ws) /\ ks c <> None) ->
  maxima_above B Ho Wo ninf buf -> all_hold B Ho Wo Cv ninf o buf ->
  rings_end ws (B * Ho * Wo) ks l o (fun o' => all_hold B Ho Wo Cv ninf o' (fold_left seq_step l buf)).
Proof.
  intros ws dev vec ninf B Ck Cv Wi ps Ho Wo nq qA quad qf row_idx n_long max_len mid_len HQ HWi HC1 HC2 ks seq_step. induction l as [|c l IH]; intros o buf HC HA HO; [exact HO|]. cbn [rings_end fold_left]. destruct (HC c (or_introl eq_refl)) as ([C1 C2 C3 C4] & Hp & Hl & Hn & Hw & Nk). destruct (ks c) as [k|] eqn:Ek; [|congruence].
  eapply ring_ends_mono; [|eapply (gather_step vec ninf B Ck Cv (c_H c) (c_W c) Wi ps (c_lon c) (c_lat c) Ho Wo nq (c_pat c) (c_kA c) (c_vA c) qA quad (c_k c) (c_v c) qf (row_idx c) (n_long c) (max_len c) (mid_len c)); eauto].
  cbv beta. intros o' Ho'. apply (IH o' (seq_step buf c)); [intros c' Hc'; apply HC; now right| |exact Ho'].
  eapply (gather_above vec ninf B Ck Cv (c_H c) (c_W c) Wi ps (c_lon c) (c_lat c) Ho Wo nq (c_pat c) quad (c_k c) (c_v c) qf); eauto.
Qed.

(** ** The pattern and the split a rank builds *)
From Verif Require Import AttnLayerModel DistAttnProofs2 CudaUtilsModel CudaUtilsSpec CudaUtilsProofs.
Lemma rows_cols : forall l : list (list nat), length (concat l) = list_sum (map (@length nat) l).
Proof. induction l as [|r l IH]; [reflexivity|]. cbn. now rewrite app_length, IH. Qed.
Theorem layer_pattern : forall P Ho nq Wi Wo lat_out p lon_lo, pattern_ok P Ho (nq * Wi) -> 1 <= Wi -> let lo := nth p (split_starts lat_out) 0 in let n := nth p lat_out 0 in lo + n <= Ho ->
  exists P', local_psi Wi Wo lat_out (offsets 0 P) (columns P) p lon_lo = (offsets 0 P', columns P') /\ pattern_ok P' n (nq * Wi).
Proof.
  intros P Ho nq Wi Wo lat_out p lon_lo [LP HP] HWi lo n Hn. exists (map (map (shift_col Wi Wo lon_lo)) (firstn n (skipn lo P))).
  assert (LM : length (firstn n (skipn lo P)) = n) by (rewrite firstn_length, skipn_length; lia).
  assert (F : forall i, i <= n -> firstn (lo + i) P = firstn lo P ++ firstn i (firstn n (skipn lo P))).
  { intros i Hi. rewrite firstn_firstn, Nat.min_l by exact Hi. rewrite <- (firstn_skipn lo P) at 1. rewrite firstn_app, firstn_length, Nat.min_l by lia. rewrite firstn_all2 by (rewrite firstn_length; lia). f_equal. f_equal. lia. }
  split.
  - unfold local_psi. fold lo. fold n. f_equal.
    + apply (nth_ext _ _ 0 0).
      * rewrite map_length, slice_len by (rewrite offsets_length; lia). rewrite offsets_length, map_length, LM. lia.
      * intros i Hi. rewrite map_length, slice_len in Hi by (rewrite offsets_length; lia). rewrite (nth_indep _ 0 (0 - nth lo (offsets 0 P) 0)) by (rewrite map_length, slice_len by (rewrite offsets_length; lia); lia). rewrite (map_nth (fun o => o - nth lo (offsets 0 P) 0)). rewrite slice_nth by lia. rewrite !offsets_nth by (rewrite ?map_length, ?LM; lia). rewrite F by lia. rewrite concat_app, app_length. rewrite !rows_cols. rewrite firstn_map, map_map. rewrite (map_ext (fun x => length (map (shift_col Wi Wo lon_lo) x)) (@length nat)) by (intros; apply map_length). lia.
    + unfold columns. rewrite <- concat_map. f_equal. rewrite !offsets_nth by lia. unfold DiscoModel.slice. rewrite (F n (le_n n)). rewrite (firstn_all2 (firstn n (skipn lo P))) by lia. rewrite concat_app, app_length.
      assert (EC : concat P = concat (firstn lo P) ++ concat (firstn n (skipn lo P)) ++ concat (skipn n (skipn lo P))) by (rewrite <- !concat_app, !firstn_skipn; reflexivity).
      rewrite EC. generalize (concat (firstn lo P)) (concat (firstn n (skipn lo P))) (concat (skipn n (skipn lo P))). clear. intros A M Z. rewrite skipn_app, skipn_all, Nat.sub_diag. cbn [app skipn]. replace (length A + length M - length A) with (length M) by lia. rewrite firstn_app, firstn_all, Nat.sub_diag. cbn [firstn]. apply app_nil_r.
  - split; [now rewrite map_length|]. intros r c Hr Hc. apply in_map_iff in Hr. destruct Hr as (r0 & <- & Hr). apply in_map_iff in Hc. destruct Hc as (c0 & <- & Hc). assert (Hr' : In r0 P). { apply (in_skip' _ r0 lo). rewrite <- (firstn_skipn n (skipn lo P)). apply in_or_app. now left. }
    specialize (HP r0 c0 Hr' Hc). unfold shift_col. assert (c0 / Wi < nq) by (apply Nat.div_lt_upper_bound; [lia|]; now rewrite Nat.mul_comm). pose proof (Nat.mod_upper_bound (c0 mod Wi + Wi / Wo * lon_lo) Wi ltac:(lia)). nia.
Qed.
(** rows sorted by decreasing length (torch.argsort promises no order among equals) and split *)
Theorem layer_split : forall thres P Ho N idx n mx md, pattern_ok P Ho N -> Permutation idx (seq 0 Ho) -> Sorted.StronglySorted (fun a b => length (nth b P []) <= length (nth a P [])) idx ->
  split_cpu thres idx (offsets 0 P) Ho = (n, mx, md) -> lengths_ok P idx n mx md /\ n <= Ho.
Proof.
  intros thres P Ho N idx n mx md [LP HP] Hp Hs E. assert (Li : length idx = Ho) by (rewrite (Permutation_length Hp); apply seq_length).
  assert (Rl : forall r, r < Ho -> CudaUtilsModel.row_len (offsets 0 P) r = length (nth r P [])).
  { intros r Hr. unfold CudaUtilsModel.row_len. rewrite <- csr_row_spec by lia. unfold csr_row. rewrite slice_len; [reflexivity|]. apply offsets_le. lia. }
  assert (Lt : forall r, In r idx -> r < Ho) by (intros r Hr; apply (Permutation_in _ Hp), in_seq in Hr; lia).
  assert (Hs' : Sorted.StronglySorted (fun a b => CudaUtilsModel.row_len (offsets 0 P) b <= CudaUtilsModel.row_len (offsets 0 P) a) idx).
  { clear - Hs Rl Lt. induction Hs as [|a l Hs IH Hf]; constructor; [apply IH; intros; apply Lt; now right|]. rewrite Forall_forall in *. intros b Hb. rewrite !Rl by (apply Lt; cbn; auto). now apply Hf. }
  destruct (split_both thres idx (offsets 0 P) Ho (eq_sym Li) Hs') as [S _]. rewrite E in S. destruct S as (long & short & Ei & La & _ & _ & Eb & Ec).
  assert (Mx : forall len (l : list nat) r, In r l -> len r <= longest len l). { intros len l r Hr. unfold longest. pose proof (proj1 (list_max_le (map len l) (list_max (map len l))) (le_n _)) as Q. rewrite Forall_forall in Q. apply Q. now apply in_map. }
  assert (Fl : firstn n idx = long) by (rewrite Ei, <- La, firstn_app, firstn_all, Nat.sub_diag; cbn; apply app_nil_r).
  assert (Fs : skipn n idx = short) by (rewrite Ei, <- La, skipn_app, skipn_all, Nat.sub_diag; reflexivity).
  split; [split|].
  - intros r Hr. rewrite Fl in Hr. rewrite <- Rl by (apply Lt; rewrite Ei; apply in_or_app; now left). rewrite Eb. now apply Mx.
  - intros r Hr. rewrite Fs in Hr. rewrite <- Rl by (apply Lt; rewrite Ei; apply in_or_app; now right). rewrite Ec. now apply Mx.
  - rewrite <- Li, Ei, app_length. lia.
Qed.
(** ** The forward pass of a rank *)
Lemma empty_hold : forall B Ho Wo Cv ninf, all_hold B Ho Wo Cv ninf (fun i => if i <? B * Ho * Wo then ninf else 0%R) (fun _ _ _ => rst0).
Proof.
  intros B Ho Wo Cv ninf b h w Hb Hh Hw. assert (L : (b * Ho + h) * Wo + w < B * Ho * Wo) by (rewrite <- (CudaRingProofs2.cell_of_eq Ho Wo b h w); now apply CudaRingProofs2.cell_of_lt).
  set (c := (b * Ho + h) * Wo + w) in *. set (N := B * Ho * Wo) in *. clearbody c N. split; [|split].
  - unfold the_max. now rewrite (proj2 (Nat.ltb_lt _ _) L).
  - unfold CudaRescaleSpec.the_sum. rewrite (proj2 (Nat.ltb_ge _ _)) by lia. reflexivity.
  - intros ch Hc. unfold the_acc. rewrite (proj2 (Nat.ltb_ge _ _)) by lia. reflexivity.
Qed.
Theorem layer_ring : forall ws dev vec ninf thres o p a visits qn B Ck Cv P nq n mx md, let L := da_L o in let Ho := nth p (da_lat_out o) 0 in let Wo := nth a (da_lon_out o) 0 in
  da_up o = false -> da_roff o = offsets 0 P -> da_col o = columns P -> pattern_ok P Ho (nq * na_Wi L) -> 1 <= na_Wi L ->
  Permutation (da_row o) (seq 0 Ho) -> Sorted.StronglySorted (fun x y => length (nth y P []) <= length (nth x P [])) (da_row o) -> split_cpu thres (da_row o) (da_roff o) Ho = (n, mx, md) ->
  1 <= Cv -> Cv <= 16 * 1024 -> n = 0 \/ block_width Cv <= ws -> shp qn = [B; Ho; Wo; Ck] ->
  let ch (sv : nat * (tensor R * tensor R)) := let k := fst (snd sv) in let v := snd (snd sv) in
    mkChunk (dimsz k 1) (dimsz k 2) (nth (fst sv) (split_starts (da_lon_in o)) 0) (Z.of_nat (nth p (split_starts (da_lat_in o)) 0%nat) - Z.of_nat (da_r_lat o)) P (flat k) (flat v) (hwc k) (hwc v) in
  let ks c := ring_fwd dev vec ninf B Ck Cv (c_H c) (c_W c) (na_Wi L) (na_Wi L / na_Wo L) (c_lon c) (c_lat c) Ho Wo nq (c_kA c) (c_vA c) (flat qn) (na_quad L) (da_row o) (da_roff o) (da_col o) n mx md in
  (forall sv, In sv visits -> (exists H W, shp (fst (snd sv)) = [B; H; W; Ck] /\ shp (snd (snd sv)) = [B; H; W; Cv] /\ scores_above ninf B H W Ho Wo Ck (hwc (fst (snd sv))) (hwc qn)) /\ ks (ch sv) <> None) ->
  rings_end ws (B * Ho * Wo) ks (map ch visits) (fun i => if i <? B * Ho * Wo then ninf else 0%R) (fun o' => all_hold B Ho Wo Cv ninf o' (ring_state o p a visits qn B)).
Proof.
  intros ws dev vec ninf thres o p a visits qn B Ck Cv P nq n mx md L Ho Wo Eup Er Ec HP HWi Hp Hs Esp HC1 HC2 Hw Sq ch ks HV.
  rewrite Er in Esp. destruct (layer_split thres P Ho _ (da_row o) n mx md HP Hp Hs Esp) as [Hl Hn].
  assert (Lq : lays B Ho Wo Ck (flat qn) (hwc qn)) by (intros b h w c Hb Hh Hww Hc; exact (flat4 qn B Ho Wo Ck b h w c Sq Hb Hh Hww Hc)).
  assert (Q := gather_round ws dev vec ninf B Ck Cv (na_Wi L) (na_Wi L / na_Wo L) Ho Wo nq (flat qn) (na_quad L) (hwc qn) (fun _ => da_row o) (fun _ => n) (fun _ => mx) (fun _ => md) Lq HWi HC1 HC2). cbv zeta in Q.
  assert (Es : forall l buf, fold_left (fun buf c => ring_step Ck (na_quad L) (offsets 0 (c_pat c)) (columns (c_pat c)) (c_H c) (c_W c) (c_lon c) (c_lat c) Ho Wo (c_k c) (c_v c) (hwc qn) (na_Wi L) (na_Wi L / na_Wo L) (da_row o) B buf) (map ch l) buf =
    fold_left (fun buf sv => let lon_lo := nth (fst sv) (split_starts (da_lon_in o)) 0 in let kc := fst (snd sv) in let vc := snd (snd sv) in
      if da_up o
      then ring_step_up (dimsz qn 3) (na_quad L) (da_roff o) (da_col o) (dimsz kc 1) (dimsz kc 2) lon_lo (Z.of_nat (nth p (split_starts (da_lat_in o)) 0%nat) - Z.of_nat (da_r_lat o))%Z Ho Wo (hwc kc) (hwc vc) (hwc qn) (na_Wo L) (na_Wo L / na_Wi L) B buf
      else ring_step (dimsz qn 3) (na_quad L) (da_roff o) (da_col o) (dimsz kc 1) (dimsz kc 2) lon_lo (Z.of_nat (nth p (split_starts (da_lat_in o)) 0%nat) - Z.of_nat (da_r_lat o))%Z Ho Wo (hwc kc) (hwc vc) (hwc qn) (na_Wi L) (na_Wi L / na_Wo L) (da_row o) B buf) l buf).
  { assert (D3 : dimsz qn 3 = Ck) by (unfold dimsz; rewrite Sq; reflexivity). intros l buf. rewrite Eup, Er, Ec, D3. revert buf. induction l as [|sv l IH]; intros buf; [reflexivity|]. cbn [map fold_left]. rewrite IH. reflexivity. }
  unfold ring_state. rewrite <- Es. 
  assert (Ek : forall c, c_pat c = P -> ks c = ring_fwd dev vec ninf B Ck Cv (c_H c) (c_W c) (na_Wi L) (na_Wi L / na_Wo L) (c_lon c) (c_lat c) Ho Wo nq (c_kA c) (c_vA c) (flat qn) (na_quad L) (da_row o) (offsets 0 (c_pat c)) (columns (c_pat c)) n mx md) by (intros c Epc; unfold ks; rewrite Epc, Er, Ec; reflexivity).
  assert (Ext : forall l st X, (forall c, In c l -> c_pat c = P) -> rings_end ws (B * Ho * Wo) (fun c => ring_fwd dev vec ninf B Ck Cv (c_H c) (c_W c) (na_Wi L) (na_Wi L / na_Wo L) (c_lon c) (c_lat c) Ho Wo nq (c_kA c) (c_vA c) (flat qn) (na_quad L) (da_row o) (offsets 0 (c_pat c)) (columns (c_pat c)) n mx md) l st X -> rings_end ws (B * Ho * Wo) ks l st X).
  { clear - Ek. induction l as [|c l IH]; intros st X Hc HR; [exact HR|]. cbn [rings_end] in *. rewrite Ek by (apply Hc; now left). destruct (ring_fwd _ _ _ _ _ _ _ _ _ _ _ _ _ _ _ _ _ _ _ _ _ _ _ _ _) as [k|]; [|destruct HR]. eapply ring_ends_mono; [|exact HR]. cbv beta. intros o'. apply IH. intros c' Hc'. apply Hc. now right. }
  apply Ext; [intros c Hc; apply in_map_iff in Hc; destruct Hc as (sv & <- & _); reflexivity|]. apply Q.
  - intros c Hc. apply in_map_iff in Hc. destruct Hc as (sv & <- & Hsv). destruct (HV sv Hsv) as ((H & W & S1 & S2 & S3) & Nk). rewrite Ek in Nk by reflexivity.
    assert (D1 : dimsz (fst (snd sv)) 1 = H) by (unfold dimsz; rewrite S1; reflexivity). assert (D2 : dimsz (fst (snd sv)) 2 = W) by (unfold dimsz; rewrite S1; reflexivity).
    split; [|split; [exact Hp|split; [exact Hl|split; [exact Hn|split; [exact Hw|exact Nk]]]]]. split; cbn [ch c_pat c_H c_W c_kA c_k c_vA c_v]; rewrite ?D1, ?D2; [exact HP|intros b h w c Hb Hh Hww Hc; exact (flat4 _ B H W Ck b h w c S1 Hb Hh Hww Hc)|intros b h w c Hb Hh Hww Hc; exact (flat4 _ B H W Cv b h w c S2 Hb Hh Hww Hc)|exact S3].
  - intros b h w m _ _ _ E. discriminate.
  - apply empty_hold.
Qed.
(** the constructor of a rank meets the hypotheses on pattern and rows *)
From Verif Require Import PrimModel PrimProofs DistStateModel.
Theorem layer_init : forall argsort Np A L p a o P nq, dist_na_init argsort Np A L p a = Some o -> da_up o = false -> na_roff L = offsets 0 P -> na_col L = columns P -> pattern_ok P (na_Ho L) (nq * na_Wi L) ->
  1 <= Np <= na_Ho L -> p < Np -> (forall l, Permutation (argsort l) (seq 0 (length l)) /\ Sorted.StronglySorted (fun x y => nth y l 0 <= nth x l 0) (argsort l)) ->
  exists P', da_L o = L /\ da_roff o = offsets 0 P' /\ da_col o = columns P' /\ pattern_ok P' (nth p (da_lat_out o) 0) (nq * na_Wi L) /\ 1 <= na_Wi L /\
    Permutation (da_row o) (seq 0 (nth p (da_lat_out o) 0)) /\ Sorted.StronglySorted (fun x y => length (nth y P' []) <= length (nth x P' [])) (da_row o).
Proof.
  intros argsort Np A L p a o P nq E Eup Er Ec HP HNp Hp HArg. unfold dist_na_init in E.
  destruct (compute_split_shapes (na_Hi L) Np) as [lat_in|]; [|discriminate E]. cbn [bindo] in E. destruct (compute_split_shapes (na_Wi L) A) as [lon_in|]; [|discriminate E]. cbn [bindo] in E.
  rewrite (css_some (na_Ho L) Np) in E by lia. cbn [bindo] in E. destruct (compute_split_shapes (na_Wo L) A) as [lon_out|]; [|discriminate E]. cbn [bindo] in E.
  destruct ((1 <=? na_Wi L) && (1 <=? na_Wo L)) eqn:EW; [|discriminate E]. cbn [guard bindo] in E. apply andb_true_iff in EW. destruct EW as [HWi _]. apply Nat.leb_le in HWi.
  destruct (guard (uniform_split _ _ _ _ _)); [|discriminate E]. cbn [bindo] in E. destruct (na_upsample (na_Wi L) (na_Wo L)) eqn:EU.
  - exfalso. cbv zeta in E. destruct (local_psi_up _ _ _ _ _ _ _ _ _) as [r c]. assert (Q : da_up o = true) by (injection E as <-; reflexivity). congruence.
  - destruct (layer_pattern P (na_Ho L) nq (na_Wi L) (na_Wo L) (bal (na_Ho L) Np) p (nth a (split_starts lon_out) 0) HP HWi) as (P' & EP & HP').
    { rewrite starts_bal, chunk_len_nth by lia. pose proof (chunk_bound (na_Ho L) Np p). lia. }
    rewrite Er, Ec, EP in E. exists P'. assert (Q : o = mkDA L false lat_in lon_in (bal (na_Ho L) Np) lon_out (compute_r_lat Np (na_Wi L) lat_in (bal (na_Ho L) Np) (offsets 0 P) (columns P)) (offsets 0 P') (columns P') (argsort (row_lengths (offsets 0 P')))) by congruence.
    subst o. cbn [da_L da_roff da_col da_lat_out da_row]. rewrite row_lengths_offsets. destruct (HArg (map (@length nat) P')) as [A1 A2]. split; [reflexivity|]. split; [reflexivity|]. split; [reflexivity|]. split; [exact HP'|]. split; [exact HWi|]. split.
    + rewrite map_length in A1. now rewrite (proj1 HP') in A1.
    + assert (Nl : forall i, nth i (map (@length nat) P') 0 = length (nth i P' [])) by (intros i; apply (map_nth (@length nat) P' [])). clear - A2 Nl. induction A2 as [|x l A2 IH Hf]; constructor; [exact IH|]. rewrite Forall_forall in *. intros y Hy. rewrite <- !Nl. now apply Hf.
Qed.
(** rows of fewer than 1024 entries are never split *)
Theorem short_split : forall thres P Ho N idx, pattern_ok P Ho N -> Permutation idx (seq 0 Ho) -> Sorted.StronglySorted (fun a b => length (nth b P []) <= length (nth a P [])) idx ->
  (forall r, In r P -> length r < 16 * 64) -> fst (fst (split_cpu thres idx (offsets 0 P) Ho)) = 0.
Proof.
  intros thres P Ho N idx [LP HP] Hp Hs Hl. assert (Li : length idx = Ho) by (rewrite (Permutation_length Hp); apply seq_length).
  assert (Rl : forall r, r < Ho -> CudaUtilsModel.row_len (offsets 0 P) r = length (nth r P [])).
  { intros r Hr. unfold CudaUtilsModel.row_len. rewrite <- csr_row_spec by lia. unfold csr_row. rewrite slice_len; [reflexivity|]. apply offsets_le. lia. }
  assert (Lt : forall r, In r idx -> r < Ho) by (intros r Hr; apply (Permutation_in _ Hp), in_seq in Hr; lia).
  assert (Hs' : Sorted.StronglySorted (fun a b => CudaUtilsModel.row_len (offsets 0 P) b <= CudaUtilsModel.row_len (offsets 0 P) a) idx).
  { clear - Hs Rl Lt. induction Hs as [|a l Hs IH Hf]; constructor; [apply IH; intros; apply Lt; now right|]. rewrite Forall_forall in *. intros b Hb. rewrite !Rl by (apply Lt; cbn; auto). now apply Hf. }
  destruct (split_both thres idx (offsets 0 P) Ho (eq_sym Li) Hs') as [S _]. destruct (split_cpu thres idx (offsets 0 P) Ho) as [[n mx] md]. destruct S as (long & short & Ei & La & Lm & _). cbn [fst]. rewrite <- La.
  destruct long as [|r long]; [reflexivity|exfalso]. specialize (Lm r (or_introl eq_refl)). assert (Hr : r < Ho) by (apply Lt; rewrite Ei; now left). rewrite Rl in Lm by exact Hr. specialize (Hl (nth r P [])). assert (In (nth r P []) P) by (apply nth_In; lia). specialize (Hl H).
  pose proof (Nat.le_max_l (16 * 64) (thres (longest (CudaUtilsModel.row_len (offsets 0 P)) idx))). lia.
Qed.
