(** The ring steps of the upsampling direction on the GPU against the sequential ones. *)
From Coq Require Import List Arith Lia Bool ZArith Reals Lra FunctionalExtensionality.
From Verif Require Import TensorModel TensorProofs BigSum DiscoModel DiscoSortProofs DistAttnModel DistAttnBwdModel AttnModel AttnCoreProofs GpuModel GpuSpec GpuProofs GpuProofs2 GpuRwModel GpuRwSpec WarpProofs CudaDiscoModel CudaWarpModel CudaAttnModel CudaAttnUpModel CudaAttnProofs CudaAttnLaneProofs CudaAttnFwdProofs CudaAttnFwdProofs2 WarpKernelProofs CudaKeyProofs CudaAttnUpProofs CudaAttnUpProofs2 CudaAttnUpProofs3 CudaAttnUpProofs4 CudaRescaleModel CudaRescaleSpec CudaRescaleProofs4 CudaRescaleProofs5 DistAttnProofs2 CudaRingUpModel CudaRingUpSpec CudaRingUpProofs CudaRingUpProofs2.
From Verif Require Import AttnSpec.
Import ListNotations.
Local Open Scope nat_scope.
Notation smax := DistAttnModel.r_max. Notation ssum := DistAttnModel.r_sum. Notation sacc := DistAttnModel.r_acc.

Lemma cell_flat : forall Ho Wo b h w, (b * Ho + h) * Wo + w = bcell Ho Wo b (h * Wo + w).
Proof. intros. unfold bcell. ring. Qed.
Lemma lays_read : forall B l i h w nc a f, i < length l -> nth i l (0, fun _ => 0%R) = (B * h * w * nc, a) -> lays B h w nc a f -> cells_at B (joined l) (list_sum (map fst l)) (part l i) nc h w f.
Proof.
  intros B l i h w nc a f Hi E HL b y x Hb Hy Hx c Hc. assert (L := bcelln_lt B h w nc b (y * w + x) c Hb (cell_lt h w y x Hy Hx) Hc). rewrite chan0_bcell. destruct (array_reads l i _ a Hi E _ L) as (A1 & A2 & A3). cbn [plus] in A1, A2, A3. split; [exact A1|]. split; [exact A2|]. rewrite A3. rewrite <- cell_flat. now apply HL.
Qed.
Lemma wk_groups : forall B n sh arr os p, k_groups (warp_kernel B n sh arr os p) = B * up_gw n.
Proof. intros. unfold warp_kernel, up_gw. cbn [k_groups]. lia. Qed.

Section Step.
Variables (ninf : R) (B nci nco H W Ho Wo WoG ps lon_lo nq : nat) (lat0 : Z) (P : pattern) (kA vA qA quad : nat -> R) (kf vf qf : fld).
Hypotheses (HW : 1 <= W) (HP : pattern_ok P H (Ho * WoG)) (HR : rows_inside H lat0 P nq) (HK : lays B H W nci kA kf) (HV : lays B H W nco vA vf) (HQ : lays B Ho Wo nci qA qf).
Notation roff := (offsets 0 P). Notation col := (columns P). Notation cells := (B * Ho * Wo).
Notation trips := (chunk_trips roff col H W lon_lo Wo WoG ps).
Notation fwd := (ring_up_fwd B nci nco H W Ho Wo WoG ps lon_lo lat0 roff col nq kA vA qA quad).
Notation step := (ring_step_up nci quad roff col H W lon_lo lat0 Ho Wo kf vf qf WoG ps B).
Section Fwd.
Hypothesis (HS : scores_above ninf B H W Ho Wo nci kf qf).
Lemma trips_above : forall b t, b < B -> In t trips -> (ninf < trip_score nci kf qf b t)%R.
Proof. intros b t Hb Ht. destruct (trips_ok H W Ho Wo WoG ps lon_lo P HW HP t Ht). apply (trips_in H W Ho Wo WoG ps lon_lo P HW HP) in Ht. unfold trip_score. apply HS; tauto. Qed.
Lemma step_state : forall buf b h w, b < B -> h < Ho -> w < Wo -> maxima_above B Ho Wo ninf buf ->
  let m' := step_max nci roff col H W lon_lo Wo kf qf WoG ps b (fun h w => smax (buf b h w)) h w in let st := step buf b h w in
  let al t := salpha nci kf qf lat0 quad m' b t in
  smax st = m' /\ ssum st = (ssum (rescale m' (buf b h w)) + rlsum (fun t => if at_hw h w t then al t else 0) trips)%R /\
  (forall c, sacc st c = (sacc (rescale m' (buf b h w)) c + rlsum (fun t => if at_hw h w t then al t * vf b (fst (fst t)) (snd (fst t)) c else 0) trips)%R) /\
  (forall x, m' = Some x -> (ninf < x)%R) /\ (m' = None -> smax (buf b h w) = None) /\ (forall t, In t trips -> at_hw h w t = true -> m' <> None).
Proof.
  intros buf b h w Hb Hh Hw HA. cbv zeta.
  destruct (max_value B H W Ho Wo WoG ps lon_lo P HW HP nci kf qf vf vf quad (fun _ => 0%R) ninf b h w (fun _ => as_num ninf (smax (buf b h w))) (fun h w => smax (buf b h w)) Hb Hh Hw (fun t Ht => trips_above b t Hb Ht) (fun x Ex => HA b h w x Hb Hh Hw Ex) eq_refl) as (_ & M2 & M3 & M4). cbv zeta in *.
  unfold ring_step_up. rewrite (proj2 (Nat.ltb_lt _ _) Hb).
  destruct (step_acc_at H W Wo WoG ps lon_lo P nci kf qf vf lat0 quad b (fun h0 w0 => if (h0 <? Ho) && (w0 <? Wo) then rescale (step_max nci roff col H W lon_lo Wo kf qf WoG ps b (fun h w => smax (buf b h w)) h0 w0) (buf b h0 w0) else buf b h0 w0) h w) as (S1 & S2 & S3). cbv zeta in *.
  rewrite (proj2 (Nat.ltb_lt _ _) Hh), (proj2 (Nat.ltb_lt _ _) Hw) in *. cbn [andb] in *. set (m' := step_max _ _ _ _ _ _ _ _ _ _ _ _ _ _ _) in *.
  assert (Em : smax (rescale m' (buf b h w)) = m'). { unfold rescale. destruct m' as [x|]; [|now apply M3]. destruct (smax (buf b h w)) as [y|] eqn:Ey; [|reflexivity]. destruct (Req_EM_T y x); [subst; exact Ey|reflexivity]. }
  rewrite Em in *. split; [exact S1|]. split; [exact S2|]. split; [exact S3|]. split; [exact M2|]. split; [exact M3|exact M4].
Qed.
Theorem fwd_above : forall buf, maxima_above B Ho Wo ninf buf -> maxima_above B Ho Wo ninf (step buf).
Proof. intros buf HA b h w m Hb Hh Hw E. destruct (step_state buf b h w Hb Hh Hw HA) as (S1 & _ & _ & S4 & _). cbv zeta in *. apply S4. congruence. Qed.
Theorem fwd_step : forall ws dev k buf o, 32 <= ws -> fwd dev ninf = Some k -> maxima_above B Ho Wo ninf buf -> all_hold B Ho Wo nco ninf o buf ->
  step_ends ws cells k o (fun o' => all_hold B Ho Wo nco ninf o' (step buf)).
Proof.
  intros ws dev k buf o Hws Ek HA HO. unfold ring_up_fwd in Ek. destruct (guard _); [|discriminate]. injection Ek as <-. intros rg1 sh1.
  set (k1 := rmax_kernel B nci H W Ho Wo WoG ps lon_lo roff col kA qA).
  apply (settles_impl k1 (start k1 rg1 sh1 o) (fun m => m = upds (flat_map (at_key (up_key (H * W)) (per_tgt W Wo WoG ps lon_lo P (rmaxT nci Ho Wo kf qf))) (seq 0 (k_groups k1))) o)).
  { apply (rmax_settles B nci H W Ho Wo WoG ps lon_lo P HW HP kf qf k1 (part [(B * H * W * nci, kA); (cells * nci, qA)] 0) (part [(B * H * W * nci, kA); (cells * nci, qA)] 1)); try reflexivity.
    - apply (lays_read B [(B * H * W * nci, kA); (cells * nci, qA)] 0 H W nci kA kf); [cbn; lia|reflexivity|exact HK].
    - apply (lays_read B [(B * H * W * nci, kA); (cells * nci, qA)] 1 Ho Wo nci qA qf); [cbn; lia|reflexivity|exact HQ]. }
  intros m Em rg2 sh2. unfold k1 in Em. unfold rmax_kernel in Em. rewrite wk_groups in Em.
  assert (Vm : forall b h w, b < B -> h < Ho -> w < Wo -> m (bcell Ho Wo b (h * Wo + w)) = as_num ninf (step_max nci roff col H W lon_lo Wo kf qf WoG ps b (fun h w => smax (buf b h w)) h w)).
  { intros b h w Hb Hh Hw. rewrite Em. apply (max_value B H W Ho Wo WoG ps lon_lo P HW HP nci kf qf vf vf quad (fun _ => 0%R) ninf b h w o (fun h w => smax (buf b h w)) Hb Hh Hw (fun t Ht => trips_above b t Hb Ht) (fun x Ex => HA b h w x Hb Hh Hw Ex)). rewrite <- cell_flat. apply (HO b h w Hb Hh Hw). }
  eapply lsettles_mono; [|apply up_together; exact Hws]. intros s Hs rg3 sh3.
  assert (Hh' : forall b h w, b < B -> h < Ho -> w < Wo -> holds cells nco 1 ninf s (bcell Ho Wo b (h * Wo + w)) (rescale (step_max nci roff col H W lon_lo Wo kf qf WoG ps b (fun h w => smax (buf b h w)) h w) (buf b h w))).
  { intros b h w Hb Hh Hw. destruct (step_state buf b h w Hb Hh Hw HA) as (_ & _ & _ & S4 & S5 & _). cbv zeta in *.
    apply (rescaled_holds cells nco ninf (fun c => c < cells) m o s); auto.
    - apply bcell_lt; [exact Hb|]. now apply cell_lt.
    - rewrite <- cell_flat. now apply HO.
    - intros x Ex. specialize (HA b h w x Hb Hh Hw Ex). lra.
    - intros x Ex. specialize (S4 x Ex). lra. }
  set (k3 := racc_kernel B nci nco H W Ho Wo WoG ps lon_lo lat0 roff col nq kA vA qA quad s).
  eapply settles_impl.
  { set (arr := [(B * H * W * nci, kA); (B * H * W * nco, vA); (cells * nci, qA); (nq, quad); (cells, s)]).
    apply (racc_settles B nci nco H W Ho Wo WoG ps lon_lo lat0 P HW HP kf qf vf (fun _ _ _ _ => 0%R) nq quad s HR k3 (part arr 0) (part arr 1) (part arr 2) (part arr 3) (part arr 4)); try reflexivity.
    - apply (lays_read B arr 0 H W nci kA kf); [cbn; lia|reflexivity|exact HK].
    - apply (lays_read B arr 2 Ho Wo nci qA qf); [cbn; lia|reflexivity|exact HQ].
    - apply (lays_read B arr 1 H W nco vA vf); [cbn; lia|reflexivity|exact HV].
    - apply (array_reads arr 3); [cbn; lia|reflexivity].
    - apply (array_reads arr 4); [cbn; lia|reflexivity]. }
  intros o' Eo b h w Hb Hh Hw. unfold k3, racc_kernel in Eo. rewrite wk_groups in Eo. rewrite cell_flat. specialize (Hh' b h w Hb Hh Hw). destruct Hh' as (G1 & G2 & G3).
  assert (La := bcell_lt B Ho Wo b (h * Wo + w) Hb (cell_lt Ho Wo h w Hh Hw)).
  destruct (step_state buf b h w Hb Hh Hw HA) as (S1 & S2 & S3 & S4 & S5 & S6). cbv zeta in *. set (m' := step_max _ _ _ _ _ _ _ _ _ _ _ _ _ _ _) in *. set (a := bcell Ho Wo b (h * Wo + w)) in *.
  assert (Em' : s a = as_num ninf m'). { unfold the_max in G1. rewrite G1. f_equal. unfold rescale. destruct m' as [x|]; [|now apply S5]. destruct (smax (buf b h w)) as [y|] eqn:Ey; [|reflexivity]. destruct (Req_EM_T y x); [subst; exact Ey|reflexivity]. }
  assert (Al : forall t, In t trips -> at_hw h w t = true -> salpha nci kf qf lat0 quad m' b t = (exp (trip_score nci kf qf b t - s (bcell Ho Wo b (fst (snd t) * Wo + snd (snd t))%nat)) * quad (Z.to_nat (lat0 + Z.of_nat (fst (fst t)))))%R).
  { intros t Ht Ea. specialize (S6 t Ht Ea). unfold at_hw in Ea. apply andb_true_iff in Ea. rewrite !Nat.eqb_eq in Ea. destruct Ea as [<- <-]. fold a. rewrite Em'. unfold salpha. destruct m'; [reflexivity|congruence]. }
  split; [|split].
  - unfold the_max. rewrite (proj2 (Nat.ltb_lt _ _) La). rewrite S1. exact Em'.
  - unfold the_sum in *. replace (cells + 0 * cells + a) with (cells + a) in * by lia. rewrite (proj2 (Nat.ltb_ge _ _)) by lia. replace (cells + a - cells) with a by lia. rewrite Eo. unfold a. rewrite (racc_sum B H W Ho Wo WoG ps lon_lo P HW HP nci nco kf qf vf lat0 quad s) by auto. fold a. rewrite G2, S2. f_equal. apply lsum_ext. intros t Ht. destruct (at_hw h w t) eqn:Ea; [now rewrite Al|reflexivity].
  - intros ch Hc. specialize (G3 ch Hc). unfold the_acc in *. replace (cells + 1 * cells + (0 * cells + a) * nco + ch) with (cells + (cells + (a * nco + ch))) in * by lia. rewrite (proj2 (Nat.ltb_ge _ _)) by lia. replace (cells + (cells + (a * nco + ch)) - cells) with (cells + (a * nco + ch)) by lia. rewrite Eo. unfold a. rewrite (racc_num B H W Ho Wo WoG ps lon_lo P HW HP nci nco kf qf vf lat0 quad s) by auto. fold a. rewrite G3, S3. f_equal. apply lsum_ext. intros t Ht. destruct (at_hw h w t) eqn:Ea; [now rewrite Al|reflexivity].
Qed.
End Fwd.

(** ** The backward pass *)
Variables (dA : nat -> R) (df : fld).
Hypothesis HD : lays B Ho Wo nco dA df.
Variables (maxs : nat -> nat -> nat -> option R) (mA : nat -> R).
Hypothesis HM : forall b h w m, b < B -> h < Ho -> w < Wo -> maxs b h w = Some m -> mA ((b * Ho + h) * Wo + w) = m.
(** cells the chunk touches have a maximum *)
Hypothesis HT : forall b t, b < B -> In t trips -> maxs b (fst (snd t)) (snd (snd t)) <> None.
Lemma alpha_max : forall b t, b < B -> In t trips -> trip_alpha nci quad lat0 kf qf maxs b t = (exp (trip_score nci kf qf b t - mA (bcell Ho Wo b (fst (snd t) * Wo + snd (snd t))%nat)) * quad (Z.to_nat (lat0 + Z.of_nat (fst (fst t)))))%R.
Proof.
  intros b t Hb Ht. specialize (HT b t Hb Ht). destruct (trips_ok H W Ho Wo WoG ps lon_lo P HW HP t Ht) as [L1 L2]. unfold trip_alpha. destruct (maxs b (fst (snd t)) (snd (snd t))) as [m|] eqn:E; [|congruence]. rewrite <- cell_flat. rewrite (HM b _ _ m Hb L1 L2 E). reflexivity.
Qed.
Theorem pass1 : forall dev k o buf, ring_up_pass1 B nci nco H W Ho Wo WoG ps lon_lo lat0 roff col nq kA vA qA dA quad dev mA = Some k -> stats_hold B Ho Wo nci o buf ->
  forall rg sh, settles k (start k rg sh o) (fun o' => stats_hold B Ho Wo nci o' (bring_step_up nci nco quad roff col H W lon_lo lat0 Wo kf vf qf df WoG ps maxs B buf)).
Proof.
  intros dev k o buf Ek HO rg sh. unfold ring_up_pass1 in Ek. destruct (guard _); [|discriminate].
  set (arr := [(B * H * W * nci, kA); (B * H * W * nco, vA); (cells * nci, qA); (cells * nco, dA); (nq, quad); (cells, mA)]) in *. cbv zeta in Ek. assert (Ek' : k = warp_kernel B (H * W) (nci + nco) arr (cells + 2 * (cells * nci)) (ring_group H W Wo WoG ps lon_lo roff col (rstats_body B nci nco H W Ho Wo lat0 (part arr 0) (part arr 1) (part arr 2) (part arr 3) (part arr 4) (part arr 5)))) by (injection Ek as <-; reflexivity). clear Ek.
  eapply settles_impl.
  { apply (rstats_settles B nci nco H W Ho Wo WoG ps lon_lo lat0 P HW HP kf qf vf df nq quad mA HR k (part arr 0) (part arr 1) (part arr 2) (part arr 3) (part arr 4) (part arr 5)); rewrite Ek'; try reflexivity.
    - apply (lays_read B arr 0 H W nci kA kf); [cbn; lia|reflexivity|exact HK].
    - apply (lays_read B arr 2 Ho Wo nci qA qf); [cbn; lia|reflexivity|exact HQ].
    - apply (lays_read B arr 1 H W nco vA vf); [cbn; lia|reflexivity|exact HV].
    - apply (lays_read B arr 3 Ho Wo nco dA df); [cbn; lia|reflexivity|exact HD].
    - apply (array_reads arr 4); [cbn; lia|reflexivity].
    - apply (array_reads arr 5); [cbn; lia|reflexivity]. }
  intros o' Eo b h w Hb Hh Hw. cbv zeta. rewrite Ek', wk_groups in Eo. rewrite cell_flat. destruct (HO b h w Hb Hh Hw) as [O1 O2]. cbv zeta in *. rewrite cell_flat in O1, O2.
  destruct (rst_values B H W Ho Wo WoG ps lon_lo P HW HP nci nco kf qf vf df lat0 quad mA o b h w Hb Hh Hw) as (V1 & V2 & V3). cbv zeta in *.
  destruct (bstep_at B H W Wo WoG ps lon_lo P nci nco kf qf vf df lat0 quad maxs buf b h w Hb) as (_ & _ & S1 & S2 & S3). cbv zeta in *.
  rewrite Eo. split; [|intros x Hx; split]; [rewrite V1, S1, O1|rewrite V2, S2 by exact Hx; rewrite (proj1 (O2 x Hx))|rewrite V3, S3 by exact Hx; rewrite (proj2 (O2 x Hx))]; f_equal; apply lsum_ext; intros t Ht; (destruct (at_hw h w t); [rewrite alpha_max by auto; reflexivity|reflexivity]).
Qed.
Variables (sums inorm : nat -> nat -> nat -> R) (sA iA : nat -> R).
Hypotheses (HSu : lays1 B Ho Wo sA sums) (HIn : lays1 B Ho Wo iA inorm).
(** on zeroed outputs *)
Theorem pass2 : forall dev k, ring_up_pass2 B nci nco H W Ho Wo WoG ps lon_lo lat0 roff col nq kA vA qA dA quad dev sA mA iA = Some k ->
  forall rg sh, settles k (start k rg sh (fun _ => 0%R)) (fun o =>
    let g := dkv_step_up nci nco quad roff col H W lon_lo lat0 Wo kf vf qf df WoG ps sums maxs inorm B in
    lays B H W nci o (fst g) /\ lays B H W nco (fun a => o (B * H * W * nci + a)) (snd g)).
Proof.
  intros dev k Ek rg sh. unfold ring_up_pass2 in Ek. destruct (guard _); [|discriminate].
  set (arr := [(B * H * W * nci, kA); (B * H * W * nco, vA); (cells * nci, qA); (cells * nco, dA); (nq, quad); (cells, sA); (cells, mA); (cells, iA)]) in *. cbv zeta in Ek. assert (Ek' : k = warp_kernel B (H * W) (2 * nci + 2 * nco) arr (B * H * W * nci + B * H * W * nco) (ring_group H W Wo WoG ps lon_lo roff col (rdkv_body nci nco H W Ho Wo lat0 (part arr 0) (part arr 1) (part arr 2) (part arr 3) (part arr 4) (part arr 5) (part arr 6) (part arr 7) (B * H * W * nci) (B * H * W * nco)))) by (injection Ek as <-; reflexivity). clear Ek.
  eapply settles_impl.
  { apply (rdkv_settles B nci nco H W Ho Wo WoG ps lon_lo lat0 P HW HP kf qf vf df nq quad mA HR sA iA k (part arr 0) (part arr 1) (part arr 2) (part arr 3) (part arr 4) (part arr 5) (part arr 6) (part arr 7)); rewrite Ek'; try reflexivity.
    - apply (lays_read B arr 0 H W nci kA kf); [cbn; lia|reflexivity|exact HK].
    - apply (lays_read B arr 2 Ho Wo nci qA qf); [cbn; lia|reflexivity|exact HQ].
    - apply (lays_read B arr 1 H W nco vA vf); [cbn; lia|reflexivity|exact HV].
    - apply (lays_read B arr 3 Ho Wo nco dA df); [cbn; lia|reflexivity|exact HD].
    - apply (array_reads arr 4); [cbn; lia|reflexivity].
    - apply (array_reads arr 6); [cbn; lia|reflexivity].
    - apply (array_reads arr 5); [cbn; lia|reflexivity].
    - apply (array_reads arr 7); [cbn; lia|reflexivity]. }
  intros o Ho'. cbv zeta in Ho'. cbv zeta. unfold dkv_step_up.
  assert (Pr : forall b hi wi p, b < B -> hi < H -> wi < W -> In p (tgt Wo WoG ps lon_lo P hi wi) ->
    rprc nci Ho Wo lat0 kf qf quad mA sA b hi wi p = (trip_alpha nci quad lat0 kf qf maxs b ((hi, wi), p) / sums b (fst p) (snd p))%R /\
    rwtc nci nco Ho Wo lat0 kf qf vf df quad mA sA iA b hi wi p = ((trip_gdotv nco vf df b ((hi, wi), p) - inorm b (fst p) (snd p)) * (trip_alpha nci quad lat0 kf qf maxs b ((hi, wi), p) / sums b (fst p) (snd p)))%R).
  { intros b hi wi p Hb Hh Hw Hp. destruct (tgt_ok H W Ho Wo WoG ps lon_lo P HW HP hi wi p Hh Hp) as [L1 L2].
    assert (E1 : rprc nci Ho Wo lat0 kf qf quad mA sA b hi wi p = (trip_alpha nci quad lat0 kf qf maxs b ((hi, wi), p) / sums b (fst p) (snd p))%R).
    { unfold rprc. rewrite (ral_eq Ho Wo nci kf qf). rewrite alpha_max; [|exact Hb|apply (trips_in H W Ho Wo WoG ps lon_lo P HW HP); cbn [fst snd]; auto]. unfold out_at. rewrite <- (cell_flat Ho Wo b (fst p) (snd p)), (HSu b (fst p) (snd p)) by auto. reflexivity. }
    split; [exact E1|]. unfold rwtc. rewrite E1, rgdv_trip. unfold out_at. rewrite <- (cell_flat Ho Wo b (fst p) (snd p)), (HIn b (fst p) (snd p)) by auto. reflexivity. }
  split; intros b hi wi x Hb Hh Hw Hx; cbn [fst snd]; rewrite (cell_flat H W); rewrite (proj2 (Nat.ltb_lt _ _) Hb), (proj2 (Nat.ltb_lt _ _) Hh), (proj2 (Nat.ltb_lt _ _) Hw); cbn [andb]; destruct (dkv_at H W Ho Wo WoG ps lon_lo P HW HP nci nco kf qf vf df lat0 quad sums maxs inorm b hi wi Hh) as [D1 D2]; cbv zeta in *.
  - rewrite D1. destruct (Ho' b hi wi x Hb Hh Hw) as [Q _]. rewrite (Q Hx). destruct (nth hi P []) eqn:En.
    + unfold tgt. rewrite En. reflexivity.
    + unfold rdk. apply lsum_ext. intros p Hp. destruct (Pr b hi wi p Hb Hh Hw Hp) as [_ ->]. reflexivity.
  - rewrite D2. destruct (Ho' b hi wi x Hb Hh Hw) as [_ Q]. rewrite (Q Hx). destruct (nth hi P []) eqn:En.
    + unfold tgt. rewrite En. reflexivity.
    + unfold rdv. apply lsum_ext. intros p Hp. destruct (Pr b hi wi p Hb Hh Hw Hp) as [-> _]. reflexivity.
Qed.
End Step.

(** ** Round the ring *)
Lemma step_ends_mono : forall ws cells k st (Q Q' : (nat -> R) -> Prop), (forall o, Q o -> Q' o) -> step_ends ws cells k st Q -> step_ends ws cells k st Q'.
Proof.
  intros ws cells [[k1 k2] k3] st Q Q' HQ HS rg1 sh1. eapply settles_impl; [apply HS|]. cbv beta. intros m Hm rg2 sh2. eapply lsettles_mono; [|apply Hm]. cbv beta. intros s Hs rg3 sh3. eapply settles_impl; [apply Hs|]. cbv beta. intros o Ho. apply HQ, Ho.
Qed.
Theorem ring_up_round : forall ws dev ninf B nci nco Ho Wo WoG ps nq qA quad qf, lays B Ho Wo nci qA qf -> 32 <= ws ->
  let ks c := ring_up_fwd B nci nco (c_H c) (c_W c) Ho Wo WoG ps (c_lon c) (c_lat c) (offsets 0 (c_pat c)) (columns (c_pat c)) nq (c_kA c) (c_vA c) qA quad dev ninf in
  let seq_step buf c := ring_step_up nci quad (offsets 0 (c_pat c)) (columns (c_pat c)) (c_H c) (c_W c) (c_lon c) (c_lat c) Ho Wo (c_k c) (c_v c) qf WoG ps B buf in
  forall l o buf, (forall c, In c l -> chunk_ok B nci nco Ho Wo WoG nq ninf qf c /\ ks c <> None) -> maxima_above B Ho Wo ninf buf -> all_hold B Ho Wo nco ninf o buf ->
  steps_end ws (B * Ho * Wo) ks l o (fun o' => all_hold B Ho Wo nco ninf o' (fold_left seq_step l buf)).
Proof.
  intros ws dev ninf B nci nco Ho Wo WoG ps nq qA quad qf HQ Hws ks seq_step. induction l as [|c l IH]; intros o buf HC HA HO; [exact HO|]. cbn [steps_end fold_left]. destruct (HC c (or_introl eq_refl)) as [[C1 C2 C3 C4 C5 C6] Nk]. destruct (ks c) as [k|] eqn:Ek; [|congruence].
  eapply step_ends_mono; [|eapply (fwd_step ninf B nci nco (c_H c) (c_W c) Ho Wo WoG ps (c_lon c) nq (c_lat c) (c_pat c) (c_kA c) (c_vA c) qA quad (c_k c) (c_v c) qf C1 C2 C3 C4 C5 HQ C6 ws dev k buf o Hws Ek HA HO)].
  cbv beta. intros o' Ho'. apply (IH o' (seq_step buf c)); [intros c' Hc'; apply HC; now right| |exact Ho'].
  exact (fwd_above ninf B nci (c_H c) (c_W c) Ho Wo WoG ps (c_lon c) (c_lat c) (c_pat c) quad (c_k c) (c_v c) qf C1 C2 C6 buf HA).
Qed.

(** ** The pattern a rank builds *)
Theorem layer_rows : forall P Hi Ho Wo lat_in lat_out p lon_lo r, pattern_ok P Hi (Ho * Wo) -> 1 <= Wo -> lon_lo <= Wo -> let n := nth p lat_in 0 + 2 * r in let len_o := nth p lat_out 0 in
  exists P', local_psi_up Wo Hi lat_in lat_out (offsets 0 P) (columns P) p lon_lo r = (offsets 0 P', columns P') /\
  pattern_ok P' n (len_o * Wo) /\ rows_inside n (Z.of_nat (nth p (split_starts lat_in) 0) - Z.of_nat r) P' Hi.
Proof.
  intros P Hi Ho Wo lat_in lat_out p lon_lo r [LP HP] HWo Hl n len_o. eexists. split; [apply local_psi_up_pat; auto|]. fold n. set (lo := nth p (split_starts lat_in) 0). set (out_lo := nth p (split_starts lat_out) 0). fold len_o. split.
  - split; [rewrite map_length, seq_length; reflexivity|]. intros row c Hr Hc. apply in_map_iff in Hr. destruct Hr as (j & <- & _). unfold up_row in Hc. destruct (_ && _); [|destruct Hc]. apply in_map_iff in Hc. destruct Hc as (c0 & <- & Hc). apply filter_In in Hc. destruct Hc as [_ Hk]. unfold keep in Hk. apply andb_true_iff in Hk. rewrite Nat.leb_le, Nat.ltb_lt in Hk. unfold recol.
    assert (M := Nat.mod_upper_bound (c0 mod Wo + Wo - lon_lo) Wo ltac:(lia)). apply cell_lt; [lia|exact M].
  - intros hi Hh Ne. rewrite (nth_indep _ [] (up_row P Hi r lo out_lo (out_lo + len_o) Wo lon_lo 0)) in Ne by (rewrite map_length, seq_length; exact Hh). rewrite map_nth, seq_nth in Ne by exact Hh. cbn [plus] in Ne. unfold up_row in Ne. destruct (Nat.leb_spec r (lo + hi)), (Nat.ltb_spec (lo + hi) (r + Hi)); cbn [andb] in Ne; try congruence. lia.
Qed.
