(** The CUDA attention backward pass in the upsampling direction: what the launches leave. *)
From Coq Require Import List Arith Lia Bool Reals Lra Permutation FunctionalExtensionality.
From Verif Require Import TensorModel TensorProofs BigSum DiscoModel DiscoSortProofs AttnModel AttnCoreProofs AttnUpProofs AttnGradProofs AttnBwdProofs AttnCpuUpBwdProofs GpuModel GpuSpec GpuProofs GpuProofs2 WarpProofs CudaDiscoModel CudaWarpModel WarpSumProofs CudaAttnModel CudaAttnUpModel CudaAttnProofs CudaAttnLaneProofs CudaAttnFwdProofs2 WarpKernelProofs CudaKeyProofs CudaLoopProofs CudaAttnUpProofs CudaAttnUpProofs2 CudaAttnUpProofs3 CudaAttnUpBwdProofs.
From Verif Require Import AttnSpec.
Import ListNotations.
Local Open Scope nat_scope.
Notation upd := (nat * uop * R)%type (only parsing).
Notation lanes := (nat -> (nat -> R) * (nat -> R)) (only parsing).
Notation priv := (fun _ : nat => false).

Lemma hits_chans2 : forall a n (a1 a2 : nat -> nat) o (v1 v2 : nat -> R), rlsum (fun t => hits a (flat_map (fun x => [(a1 x, o, v1 x); (a2 x, o, v2 x)]) (loop_chans 32 n t))) (seq 0 32) =
  (rsum n (fun x => if (a1 x =? a)%nat then v1 x else 0) + rsum n (fun x => if (a2 x =? a)%nat then v2 x else 0))%R.
Proof.
  intros. rewrite <- rsum_plus'. rewrite <- (warp_lanes n). apply lsum_ext. intros t _. rewrite hits_flat. apply lsum_ext. intros x _. unfold hits. cbn [lsum_ fold_right fst snd]. ring.
Qed.

Section Values.
Variables (B nh Hi Wi Ho Wo : nat) (P : pattern) (nci nco : nat) (Kf Qf Vf Df : nat -> nat -> nat -> nat -> R) (quad mx : nat -> R).
Hypotheses (HWi : 1 <= Wi) (HWo : 1 <= Wo) (Hdiv : Wo mod Wi = 0) (HP : pattern_ok P Hi (Ho * Wo)).
Notation BH := (B * nh). Notation cells := (BH * Ho * Wo).
Notation bc bh wi c := (bcell Ho Wo bh (out_cell Wi Wo wi c)).
Notation N := (nbrs_scatter P Hi Wi Wo).
Notation stT' := (stT B nh Wi Ho Wo nci nco Kf Qf Vf Df quad mx).
Notation alp' := (alp Wi Ho Wo nci Kf Qf quad mx).
Notation gdv' := (gdv Wi Wo nco Vf Df).
Notation trace T := (flat_map (at_key (up_key (Hi * Wi)) (per_entry Wi P T)) (seq 0 (BH * up_gw (Hi * Wi)))).
Notation mu b ho wo := (mx (bcell Ho Wo b (ho * Wo + wo))).
Notation al b ho wo := (alm nci quad Kf Qf b ho wo (mu b ho wo)).
Notation gd b ho wo := (g_dot nco Vf Df b ho wo).
Lemma gdv_dot : forall bh hi wi c, gdv' bh hi wi c = gd bh (to_ho Wo c) (to_wo Wi Wo wi c) (hi, wi).
Proof. intros. unfold gdv, g_dot. apply bsum_ext. intros x _. cbn [fst snd]. ring. Qed.
Lemma st_hits : forall bh hi wi c a, hits a (stT' bh hi wi c) =
  ((if (bc bh wi c =? a)%nat then alp' bh hi wi c else 0) + (if (cells + bc bh wi c =? a)%nat then alp' bh hi wi c * gdv' bh hi wi c else 0) +
   (rsum nci (fun x => if (2 * cells + (bc bh wi c * nci + x) =? a)%nat then alp' bh hi wi c * Kf bh hi wi x else 0) +
    rsum nci (fun x => if (2 * cells + cells * nci + (bc bh wi c * nci + x) =? a)%nat then alp' bh hi wi c * gdv' bh hi wi c * Kf bh hi wi x else 0)))%R.
Proof.
  intros. unfold stT, st_l. rewrite (hits_warp a [(bc bh wi c, UAtom AAdd, alp' bh hi wi c); (cells + bc bh wi c, UAtom AAdd, (alp' bh hi wi c * gdv' bh hi wi c)%R)]). f_equal; [unfold hits; cbn [lsum_ fold_right fst snd]; ring|].
  rewrite hits_chans2. f_equal; apply bsum_ext; intros x _; unfold bcell; rewrite Nat.mul_add_distr_r; reflexivity.
Qed.
Lemma st_adds : forall u, In u (trace stT') -> snd (fst u) = UAtom AAdd.
Proof.
  intros u Hu. apply (trace_in B nh Hi Wi Wo P HWi HWo Hdiv) in Hu. destruct Hu as (bh & hi & wi & c & _ & _ & _ & _ & Hu). unfold stT in Hu. apply in_flat_map in Hu. destruct Hu as (t & _ & Hu). unfold st_l in Hu. apply in_app_iff in Hu. destruct Hu as [Hu|Hu].
  - destruct (t =? 0); [|destruct Hu]. destruct Hu as [<-|[<-|[]]]; reflexivity.
  - apply in_flat_map in Hu. destruct Hu as (x & _ & [<-|[<-|[]]]); reflexivity.
Qed.
Lemma st_at : forall a v b ho wo, b < BH -> ho < Ho -> wo < Wo ->
  (forall bh hi wi c, bh < BH -> hi < Hi -> wi < Wi -> In c (nth hi P []) -> bc bh wi c < cells -> hits a (stT' bh hi wi c) = (if (bc bh wi c =? bcell Ho Wo b (ho * Wo + wo))%nat then v bh hi wi (to_ho Wo c) (to_wo Wi Wo wi c) else 0)%R) ->
  upds (trace stT') (fun _ => 0%R) a = rlsum (fun p => v b (fst p) (snd p) ho wo) (N ho wo).
Proof.
  intros a v b ho wo Hb Hh Hw HT. rewrite upds_add by (intros; now apply st_adds). rewrite Rplus_0_l. fold (hits a (trace stT')).
  apply (trace_hits B nh Hi Wi Ho Wo P HWi HWo Hdiv HP); auto. intros bh hi wi c Hbh Hhi Hwi Hc. apply HT; auto. eapply bc_lt; eauto.
Qed.
Lemma off_0 : forall n (ad : nat -> nat) a (v : nat -> R), (forall x, x < n -> ad x <> a) -> rsum n (fun x => if (ad x =? a)%nat then v x else 0)%R = 0%R.
Proof. intros n ad a v H. apply rsum_0. intros x Hx. now rewrite (proj2 (Nat.eqb_neq _ _) (H x Hx)). Qed.
Lemma rows_lt : forall a x, a < cells -> x < nci -> a * nci + x < cells * nci.
Proof. intros a x Ha Hx. assert ((a + 1) * nci <= cells * nci) by (apply Nat.mul_le_mono_r; lia). lia. Qed.
Lemma st_S : forall b ho wo, b < BH -> ho < Ho -> wo < Wo -> upds (trace stT') (fun _ => 0%R) (bcell Ho Wo b (ho * Wo + wo)) = rlsum (al b ho wo) (N ho wo).
Proof.
  intros b ho wo Hb Hh Hw. assert (L := bcell_lt BH Ho Wo b (ho * Wo + wo) Hb (cell_lt Ho Wo ho wo Hh Hw)). rewrite (st_at _ (fun bh hi wi h w => al bh h w (hi, wi)) b ho wo Hb Hh Hw); [apply lsum_ext; intros [? ?] _; reflexivity|].
  intros bh hi wi c Hbh Hhi Hwi Hc L2. rewrite st_hits. rewrite !off_0 by (intros; lia). rewrite <- alp_alm with (P := P) (Hi := Hi) by auto. rewrite (proj2 (Nat.eqb_neq (cells + _) _)) by lia. destruct (_ =? _); ring.
Qed.
Lemma st_A : forall b ho wo, b < BH -> ho < Ho -> wo < Wo -> upds (trace stT') (fun _ => 0%R) (cells + bcell Ho Wo b (ho * Wo + wo)) = rlsum (fun p => al b ho wo p * gd b ho wo p)%R (N ho wo).
Proof.
  intros b ho wo Hb Hh Hw. assert (L := bcell_lt BH Ho Wo b (ho * Wo + wo) Hb (cell_lt Ho Wo ho wo Hh Hw)). rewrite (st_at _ (fun bh hi wi h w => al bh h w (hi, wi) * gd bh h w (hi, wi))%R b ho wo Hb Hh Hw); [apply lsum_ext; intros [? ?] _; reflexivity|].
  intros bh hi wi c Hbh Hhi Hwi Hc L2. rewrite st_hits. rewrite !off_0 by (intros; lia). rewrite <- alp_alm with (P := P) (Hi := Hi), <- gdv_dot by auto. rewrite (proj2 (Nat.eqb_neq (bc bh wi c) (cells + _))) by lia.
  destruct (Nat.eqb_spec (cells + bc bh wi c) (cells + bcell Ho Wo b (ho * Wo + wo))), (Nat.eqb_spec (bc bh wi c) (bcell Ho Wo b (ho * Wo + wo))); try lia; ring.
Qed.
Lemma shift_eqb : forall s a b, (s + a =? s + b) = (a =? b).
Proof. intros. destruct (Nat.eqb_spec (s + a) (s + b)), (Nat.eqb_spec a b); auto; lia. Qed.
Lemma st_Ak : forall b ho wo y, b < BH -> ho < Ho -> wo < Wo -> y < nci -> upds (trace stT') (fun _ => 0%R) (2 * cells + (bcell Ho Wo b (ho * Wo + wo) * nci + y)) = rlsum (fun p => al b ho wo p * Kf b (fst p) (snd p) y)%R (N ho wo).
Proof.
  intros b ho wo y Hb Hh Hw Hy. assert (L := bcell_lt BH Ho Wo b (ho * Wo + wo) Hb (cell_lt Ho Wo ho wo Hh Hw)). assert (L3 := rows_lt _ y L Hy). rewrite (st_at _ (fun bh hi wi h w => al bh h w (hi, wi) * Kf bh hi wi y)%R b ho wo Hb Hh Hw); [apply lsum_ext; intros [? ?] _; reflexivity|].
  intros bh hi wi c Hbh Hhi Hwi Hc L2. rewrite st_hits. rewrite (off_0 nci (fun x => 2 * cells + cells * nci + (bc bh wi c * nci + x))) by (intros; lia). rewrite !(proj2 (Nat.eqb_neq _ (2 * cells + _))) by lia.
  rewrite (bsum_ext nci _ (fun x => if (bc bh wi c * nci + x =? bcell Ho Wo b (ho * Wo + wo) * nci + y)%nat then alp' bh hi wi c * Kf bh hi wi x else 0)%R) by (intros; now rewrite shift_eqb).
  rewrite (pick_chan nci _ _ y (fun x => alp' bh hi wi c * Kf bh hi wi x)%R Hy). rewrite <- alp_alm with (P := P) (Hi := Hi) by auto. destruct (_ =? _); ring.
Qed.
Lemma st_Akv : forall b ho wo y, b < BH -> ho < Ho -> wo < Wo -> y < nci -> upds (trace stT') (fun _ => 0%R) (2 * cells + cells * nci + (bcell Ho Wo b (ho * Wo + wo) * nci + y)) = rlsum (fun p => al b ho wo p * Kf b (fst p) (snd p) y * gd b ho wo p)%R (N ho wo).
Proof.
  intros b ho wo y Hb Hh Hw Hy. assert (L := bcell_lt BH Ho Wo b (ho * Wo + wo) Hb (cell_lt Ho Wo ho wo Hh Hw)). assert (L3 := rows_lt _ y L Hy). rewrite (st_at _ (fun bh hi wi h w => al bh h w (hi, wi) * Kf bh hi wi y * gd bh h w (hi, wi))%R b ho wo Hb Hh Hw); [apply lsum_ext; intros [? ?] _; reflexivity|].
  intros bh hi wi c Hbh Hhi Hwi Hc L2. rewrite st_hits. rewrite (off_0 nci (fun x => 2 * cells + (bc bh wi c * nci + x))) by (intros x Hx; assert (Q := rows_lt _ x L2 Hx); lia). rewrite !(proj2 (Nat.eqb_neq _ (2 * cells + cells * nci + _))) by lia.
  rewrite (bsum_ext nci _ (fun x => if (bc bh wi c * nci + x =? bcell Ho Wo b (ho * Wo + wo) * nci + y)%nat then alp' bh hi wi c * gdv' bh hi wi c * Kf bh hi wi x else 0)%R) by (intros; now rewrite shift_eqb).
  rewrite (pick_chan nci _ _ y (fun x => alp' bh hi wi c * gdv' bh hi wi c * Kf bh hi wi x)%R Hy). rewrite <- alp_alm with (P := P) (Hi := Hi), <- gdv_dot by auto. destruct (_ =? _); ring.
Qed.
(** the entries of an input row are the output cells which have the input cell as neighbour *)
Lemma row_cells : forall hi wi (H : nat -> nat -> R), hi < Hi -> wi < Wi -> rlsum (fun c => H (to_ho Wo c) (to_wo Wi Wo wi c)) (nth hi P []) =
  rsum Ho (fun ho => rsum Wo (fun wo => rlsum (fun p => if pt_eqb (hi, wi) p then H ho wo else 0)%R (N ho wo))).
Proof.
  intros hi wi H Hh Hw. assert (E := entries_row Hi Wi Ho Wo P HWi HWo Hdiv HP hi wi (fun cl => H (fst cl) (snd cl)) Hh Hw). cbn [fst snd] in E. rewrite <- E.
  rewrite csr_row_spec by (destruct HP; lia). rewrite (enum_sum _ (fun c => H (c / Wo) (up_wo Wi Wo wi c))). apply lsum_ext. intros c _. unfold to_ho, to_wo. now rewrite up_wo_eq.
Qed.
End Values.

(** ** The gradient of the queries *)
Section Dq.
Variables (B nh nci Ho Wo : nat) (k : kernel) (ps pa pak pakv : nat * nat) (fs fa fak fakv : nat -> R).
Notation BH := (B * nh).
Hypotheses (Hnh : 1 <= nh) (Eg : k_groups k = BH * up_gw (Ho * Wo)) (Et : k_threads k = 32) (Eo : k_outsize k = B * Ho * Wo * (nh * nci)).
Hypothesis Ec : k_code k = (fun g => code_of (dq_group nh nci Ho Wo ps pa pak pakv (B * Ho * Wo * (nh * nci)) g)).
Hypotheses (HS : reads (k_in k) (k_insize k) ps 0 (BH * Ho * Wo) fs) (HA : reads (k_in k) (k_insize k) pa 0 (BH * Ho * Wo) fa) (HK : reads (k_in k) (k_insize k) pak 0 (BH * Ho * Wo * nci) fak) (HV : reads (k_in k) (k_insize k) pakv 0 (BH * Ho * Wo * nci) fakv).
Definition dq_seg (bh wid t : nat) : list instr := [get ps r_s (bcell Ho Wo bh wid); ISet r_sum (fun r => 1 / r r_s)%R; get pa r_avw (bcell Ho Wo bh wid)] ++
  flat_map (fun c => [get pakv r_t (bcell Ho Wo bh wid * nci + c); get pak r_u (bcell Ho Wo bh wid * nci + c);
    set_out (0, B * Ho * Wo * (nh * nci)) ((bh / nh * Ho * Wo + wid) * (nh * nci) + (bh - bh / nh * nh) * nci + c) (fun r => r r_sum * r r_sum * (r r_s * r r_t - r r_avw * r r_u))%R]) (loop_chans 32 nci t).
Definition dq_val (b c x : nat) : R := let i := bcell Ho Wo b c in (1 / fs i * (1 / fs i) * (fs i * fakv (i * nci + x)%nat - fa i * fak (i * nci + x)%nat))%R.
Theorem dq_settles : forall rg sh out, settles k (start k rg sh out) (fun o => forall b c x, b < BH -> c < Ho * Wo -> x < nci -> o (pidx nh (Ho * Wo) nci b c x) = dq_val b c x).
Proof.
  intros rg sh out. apply (out_settles B nh (Ho * Wo) nci k _ dq_val Hnh Eg Et Eo ltac:(ring) dq_seg).
  - intros g t Hg Ht. rewrite Ec. f_equal.
  - intros g b c t Hg Ek Hb Hc Ht. assert (L := bcell_lt BH Ho Wo b c Hb Hc). unfold dq_seg. fi; [eapply fine_get0; [exact HS|exact L]|eapply fine_get0; [exact HA|exact L]|].
    intros x Hx. apply my_chans in Hx; [|exact Ht]. assert (L2 := bcelln_lt BH Ho Wo nci b c x Hb Hc ltac:(tauto)). fi; [eapply fine_get0; [exact HV|exact L2]|eapply fine_get0; [exact HK|exact L2]|]. rewrite y_pidx by exact Hnh.
    apply (out_fine B nh (Ho * Wo) nci k _ Hnh Eg Et Eo ltac:(ring)); auto; tauto.
  - intros b c t [rg0 sh0] Hb Hc Ht. assert (L := bcell_lt BH Ho Wo b c Hb Hc). unfold dq_seg. rewrite lrun_app. rewrite (get_0 _ _ ps _ fs r_s (bcell Ho Wo b c) HS L), (get_0 _ _ pa _ fa r_avw (bcell Ho Wo b c) HA L). lr.
    assert (E1 := proj2 (proj2 (HS _ L))). assert (E2 := proj2 (proj2 (HA _ L))). cbn [plus] in E1, E2. rewrite E1, E2. clear E1 E2. set (rg1 := put r_avw _ _).
    assert (E1 : rg1 r_s = fs (bcell Ho Wo b c)) by (unfold rg1; pe; reflexivity). assert (E2 : rg1 r_sum = (1 / fs (bcell Ho Wo b c))%R) by (unfold rg1; pe; reflexivity). assert (E3 : rg1 r_avw = fa (bcell Ho Wo b c)) by (unfold rg1; pe; reflexivity). clearbody rg1.
    destruct (lrun_loop _ (k_in k) (fun c0 => [get pakv r_t (bcell Ho Wo b c * nci + c0); get pak r_u (bcell Ho Wo b c * nci + c0);
        set_out (0, B * Ho * Wo * (nh * nci)) ((b / nh * Ho * Wo + c) * (nh * nci) + (b - b / nh * nh) * nci + c0) (fun r => r r_sum * r r_sum * (r r_s * r r_t - r r_avw * r r_u))%R])
      (fun x => [(pidx nh (Ho * Wo) nci b c x, USet, dq_val b c x)]) (fun _ m => fst m r_s = fs (bcell Ho Wo b c) /\ fst m r_sum = (1 / fs (bcell Ho Wo b c))%R /\ fst m r_avw = fa (bcell Ho Wo b c)) (loop_chans 32 nci t) (rg1, sh0)) as [_ I4]; [auto| |].
    + intros d x r [rg2 sh2] Er (I1 & I2 & I3). cbn [fst] in I1, I2, I3. assert (Hx : x < nci) by (assert (Q : In x (loop_chans 32 nci t)) by (rewrite Er; apply in_elt); apply my_chans in Q; tauto). assert (L2 := bcelln_lt BH Ho Wo nci b c x Hb Hc Hx).
      rewrite (get_0 _ _ pakv _ fakv r_t (bcell Ho Wo b c * nci + x) HV L2), (get_0 _ _ pak _ fak r_u (bcell Ho Wo b c * nci + x) HK L2). rewrite set_in by (cbn [snd]; rewrite y_pidx by exact Hnh; replace (B * Ho * Wo) with (B * (Ho * Wo)) by ring; now apply pidx_lt).
      lr. assert (Q1 := proj2 (proj2 (HV _ L2))). assert (Q2 := proj2 (proj2 (HK _ L2))). cbn [plus] in Q1, Q2. rewrite Q1, Q2. cbn [fst snd plus]. rewrite y_pidx by exact Hnh. pe. rewrite I1, I2, I3. split; [auto|]. reflexivity.
    + rewrite I4. apply flat_one.
Qed.
End Dq.

(** ** The gradients of the keys and of the values *)
Section Dkv.
Variables (B nh Hi Wi Ho Wo : nat) (P : pattern) (nci nco : nat) (Kf Qf Vf Df : nat -> nat -> nat -> nat -> R) (quad mx fs fa : nat -> R).
Hypotheses (Hnh : 1 <= nh) (HWi : 1 <= Wi) (HWo : 1 <= Wo) (Hdiv : Wo mod Wi = 0) (HP : pattern_ok P Hi (Ho * Wo)).
Notation BH := (B * nh). Notation cells := (BH * Ho * Wo).
Notation roff := (offsets 0 P). Notation col := (columns P).
Notation bat bh := (bh / nh). Notation hd bh := (bh - bh / nh * nh).
Notation cell wi c := (out_cell Wi Wo wi c).
Notation bc bh wi c := (bcell Ho Wo bh (out_cell Wi Wo wi c)).
Notation reads4 := (cells_read B nh).
Notation scr' := (scr Wi Wo nci Kf Qf). Notation gdv' := (gdv Wi Wo nco Vf Df).
Notation alp' := (alp Wi Ho Wo nci Kf Qf quad mx).
Definition prc (bh hi wi c : nat) : R := (alp' bh hi wi c / fs (bc bh wi c))%R.
Definition wtc (bh hi wi c : nat) : R := ((gdv' bh hi wi c - fa (bc bh wi c) / fs (bc bh wi c)) * prc bh hi wi c)%R.
Definition dk_part (bh hi wi : nat) (d : list nat) (x : nat) : R := rlsum (fun c => wtc bh hi wi c * Qf bh (to_ho Wo c) (to_wo Wi Wo wi c) x)%R d.
Definition dv_part (bh hi wi : nat) (d : list nat) (x : nat) : R := rlsum (fun c => prc bh hi wi c * Df bh (to_ho Wo c) (to_wo Wi Wo wi c) x)%R d.
Variables (k : kernel) (pk pv pq pdy pw pm ps pa : nat * nat).
Notation ksize := (B * Hi * Wi * (nh * nci)). Notation vsize := (B * Hi * Wi * (nh * nco)).
Hypotheses (Eg : k_groups k = BH * up_gw (Hi * Wi)) (Et : k_threads k = 32) (Es : k_shared k = 2 * nci + 2 * nco) (Eo : k_outsize k = ksize + vsize).
Hypothesis Ec : k_code k = (fun g => code_of (up_group nh Hi Wi roff col (dkv_body nh nci nco Hi Wi Ho Wo pk pv pq pdy pw pm ps pa ksize vsize) g)).
Notation inp := (k_in k). Notation N := (k_insize k).
Hypotheses (HK : reads4 inp N pk nci Hi Wi Kf) (HQ : reads4 inp N pq nci Ho Wo Qf) (HV : reads4 inp N pv nco Hi Wi Vf) (HD : reads4 inp N pdy nco Ho Wo Df) (HW : reads inp N pw 0 Hi quad) (HM : reads inp N pm 0 cells mx) (HS : reads inp N ps 0 cells fs) (HA : reads inp N pa 0 cells fa).
Notation own := (own_segs [nci; nco; nci; nco]).
Notation sK := (sh_dk nci nco). Notation sV := (sh_dv nci nco).
Notation qb b h wi c := (cell_at (nh * nci) nci Ho Wo b h (cell wi c)). Notation db b h wi c := (cell_at (nh * nco) nco Ho Wo b h (cell wi c)).
Notation kb b h hi wi := (cell_at (nh * nci) nci Hi Wi b h (cell_in Wi hi wi)). Notation vb b h hi wi := (cell_at (nh * nco) nco Hi Wi b h (cell_in Wi hi wi)).
Definition dkv_tail (bh b h wi c t : nat) : list instr :=
  [get ps r_s (bc bh wi c); get pm r_max (bc bh wi c); ISet r_alpha (fun r => exp (r r_dot - r r_max) * r r_w / r r_s)%R;
   get pa r_avw (bc bh wi c); ISet r_int (fun r => r r_avw / r r_s)%R; ISet r_ag (fun r => (r r_gd - r r_int) * r r_alpha)%R] ++
  flat_map (fun x => [ILoad r_t (sV + x); get pdy r_u (db b h wi c + x); IStore (sV + x) (fun r => r r_t + r r_alpha * r r_u)%R]) (loop_chans 32 nco t) ++
  flat_map (fun x => [ILoad r_t (sK + x); get pq r_u (qb b h wi c + x); IStore (sK + x) (fun r => r r_t + r r_ag * r r_u)%R]) (loop_chans 32 nci t).
Definition dkv_fe (bh b h wi c : nat) : list fstep := two_dots r_dot 0 pq (qb b h wi c) nci r_gd nci pdy (db b h wi c) nco ++ [FSeg (dkv_tail bh b h wi c)].
Definition dkv_init (b h hi wi t : nat) : list instr :=
  flat_map (fun c => [get pk r_t (kb b h hi wi + c); IStore (0 + c) (fun r => r r_t); IStore (sK + c) (fun _ => 0%R)]) (loop_chans 32 nci t) ++
  flat_map (fun c => [get pv r_t (vb b h hi wi + c); IStore (nci + c) (fun r => r r_t); IStore (sV + c) (fun _ => 0%R)]) (loop_chans 32 nco t) ++ [get pw r_w hi].
Definition dkv_last (b h hi wi t : nat) : list instr :=
  flat_map (fun c => [ILoad r_t (sK + c); set_out (0, ksize) (kb b h hi wi + c) (fun r => r r_t)]) (loop_chans 32 nci t) ++
  flat_map (fun c => [ILoad r_t (sV + c); set_out (ksize, vsize) (vb b h hi wi + c) (fun r => r r_t)]) (loop_chans 32 nco t).
Definition dkv_f (bh b h hi wi : nat) (row : list nat) : list fstep := [FSeg (dkv_init b h hi wi)] ++ flat_map (dkv_fe bh b h wi) row ++ [FSeg (dkv_last b h hi wi)].
(** where the results go *)
Definition dkv_n (i : nat) : nat := if i =? 0 then nci else nco.
Definition dkv_addr (i b c x : nat) : nat := if i =? 0 then pidx nh (Hi * Wi) nci b c x else ksize + pidx nh (Hi * Wi) nco b c x.
Definition dkv_vl (i b c x : nat) : R := let hi := c / Wi in let wi := c - c / Wi * Wi in if i =? 0 then dk_part b hi wi (nth hi P []) x else dv_part b hi wi (nth hi P []) x.
Definition dkv_holds := wholds (BH * up_gw (Hi * Wi)) 2 (up_key (Hi * Wi)) dkv_n (fun c => c mod 32) dkv_addr.
Definition dkv_T := wtrace 32 2 (fun i => loop_chans 32 (dkv_n i)) dkv_addr dkv_vl.
Lemma dkv_inj : forall i b c x i' b' c' x' : nat, i < 2 -> b < BH -> c < Hi * Wi -> x < dkv_n i -> i' < 2 -> b' < BH -> c' < Hi * Wi -> x' < dkv_n i' -> dkv_addr i b c x = dkv_addr i' b' c' x' -> i = i' /\ b = b' /\ c = c' /\ x = x'.
Proof.
  intros i b c x i' b' c' x' Hi0 Hb Hc Hx Hi' Hb' Hc' Hx' E. unfold dkv_addr, dkv_n in *.
  destruct (Nat.eqb_spec i 0) as [E0|E0], (Nat.eqb_spec i' 0) as [E1|E1].
  - split; [lia|]. now apply (pidx_inj nh (Hi * Wi) nci).
  - assert (L := pidx_lt B nh (Hi * Wi) nci b c x Hb Hc Hx). lia.
  - assert (L := pidx_lt B nh (Hi * Wi) nci b' c' x' Hb' Hc' Hx'). lia.
  - split; [lia|]. apply (pidx_inj nh (Hi * Wi) nco); auto. lia.
Qed.
Definition dkv_inv (bh hi wi : nat) (d : list nat) (st : lanes) : Prop :=
  ready nci Kf nco Vf quad bh hi wi st /\ keeps sK nci (dk_part bh hi wi d) st /\ keeps sV nco (dv_part bh hi wi d) st.
Lemma dkv_init_run : forall bh hi wi t (m : (nat -> R) * (nat -> R)), bh < BH -> hi < Hi -> wi < Wi -> t < 32 ->
  let m' := lrun inp (dkv_init (bat bh) (hd bh) hi wi t) m in snd m' = [] /\ fst (fst m') r_w = quad hi /\
  (forall c, In c (loop_chans 32 nci t) -> snd (fst m') (0 + c) = Kf bh hi wi c /\ snd (fst m') (sK + c) = 0%R) /\ (forall c, In c (loop_chans 32 nco t) -> snd (fst m') (nci + c) = Vf bh hi wi c /\ snd (fst m') (sV + c) = 0%R).
Proof.
  intros bh hi wi t [rg sh] Hb Hh Hw Ht m'. subst m'. unfold dkv_init. rewrite !lrun_app. cbn [fst snd].
  destruct (loop_copy0 inp N pk (kb (bat bh) (hd bh) hi wi) 0 sK nci (Kf bh hi wi) (loop_chans 32 nci t) rg sh ltac:(unfold sh_dk; lia) ltac:(intros c Hc; apply my_chans in Hc; tauto) (HK bh hi wi Hb Hh Hw)) as (A1 & A2 & A3 & A4).
  set (m1 := lrun inp _ (rg, sh)) in *. rewrite (surjective_pairing (fst m1)).
  destruct (loop_copy0 inp N pv (vb (bat bh) (hd bh) hi wi) nci sV nco (Vf bh hi wi) (loop_chans 32 nco t) (fst (fst m1)) (snd (fst m1)) ltac:(unfold sh_dv; lia) ltac:(intros c Hc; apply my_chans in Hc; tauto) (HV bh hi wi Hb Hh Hw)) as (B1 & B2 & B3 & B4).
  set (m2 := lrun inp _ (fst (fst m1), snd (fst m1))) in *. rewrite (get_0 inp N pw Hi quad r_w hi HW Hh). rewrite (surjective_pairing (fst m2)). lr. rewrite A1, B1, put_eq. destruct (HW hi Hh) as (_ & _ & Ew). cbn [plus] in Ew. split; [reflexivity|]. split; [exact Ew|]. split; [|exact B3].
  intros c Hc. assert (Lc := proj1 (proj1 (my_chans nci t c Ht) Hc)). rewrite !B4; [now apply A3| |]; intros c' Hc'; apply my_chans in Hc'; try exact Ht; unfold sh_dk, sh_dv; lia.
Qed.
Lemma dkv_tail_run : forall bh hi wi c t (m : (nat -> R) * (nat -> R)), bh < BH -> hi < Hi -> wi < Wi -> In c (nth hi P []) -> t < 32 -> fst m r_dot = scr' bh hi wi c -> fst m r_gd = gdv' bh hi wi c -> fst m r_w = quad hi ->
  let m' := lrun inp (dkv_tail bh (bat bh) (hd bh) wi c t) m in snd m' = [] /\ fst (fst m') r_w = quad hi /\
  (forall x, In x (loop_chans 32 nci t) -> snd (fst m') (sK + x) = (snd m (sK + x)%nat + wtc bh hi wi c * Qf bh (to_ho Wo c) (to_wo Wi Wo wi c) x)%R) /\
  (forall x, In x (loop_chans 32 nco t) -> snd (fst m') (sV + x) = (snd m (sV + x)%nat + prc bh hi wi c * Df bh (to_ho Wo c) (to_wo Wi Wo wi c) x)%R) /\ (forall a, a < nci + nco -> snd (fst m') a = snd m a).
Proof.
  intros bh hi wi c t [rg sh] Hb Hh Hw Hc Ht Ed Eg' Ew m'. subst m'. cbn [fst snd] in *. assert (L := bc_lt B nh Hi Wi Ho Wo P HWi HWo Hdiv HP bh hi wi c Hb Hh Hw Hc). unfold dkv_tail.
  rewrite (get_0 inp N ps _ fs r_s _ HS L), (get_0 inp N pm _ mx r_max _ HM L), (get_0 inp N pa _ fa r_avw _ HA L). destruct (HM _ L) as (_ & _ & Em). destruct (HS _ L) as (_ & _ & E_s). destruct (HA _ L) as (_ & _ & Ea). cbn [plus] in Em, E_s, Ea.
  rewrite !lrun_app. lr. rewrite Em, E_s, Ea. set (rg1 := put r_ag _ _).
  assert (E1 : rg1 r_alpha = prc bh hi wi c). { unfold rg1. pe. rewrite Ed, Ew. reflexivity. }
  assert (E3 : rg1 r_ag = wtc bh hi wi c). { unfold rg1. pe. rewrite Ed, Ew, Eg'. reflexivity. }
  assert (E2 : rg1 r_w = quad hi). { unfold rg1. pe. exact Ew. } clearbody rg1.
  destruct (loop_update inp N r_alpha pdy (db (bat bh) (hd bh) wi c) sV nco _ (loop_chans 32 nco t) rg1 sh ltac:(discriminate) ltac:(discriminate) (chans_nodup nco t Ht) ltac:(intros x Hx; apply my_chans in Hx; tauto) (at_out B nh Hi Wi Ho Wo P HWi HWo Hdiv HP _ _ _ _ _ bh hi wi c HD Hb Hh Hw Hc)) as (A1 & A2 & A3 & A4).
  set (m1 := lrun inp _ (rg1, sh)) in *. rewrite (surjective_pairing (fst m1)).
  destruct (loop_update inp N r_ag pq (qb (bat bh) (hd bh) wi c) sK nci _ (loop_chans 32 nci t) (fst (fst m1)) (snd (fst m1)) ltac:(discriminate) ltac:(discriminate) (chans_nodup nci t Ht) ltac:(intros x Hx; apply my_chans in Hx; tauto) (at_out B nh Hi Wi Ho Wo P HWi HWo Hdiv HP _ _ _ _ _ bh hi wi c HQ Hb Hh Hw Hc)) as (B1 & B2 & B3 & B4).
  set (m2 := lrun inp _ (fst (fst m1), snd (fst m1))) in *. rewrite A1, B1. split; [reflexivity|]. split; [rewrite B2, A2 by discriminate; exact E2|].
  assert (Lk : forall c, In c (loop_chans 32 nci t) -> c < nci) by (intros x Hx; apply my_chans in Hx; tauto). assert (Lv : forall c, In c (loop_chans 32 nco t) -> c < nco) by (intros x Hx; apply my_chans in Hx; tauto).
  unfold sh_dk, sh_dv in *. split; [|split].
  - intros x Hx. rewrite B3 by exact Hx. rewrite A2 by discriminate. rewrite E3. rewrite A4; [reflexivity|]. intros c' Hc'. specialize (Lk x Hx). specialize (Lv c' Hc'). lia.
  - intros x Hx. rewrite B4; [rewrite A3 by exact Hx; rewrite E1; reflexivity|]. intros c' Hc'. specialize (Lv x Hx). specialize (Lk c' Hc'). lia.
  - intros a Ha. rewrite B4, A4; [reflexivity| |]; intros; lia.
Qed.
Lemma cell_pidx : forall n H W bh h w x, 1 <= W -> cell_at (nh * n) n H W (bat bh) (hd bh) (cell_in W h w) + x = pidx nh (H * W) n bh (h * W + w) x.
Proof using Hnh. intros. now rewrite cell_at_pidx. Qed.
Lemma dkv_last_run : forall bh hi wi t (m : (nat -> R) * (nat -> R)), bh < BH -> hi < Hi -> wi < Wi -> t < 32 ->
  snd (lrun inp (dkv_last (bat bh) (hd bh) hi wi t) m) = map (fun x => (dkv_addr 0 bh (hi * Wi + wi) x, USet, snd m (sK + x))) (loop_chans 32 nci t) ++ map (fun x => (dkv_addr 1 bh (hi * Wi + wi) x, USet, snd m (sV + x))) (loop_chans 32 nco t).
Proof.
  intros bh hi wi t [rg sh] Hb Hh Hw Ht. assert (Lc := cell_lt Hi Wi hi wi Hh Hw). unfold dkv_last. rewrite lrun_app. cbn [fst snd].
  destruct (loop_write inp (0, ksize) (kb (bat bh) (hd bh) hi wi) sK nci (loop_chans 32 nci t) rg sh) as (A1 & A2 & A3).
  { intros x Hx; apply my_chans in Hx; tauto. } { intros x Hx. rewrite cell_pidx by exact HWi. cbn [snd]. replace (B * Hi * Wi) with (B * (Hi * Wi)) by ring. now apply pidx_lt. }
  set (m1 := lrun inp _ (rg, sh)) in *. rewrite (surjective_pairing (fst m1)).
  destruct (loop_write inp (ksize, vsize) (vb (bat bh) (hd bh) hi wi) sV nco (loop_chans 32 nco t) (fst (fst m1)) (snd (fst m1))) as (B1 & B2 & B3).
  { intros x Hx; apply my_chans in Hx; tauto. } { intros x Hx. rewrite cell_pidx by exact HWi. cbn [snd]. replace (B * Hi * Wi) with (B * (Hi * Wi)) by ring. now apply pidx_lt. }
  rewrite A1, B1, A2. f_equal; apply map_ext; intros x; unfold dkv_addr; cbn [Nat.eqb fst]; rewrite cell_pidx by exact HWi; reflexivity.
Qed.
Lemma fine_update : forall holds g t ra base p b n F, t < 32 -> reads inp N p b n F -> base + n <= k_shared k -> (forall c, c < n -> own (base + c) = c mod 32) ->
  Forall (fine k own priv (fun _ => None) holds false g t) (flat_map (fun c => [ILoad r_t (base + c); get p r_u (b + c); IStore (base + c) (fun r => r r_t + r ra * r r_u)%R]) (loop_chans 32 n t)).
Proof. intros holds g t ra base p b n F Ht HR Hs Ho'. fi. intros c Hc. apply my_chans in Hc; [|assumption]. fi; [apply fine_load; [lia|left; rewrite Ho'; tauto]|eapply fine_get; [eassumption|tauto]|apply fine_store; [lia|split; [rewrite Ho'; tauto|reflexivity]]]. Qed.
Lemma fine_copy0 : forall holds g t s1 s2 p b n F, t < 32 -> reads inp N p b n F -> s1 + n <= k_shared k -> s2 + n <= k_shared k -> (forall c, c < n -> own (s1 + c) = c mod 32) -> (forall c, c < n -> own (s2 + c) = c mod 32) ->
  Forall (fine k own priv (fun _ => None) holds false g t) (flat_map (fun c => [get p r_t (b + c); IStore (s1 + c) (fun r => r r_t); IStore (s2 + c) (fun _ => 0%R)]) (loop_chans 32 n t)).
Proof. intros holds g t s1 s2 p b n F Ht HR H1 H2 O1 O2. fi. intros c Hc. apply my_chans in Hc; [|assumption]. fi; [eapply fine_get; [eassumption|tauto]|apply fine_store; [lia|split; [rewrite O1; tauto|reflexivity]]|apply fine_store; [lia|split; [rewrite O2; tauto|reflexivity]]]. Qed.
Theorem dkv_settles : forall rg sh out, settles k (start k rg sh out) (fun o => forall b c x, b < BH -> c < Hi * Wi ->
  (x < nci -> o (pidx nh (Hi * Wi) nci b c x) = dk_part b (c / Wi) (c - c / Wi * Wi) (nth (c / Wi) P []) x) /\ (x < nco -> o (ksize + pidx nh (Hi * Wi) nco b c x) = dv_part b (c / Wi) (c - c / Wi * Wi) (nth (c / Wi) P []) x)).
Proof.
  intros rg sh out.
  assert (O1 : forall c, c < nci -> own (0 + c) = c mod 32) by (intros; now apply (own_segs_at [] nci [nco; nci; nco])).
  assert (O2 : forall c, c < nco -> own (nci + c) = c mod 32) by (intros c Hc; rewrite <- (own_segs_at [nci] nco [nci; nco] c Hc); f_equal; cbn; lia).
  assert (O3 : forall c, c < nci -> own (sK + c) = c mod 32) by (intros c Hc; rewrite <- (own_segs_at [nci; nco] nci [nco] c Hc); f_equal; unfold sh_dk; cbn; lia).
  assert (O4 : forall c, c < nco -> own (sV + c) = c mod 32) by (intros c Hc; rewrite <- (own_segs_at [nci; nco; nci] nco [] c Hc); f_equal; unfold sh_dv; cbn; lia).
  apply (settles_impl k (start k rg sh out) (fun o => o = upds (flat_map (at_key (up_key (Hi * Wi)) (fun bh cl => dkv_T bh (cl / Wi * Wi + (cl - cl / Wi * Wi)))) (seq 0 (k_groups k))) out)); cycle 1.
  - intros o -> b c x Hb Hc. replace (fun bh cl => dkv_T bh (cl / Wi * Wi + (cl - cl / Wi * Wi))) with dkv_T.
    2:{ apply functional_extensionality. intros bh. apply functional_extensionality. intros cl. f_equal. assert (Q := Nat.mul_div_le cl Wi ltac:(lia)). lia. }
    rewrite Eg.
    assert (W : forall i, i < 2 -> x < dkv_n i -> upds (flat_map (at_key (up_key (Hi * Wi)) dkv_T) (seq 0 (BH * up_gw (Hi * Wi)))) out (dkv_addr i b c x) = dkv_vl i b c x).
    { intros i Hi' Hx. apply (written (BH * up_gw (Hi * Wi)) BH (Hi * Wi) 32 2 (up_key (Hi * Wi)) dkv_n (fun c => c mod 32) (fun i => loop_chans 32 (dkv_n i)) dkv_addr dkv_vl); auto.
      + apply up_keyed.
      + intros. apply warp_covers.
      + intros. apply Nat.mod_upper_bound. lia.
      + exact dkv_inj.
      + intros b' c' u Hb' Hc' Hu. left. apply in_flat_map in Hu. destruct Hu as (t & Ht & Hu). apply in_seq in Ht. exists t. split; [lia|]. apply in_flat_map in Hu. destruct Hu as (j & Hj & Hu). apply in_seq in Hj. apply in_map_iff in Hu. destruct Hu as (x' & <- & Hx'). exists j, x'. split; [lia|]. split; [exact Hx'|]. reflexivity. }
    split; intros Hx; [exact (W 0 ltac:(lia) Hx)|exact (W 1 ltac:(lia) Hx)].
  - apply (up_settles B nh Hi Wi Ho Wo P HWi HWo Hdiv HP k own (fun _ => None) dkv_holds (dkv_body nh nci nco Hi Wi Ho Wo pk pv pq pdy pw pm ps pa ksize vsize) dkv_f (fun bh hi wi _ => dkv_T bh (hi * Wi + wi))); auto.
    + intros a Ha. rewrite own_segs_out; [lia|]. cbn. lia.
    + intros bh b h hi wi row. unfold dkv_f, dkv_body. rewrite !expand_app. f_equal. f_equal. rewrite expand_flat. reflexivity.
    + intros g bh hi wi Hg Ek Hb Hh Hw. assert (Lc := cell_lt Hi Wi hi wi Hh Hw). unfold dkv_f. cbn [app fgood]. split.
      * intros t Ht. unfold dkv_init. apply Forall_app. split; [eapply fine_copy0; [exact Ht|apply HK; assumption|unfold sh_dk; lia|unfold sh_dk; lia|exact O1|exact O3]|]. apply Forall_app. split; [eapply fine_copy0; [exact Ht|apply HV; assumption|unfold sh_dv; lia|unfold sh_dv; lia|exact O2|exact O4]|]. fi. eapply fine_get0; [exact HW|exact Hh].
      * apply fgood_app.
        -- intros y Hy. apply in_flat_map in Hy. destruct Hy as (c & _ & Hy). destruct Hy as [<-|[<-|[<-|[<-|[]]]]]; discriminate.
        -- apply fgood_flat. intros c Hc. split; [intros y [<-|[<-|[<-|[<-|[]]]]]; discriminate|]. assert (L := bc_lt B nh Hi Wi Ho Wo P HWi HWo Hdiv HP bh hi wi c Hb Hh Hw Hc). cbn [dkv_fe two_dots app fgood]. split; [|split; [|exact I]].
           ++ intros t Ht. apply Forall_app. split; eapply fine_up_dot; [lia|eapply at_out; eassumption|lia|exact O1|lia|eapply at_out; eassumption|lia|exact O2].
           ++ intros t Ht. unfold dkv_tail. apply Forall_app. split; [fi; eapply fine_get0; try exact L; [exact HS|exact HM|exact HA]|]. apply Forall_app. split; eapply fine_update; try exact Ht; try (eapply at_out; eassumption); try (unfold sh_dk, sh_dv; lia); assumption.
        -- cbn [fgood]. split; [|exact I]. intros t Ht. unfold dkv_last.
           assert (Ok : forall i x, i < 2 -> x < dkv_n i -> x mod 32 = t -> dkv_holds (dkv_addr i bh (hi * Wi + wi) x) (g, t)).
           { intros i x Hi' Hx Hm. apply (wholds_at (BH * up_gw (Hi * Wi)) 2 (up_key (Hi * Wi)) dkv_n (fun c => c mod 32) dkv_addr g t bh (hi * Wi + wi) i x); auto. now rewrite <- Eg. }
           fi; intros x Hx; apply my_chans in Hx; try exact Ht; fi.
           ++ apply fine_load; [unfold sh_dk; lia|]. left. rewrite O3; tauto.
           ++ assert (L := pidx_lt B nh (Hi * Wi) nci bh (hi * Wi + wi) x Hb Lc ltac:(tauto)). apply fine_out; cbn [fst snd plus]; rewrite ?cell_pidx by exact HWi; try lia; [reflexivity|]. exact (Ok 0 x ltac:(lia) (proj1 Hx) (proj2 Hx)).
           ++ apply fine_load; [unfold sh_dv; lia|]. left. rewrite O4; tauto.
           ++ assert (L := pidx_lt B nh (Hi * Wi) nco bh (hi * Wi + wi) x Hb Lc ltac:(tauto)). apply fine_out; cbn [fst snd]; rewrite ?cell_pidx by exact HWi; try lia; [reflexivity|]. exact (Ok 1 x ltac:(lia) (proj1 Hx) (proj2 Hx)).
    + intros bh hi wi st Hb Hh Hw. unfold dkv_f. cbn [app ftrace ftrace1]. assert (I0 := fun t Ht => dkv_init_run bh hi wi t (st t) Hb Hh Hw Ht).
      rewrite (quiet inp 32); [|intros t Ht; apply (I0 t Ht)]. cbn [app fstate]. set (st0 := after inp 32 (dkv_init (bat bh) (hd bh) hi wi) st).
      destruct (floop inp 32 own priv _ (dkv_fe bh (bat bh) (hd bh) wi) (fun _ => []) (dkv_inv bh hi wi) (nth hi P []) st0) as [F1 F2].
      * split; [split; [|split]|split].
        -- apply keeps_of. intros t Ht c Hc. unfold st0. rewrite after_in by exact Ht. now apply (I0 t Ht).
        -- apply keeps_of. intros t Ht c Hc. unfold st0. rewrite after_in by exact Ht. now apply (I0 t Ht).
        -- intros t Ht. unfold st0. rewrite after_in by exact Ht. now apply (I0 t Ht).
        -- apply keeps_of. intros t Ht c Hc. unfold st0. rewrite after_in by exact Ht. now apply (I0 t Ht).
        -- apply keeps_of. intros t Ht c Hc. unfold st0. rewrite after_in by exact Ht. now apply (I0 t Ht).
      * intros d c r st' Er ((K1 & K2 & K3) & K4 & K5). assert (Hc : In c (nth hi P [])) by (rewrite Er; apply in_elt). unfold dkv_fe.
        destruct (two_dots_run inp N own priv r_dot 0 pq _ nci _ _ r_gd nci pdy _ nco _ _ st' ltac:(discriminate) ltac:(discriminate) ltac:(discriminate) ltac:(discriminate) ltac:(discriminate) K1 K2
          (at_out B nh Hi Wi Ho Wo P HWi HWo Hdiv HP _ _ _ _ _ bh hi wi c HQ Hb Hh Hw Hc) (at_out B nh Hi Wi Ho Wo P HWi HWo Hdiv HP _ _ _ _ _ bh hi wi c HD Hb Hh Hw Hc)) as (D1 & D2).
        rewrite fend_app, ftrace_app, D1. set (st1 := fend inp 32 _ priv (two_dots _ _ _ _ _ _ _ _ _ _) st') in *.
        assert (L := fun t (Ht : t < 32) => dkv_tail_run bh hi wi c t (st1 t) Hb Hh Hw Hc Ht (proj1 (proj2 (D2 t Ht))) (proj1 (proj2 (proj2 (D2 t Ht)))) ltac:(rewrite (proj2 (proj2 (proj2 (D2 t Ht)))) by discriminate; now apply K3)). cbv zeta in L.
        cbn [fend fold_left fstate ftrace ftrace1 app]. rewrite app_nil_r. split; [split; [split; [|split]|split]|].
        -- intros t x Ht Hx Hm. rewrite after_in by exact Ht. destruct (L t Ht) as (_ & _ & _ & _ & L5). rewrite L5 by lia. rewrite (proj1 (D2 t Ht)). now apply K1.
        -- intros t x Ht Hx Hm. rewrite after_in by exact Ht. destruct (L t Ht) as (_ & _ & _ & _ & L5). rewrite L5 by lia. rewrite (proj1 (D2 t Ht)). now apply K2.
        -- intros t Ht. rewrite after_in by exact Ht. now apply (L t Ht).
        -- intros t x Ht Hx Hm. rewrite after_in by exact Ht. destruct (L t Ht) as (_ & _ & L3 & _). rewrite L3 by (now apply my_chans). rewrite (proj1 (D2 t Ht)). rewrite (K4 t x Ht Hx Hm). unfold dk_part. rewrite (lsum_app RT). cbn [lsum_ fold_right]. ring.
        -- intros t x Ht Hx Hm. rewrite after_in by exact Ht. destruct (L t Ht) as (_ & _ & _ & L3 & _). rewrite L3 by (now apply my_chans). rewrite (proj1 (D2 t Ht)). rewrite (K5 t x Ht Hx Hm). unfold dv_part. rewrite (lsum_app RT). cbn [lsum_ fold_right]. ring.
        -- apply (quiet inp 32). intros t Ht. now apply (L t Ht).
      * rewrite ftrace_app, F2. rewrite flat_map_nil. cbn [app ftrace ftrace1]. rewrite app_nil_r. destruct F1 as (_ & F3 & F4). unfold dkv_T, wtrace. apply flat_map_in_ext. intros t Ht. apply in_seq in Ht. assert (Ht' : t < 32) by lia.
        rewrite dkv_last_run by auto. cbn [flat_map seq]. rewrite app_nil_r. destruct (cell_split Wi hi wi Hw) as [S1 S2].
        f_equal; apply map_ext_in; intros x Hx; apply my_chans in Hx; try exact Ht'; unfold dkv_vl; rewrite S2, S1; cbn [Nat.eqb]; [rewrite (F3 t x Ht')|rewrite (F4 t x Ht')]; tauto.
    + intros a gt gt'. apply (wholds_one (BH * up_gw (Hi * Wi)) BH (Hi * Wi) 2 (up_key (Hi * Wi)) dkv_n (fun c => c mod 32) dkv_addr); [apply up_keyed|exact dkv_inj].
Qed.
End Dkv.
