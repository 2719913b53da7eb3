(** The backward ring kernels, pass 1: the launches for the long rows. *)
From Coq Require Import List Arith Lia Bool ZArith Reals Lra Permutation FunctionalExtensionality.
From Verif Require Import TensorModel TensorProofs BigSum DiscoModel DiscoSortProofs DistAttnModel DistAttnBwdModel DistAttnProofs AttnModel AttnCoreProofs GpuModel GpuSpec GpuProofs GpuProofs2 GpuRwModel GpuRwSpec GpuRwSyncProofs WarpProofs CudaDiscoModel CudaWarpModel WarpSumProofs CudaFwdProofs CudaAttnModel CudaAttnProofs CudaAttnLaneProofs CudaAttnFwdProofs CudaAttnFwdProofs2 WarpKernelProofs CudaAttnUpProofs3 CudaKeyProofs CudaLoopProofs CudaAttnUpModel CudaAttnBwdModel CudaAttnUpProofs2 CudaAttnUpProofs4 CudaRescaleModel CudaRescaleSpec CudaRescaleProofs4 CudaRescaleProofs5 GroupKernelProofs CudaRingUpSpec CudaRingSpec CudaRingModel CudaRingProofs CudaRingProofs2 CudaRingProofs4 CudaRingProofs5 CudaRingProofs6 CudaRingProofs7 CudaRingBwdModel CudaRingBwdSpec CudaRingBwdProofs CudaRingBwdProofs2 CudaRingBwdProofs6 CudaRingBwdProofs7 CudaRingBwdProofs8.
From Verif Require DistAttnBwdProofs.
From Verif Require Import AttnSpec.
Import ListNotations.
Local Open Scope nat_scope.

(** ** The state after a list of entries, slot by slot *)
Section Closed.
Variables (Ck Cv : nat) (quad : nat -> R) (kf vf qf df : fld) (ninf : R) (b ho wo : nat).
Notation run := (fold_left (eb Ck Cv quad kf vf qf df b ho wo)).
Definition sce (e : entry) : R := dot Ck (qf b ho wo) (kf b (fst (snd e)) (snd (snd e))).
Definition gve (e : entry) : R := dot Cv (df b ho wo) (vf b (fst (snd e)) (snd (snd e))).
Definition ade (e : entry) (s : nat * nat) : R := ewt Ck (gve e) (kf b (fst (snd e)) (snd (snd e))) s.
Definition slot (s : nat * nat) : Prop := fst s < 5 /\ fst s <> 1 /\ (3 <= fst s -> snd s < Ck).
Lemma eb_val : forall st e s, slot s -> let m := match b_max st with None => sce e | Some m => Rmax m (sce e) end in
  bval ninf (eb Ck Cv quad kf vf qf df b ho wo st e) s = (bval ninf st s * exp_diff (b_max st) m + exp (sce e - m) * quad (fst e) * ade e s)%R.
Proof.
  intros st e [i x] (S1 & S2 & S3). cbn [fst snd] in *. cbv zeta. unfold ade. rewrite ewt_val by (cbn [fst snd]; auto). unfold eb, bring_entry, bval. cbn [fst snd b_sum b_max b_int b_k b_kvw]. fold (sce e) (gve e). destruct i as [|[|[|[|[|]]]]]; try lia; ring.
Qed.
Lemma eb_max : forall st e, b_max (eb Ck Cv quad kf vf qf df b ho wo st e) = Some (match b_max st with None => sce e | Some m => Rmax m (sce e) end).
Proof. reflexivity. Qed.
Definition rsc (st : bst) (m : R) (s : nat * nat) : R := (bval ninf st s * exp_diff (b_max st) m)%R.
Lemma brun_max : forall d st, (forall e, In e d -> (ninf < sce e)%R) -> as_num ninf (b_max (run d st)) = fold_left Rmax (map sce d) (as_num ninf (b_max st)).
Proof.
  induction d as [|e d IH] using rev_ind; intros st Hs; [reflexivity|]. rewrite map_app, !fold_left_app. cbn [fold_left map]. rewrite <- IH by (intros; apply Hs; apply in_app_iff; auto). rewrite eb_max. cbn [as_num]. destruct (b_max (run d st)); cbn [as_num]; [reflexivity|]. assert (Q : (ninf < sce e)%R) by (apply Hs, in_elt). rewrite Rmax_right by lra. reflexivity.
Qed.
Lemma brun_none : forall d st, b_max (run d st) = None -> d = [] /\ b_max st = None.
Proof. induction d as [|e d IH] using rev_ind; intros st E; [auto|]. rewrite fold_left_app in E. cbn [fold_left] in E. rewrite eb_max in E. discriminate. Qed.
Lemma brun_closed : forall d st m s, slot s -> b_max (run d st) = Some m -> bval ninf (run d st) s = (rsc st m s + rlsum (fun e => exp (sce e - m) * quad (fst e) * ade e s) d)%R.
Proof.
  induction d as [|e d IH] using rev_ind; intros st m s Hs E.
  - cbn [fold_left lsum_ fold_right] in *. unfold rsc. rewrite E. cbn [exp_diff]. rewrite Rminus_diag_eq, exp_0 by reflexivity. ring.
  - rewrite fold_left_app in *. cbn [fold_left] in *. rewrite eb_val by exact Hs. cbv zeta. rewrite eb_max in E. injection E as E. rewrite E. rewrite (lsum_app RT). cbn [lsum_ fold_right]. destruct (b_max (run d st)) as [m0|] eqn:E0.
    + rewrite (IH st m0 s Hs E0). cbn [exp_diff]. assert (Ex : forall e', (exp (sce e' - m) = exp (sce e' - m0) * exp (m0 - m))%R) by (intros e'; rewrite <- exp_plus; f_equal; ring).
      rewrite (lsum_ext _ (fun e' => exp (sce e' - m) * quad (fst e') * ade e' s)%R (fun e' => exp (sce e' - m0) * quad (fst e') * ade e' s * exp (m0 - m))%R) by (intros; rewrite Ex; ring). rewrite (lsum_scal_r RT).
      assert (Er : rsc st m s = (rsc st m0 s * exp (m0 - m))%R). { unfold rsc. destruct (b_max st) as [y|]; cbn [exp_diff]; [|ring]. replace (y - m)%R with ((y - m0) + (m0 - m))%R by ring. rewrite exp_plus. ring. }
      rewrite Er. ring.
    + destruct (brun_none d st E0) as [-> E1]. cbn [fold_left exp_diff lsum_ fold_right]. unfold rsc. rewrite E1. cbn [exp_diff]. ring.
Qed.
End Closed.
(** rescaling, slot by slot *)
Lemma rescaled_slots : forall V nci B Ho Wo ninf cov cur out o u s, rescaled (B * Ho * Wo) (V * nci) 2 2 ninf cov (fun _ => True) cur out o -> cov u -> fst s < 5 -> fst s <> 1 -> snd s < bnch V nci (fst s) ->
  times_exp ninf (out u) (cur u) (out (baddr V nci B Ho Wo u s)) (o (baddr V nci B Ho Wo u s)).
Proof.
  intros V nci B Ho Wo ninf cov cur out o u [i x] [_ R2 R3 _ _] Hc Hi Ne Hx. unfold the_max, CudaRescaleSpec.the_sum, the_acc, baddr, boff, bnch in *. cbn [fst snd] in *.
  destruct i as [|[|[|[|[|]]]]]; try lia; cbn [Nat.ltb Nat.leb barr b_ssum b_smax b_sint b_sk b_skvw fst snd] in *.
  - specialize (R2 u 0 Hc ltac:(lia)). replace (B * Ho * Wo + 0 * (B * Ho * Wo) + u) with (B * Ho * Wo + u) in R2 by ring. exact R2.
  - specialize (R2 u 1 Hc ltac:(lia)). replace (B * Ho * Wo + 1 * (B * Ho * Wo) + u) with (2 * (B * Ho * Wo) + u) in R2 by ring. exact R2.
  - specialize (R3 u 0 x Hc ltac:(lia) Hx I). replace (B * Ho * Wo + 2 * (B * Ho * Wo) + (0 * (B * Ho * Wo) + u) * (V * nci) + x) with (3 * (B * Ho * Wo) + (u * (V * nci) + x)) in R3 by ring. exact R3.
  - specialize (R3 u 1 x Hc ltac:(lia) Hx I). replace (B * Ho * Wo + 2 * (B * Ho * Wo) + (1 * (B * Ho * Wo) + u) * (V * nci) + x) with (3 * (B * Ho * Wo) + B * Ho * Wo * (V * nci) + (u * (V * nci) + x)) in R3 by ring. exact R3.
Qed.
Lemma rescaled_rest : forall V nci B Ho Wo ninf cov ok cur out o u s, rescaled (B * Ho * Wo) (V * nci) 2 2 ninf cov ok cur out o -> ~ cov u -> u < B * Ho * Wo -> fst s < 5 -> snd s < bnch V nci (fst s) ->
  o (baddr V nci B Ho Wo u s) = out (baddr V nci B Ho Wo u s).
Proof.
  intros V nci B Ho Wo ninf cov ok cur out o u [i x] [_ _ _ _ R] Nc Hu Hi Hx. destruct (R u Hu Nc) as (R1 & R2 & R3). clear R. unfold the_max, CudaRescaleSpec.the_sum, the_acc, baddr, boff, bnch in *. cbn [fst snd] in *.
  destruct i as [|[|[|[|[|]]]]]; try lia; cbn [Nat.ltb Nat.leb barr b_ssum b_smax b_sint b_sk b_skvw fst snd] in *.
  - specialize (R2 0 ltac:(lia)). replace (B * Ho * Wo + 0 * (B * Ho * Wo) + u) with (B * Ho * Wo + u) in R2 by ring. exact R2.
  - exact R1.
  - specialize (R2 1 ltac:(lia)). replace (B * Ho * Wo + 1 * (B * Ho * Wo) + u) with (2 * (B * Ho * Wo) + u) in R2 by ring. exact R2.
  - specialize (R3 0 x ltac:(lia) Hx). replace (B * Ho * Wo + 2 * (B * Ho * Wo) + (0 * (B * Ho * Wo) + u) * (V * nci) + x) with (3 * (B * Ho * Wo) + (u * (V * nci) + x)) in R3 by ring. exact R3.
  - specialize (R3 1 x ltac:(lia) Hx). replace (B * Ho * Wo + 2 * (B * Ho * Wo) + (1 * (B * Ho * Wo) + u) * (V * nci) + x) with (3 * (B * Ho * Wo) + B * Ho * Wo * (V * nci) + (u * (V * nci) + x)) in R3 by ring. exact R3.
Qed.

Section Ctx.
Variables (NW BY V nloc nci nco H W Wi ps lon_lo : nat) (lat0 : Z) (B Ho Wo : nat) (as_in : bool) (ninf : R) (P : pattern) (nq : nat) (kA vA qA dA quad : nat -> R) (kf vf qf df : fld).
Notation BD := (32 * NW). Notation Ck := (V * nci). Notation Cv := (V * nco). Notation cells := (B * Ho * Wo).
Hypotheses (HNW : 1 <= NW <= 32) (HV : 1 <= V) (Hnl : 1 <= nloc) (Hci : (nloc - 1) * BD <= nci <= nloc * BD) (Hco : as_in = true -> (nloc - 1) * BD <= nco <= nloc * BD).
Hypotheses (HBY : 1 <= BY) (HWi : 1 <= Wi) (HP : pattern_ok P Ho (nq * Wi)).
Hypotheses (Lk : lays B H W Ck kA kf) (Lv : lays B H W Cv vA vf) (Lq : lays B Ho Wo Ck qA qf) (Ld : lays B Ho Wo Cv dA df).
Hypothesis (HS : scores_above ninf B H W Ho Wo Ck kf qf).
Variables (mid per nl : nat) (rows : list nat).
Hypotheses (Hper : 1 <= per) (Hlen : nl <= length rows) (ND : NoDup rows) (Hrows : forall r, In r rows -> r < Ho).
Hypothesis (Hmid : forall h s wo, h < nl -> s < per -> length (found BD H W Wi ps lon_lo lat0 wo (share per s (nth (nth h rows 0) P []))) <= mid).
Lemma brows_at : forall h, h < nl -> nth h rows 0 < Ho.
Proof. intros h Hh. apply Hrows, nth_In. lia. Qed.
Notation key := (rkey BY Wo nl). Notation ho_of := (gho Wo rows). Notation wo_of := (gwo Wo). Notation cell b c := (cell_of Ho Wo (b / per) (ho_of c) (wo_of c)).
Notation act_of := (gact NW H W Wi ps lon_lo lat0 Wo P per rows).
Notation G := (B * per * long_width BY nl Wo).
Notation bnch := (bnch V nci). Notation baddr := (baddr V nci B Ho Wo). Notation farr := (farr V nci B Ho Wo). Notation boff := (boff V nci). Notation fslots := (fslots NW V nloc nci).
Notation KY := (bkeyed NW BY V nloc nci nco Wi B Wo as_in HNW HV Hnl Hci Hco HBY HWi per nl rows Hper Hlen).
Notation ents := (ents H W Wi ps lon_lo lat0 P).
Notation active := (CudaRingModel.active H W Wi ps lon_lo lat0).
Notation faddr u s := (fst (farr (fst s)) + boff u s).
Notation visits b h w := (fold_left (bring_visit Ck Cv quad H W lon_lo lat0 kf vf qf df Wi ps b h w) (nth h P [])).
Notation run b h w := (fold_left (eb Ck Cv quad kf vf qf df b h w) (ents w h)).
Lemma bvisits_run : forall b h w st, visits b h w st = run b h w st.
Proof. intros. now apply bvisits_active. Qed.
Lemma bcell9 : forall c, c < nl * Wo -> c / Wo < nl /\ wo_of c < Wo /\ ho_of c < Ho /\ c = c / Wo * Wo + wo_of c.
Proof. exact (bcell NW BY V nloc nci nco Wi Ho Wo as_in HNW HV Hnl Hci Hco HBY HWi per nl rows Hper Hlen brows_at). Qed.
Lemma bcell9_lt : forall b c, b < B * per -> c < nl * Wo -> cell b c < cells.
Proof. intros b c Hb Hc. destruct (bcell9 c Hc) as (_ & D2 & D3 & _). apply cell_of_lt; auto. apply Nat.div_lt_upper_bound; [lia|]. now rewrite Nat.mul_comm. Qed.
Lemma faddr_inj : forall u s u' s', u < cells -> fst s < 5 -> fst s <> 1 -> snd s < bnch (fst s) -> u' < cells -> fst s' < 5 -> fst s' <> 1 -> snd s' < bnch (fst s') -> faddr u s = faddr u' s' -> u = u' /\ s = s'.
Proof.
  intros u s u' s' Hu Hi Ne Hx Hu' Hi' Ne' Hx' E. apply (baddr_inj V nci B Ho Wo); auto. rewrite <- (proj2 (foff_lt V nci B Ho Wo u s Hu Hi Ne Hx)), <- (proj2 (foff_lt V nci B Ho Wo u' s' Hu' Hi' Ne' Hx')). now rewrite E.
Qed.
(** ** The sums *)
Section Final.
Variables (cur out : nat -> R).
Notation arr := [(B * H * W * Ck, kA); (B * H * W * Cv, vA); (cells * Ck, qA); (cells * Cv, dA); (nq, quad); (cells, cur)].
Notation k3 := (p1_final_kernel BD BY V nloc nci nco H W Wi ps lon_lo lat0 B Ho Wo as_in (offsets 0 P) (columns P) nq kA vA qA dA quad mid per nl rows cur).
Lemma fcell_facts : forall b c, b < B * per -> c < nl * Wo ->
  cell_hyps NW V nci nco H W B Ho Wo nq quad kf vf qf df (b / per) (ho_of c) (wo_of c) (act_of b c) (part arr 0) (part arr 1) (part arr 2) (part arr 3) (part arr 4) k3 mid /\ reads (k_in k3) (k_insize k3) (part arr 5) 0 cells cur.
Proof.
  intros b c Hb Hc. assert (Ein : forall a, a < list_sum (map fst arr) -> k_in k3 a = joined arr a) by reflexivity.
  assert (Esz : list_sum (map fst arr) <= k_insize k3) by apply le_n.
  assert (Fx := bfacts NW BY V nloc nci nco H W Wi ps lon_lo lat0 B Ho Wo as_in P nq kA vA qA dA kf vf qf df HNW HV Hnl Hci Hco HBY HWi HP Lk Lv Lq Ld mid per nl rows Hper Hlen brows_at Hmid k3 arr Ein Esz eq_refl eq_refl eq_refl eq_refl ltac:(cbn; lia) b c Hb Hc).
  assert (R0 := breads0 k3 arr Ein Esz 4 nq quad ltac:(cbn; lia) eq_refl). assert (R1 := breads0 k3 arr Ein Esz 5 cells cur ltac:(cbn; lia) eq_refl). destruct Fx as (F1 & F2 & F3 & F4 & F5 & F6 & F7 & F8). split; [|exact R1].
  repeat (split; [assumption|]). unfold p1_final_kernel. cbn [k_shared]. apply Nat.le_add_r.
Qed.
Definition fT (b c : nat) : list upd := flat_map (f_FT NW V nloc nci nco B Ho Wo quad kf vf qf df (b / per) (ho_of c) (wo_of c) (act_of b c) cur) (seq 0 BD).
Lemma fin_settles0 : forall rg sh, settles k3 (start k3 rg sh out) (fun o => o = upds (flat_map (at_key key fT) (seq 0 G)) out).
Proof.
  intros rg sh. refine (brow_settles NW BY V nloc nci nco H W Wi ps lon_lo lat0 B Ho Wo as_in P nq HNW HV Hnl Hci Hco HBY HWi HP mid per nl rows Hper Hlen brows_at Hmid k3 false (fun _ => Some AAdd) (fun _ _ => False) _ (fun b ho wo act => fprog1 NW V nloc nci nco H W B Ho Wo as_in b ho wo act (part arr 0) (part arr 1) (part arr 2) (part arr 3) (part arr 4) (part arr 5)) fT rg sh out eq_refl eq_refl _ (fun g t _ => eq_refl) (fun b ho wo act => f_expand NW V nloc nci nco H W B Ho Wo as_in b ho wo act _ _ _ _ _ mid _) _ _ (fun a gt gt' _ Q => match Q with end)).
  - intros HN. unfold p1_final_kernel. cbn [k_shared]. destruct (Nat.eqb_spec BD 32); [lia|]. rewrite (Nat.mul_comm 32 NW), Nat.div_mul by lia. lia.
  - intros g b c Hg Ek Hb Hc. destruct (fcell_facts b c Hb Hc) as (F1 & F2). eapply (f_good NW V nloc nci nco H W B Ho Wo as_in nq quad kf vf qf df HNW HV Hnl Hci Hco); eauto.
  - intros b c st Hb Hc. destruct (fcell_facts b c Hb Hc) as (F1 & F2). unfold fT. eapply (f_trace NW V nloc nci nco H W B Ho Wo as_in nq quad kf vf qf df HNW HV Hnl Hci Hco); eauto.
Qed.
Definition alB (b h w : nat) (s : nat * nat) (e : entry) : R := (exp (sce Ck kf qf b h w e - cur ((b * Ho + h) * Wo + w)%nat) * quad (fst e) * ade Ck Cv kf vf df b h w e s)%R.
Lemma fT_in : forall b c u, In u (fT b c) -> exists s, fst s < 5 /\ fst s <> 1 /\ snd s < bnch (fst s) /\ fst u = (faddr (cell b c) s, UAtom AAdd).
Proof.
  intros b c u Hu. unfold fT in Hu. apply in_flat_map in Hu. destruct Hu as (t & Ht & Hu). apply in_seq in Ht. unfold f_FT in Hu. apply in_map_iff in Hu. destruct Hu as (s & <- & Hs). apply (fslots_in NW V nloc nci t s ltac:(lia)) in Hs. destruct Hs as [Ne Hs]. apply (slots_in NW V nloc nci HNW HV Hnl Hci t s ltac:(lia)) in Hs. exists s. cbn [fst]. tauto.
Qed.
Lemma fslots_total : forall (g : nat * nat -> R) s, fst s < 5 -> fst s <> 1 -> snd s < bnch (fst s) -> rlsum (fun t => rlsum (fun s' => if (fst s' =? fst s)%nat && (snd s' =? snd s)%nat then g s' else 0)%R (fslots t)) (seq 0 BD) = g s.
Proof.
  intros g [i x] Hi Ne Hx. cbn [fst snd] in *. set (D := fun s' : nat * nat => if (fst s' =? i)%nat && (snd s' =? x)%nat then g s' else 0%R).
  transitivity (rlsum (fun t => (if (t =? 0)%nat then D (0, 0)%nat + D (2, 0)%nat else 0) + rlsum (fun c => D (3, c)%nat + D (4, c)%nat) (bin_chans BD V nloc nci t))%R (seq 0 BD)).
  - apply lsum_ext. intros t _. unfold CudaRingBwdProofs6.fslots. rewrite (lsum_app RT), (lsum_flat_map RT). f_equal; [destruct (t =? 0); cbn [lsum_ fold_right]; unfold D; ring|]. apply lsum_ext. intros c _. cbn [lsum_ fold_right]. unfold D. ring.
  - rewrite (lsum_plus RT). rewrite (lanes_sum BD Ck (chan_own BD V) (bin_chans BD V nloc nci) _ (bin_covers NW V nloc nci HV Hnl Hci)) by (intros; unfold chan_own; apply Nat.mod_upper_bound; lia).
    rewrite (lsum_seq RT). rewrite (rsum_one BD 0 (fun _ => D (0, 0)%nat + D (2, 0)%nat)%R) by lia. unfold D. cbn [fst snd]. unfold CudaRingBwdProofs6.bnch in Hx. destruct i as [|[|[|[|[|]]]]]; try lia; cbn [Nat.eqb Nat.ltb Nat.leb andb] in *.
    + assert (x = 0) by lia. subst x. cbn [Nat.eqb]. rewrite rsum_0 by (intros; ring). ring.
    + assert (x = 0) by lia. subst x. cbn [Nat.eqb]. rewrite rsum_0 by (intros; ring). ring.
    + rewrite (bsum_ext Ck _ (fun c => if (c =? x)%nat then g (3, c)%nat else 0%R)) by (intros c _; destruct (c =? x); ring). rewrite (rsum_one Ck x (fun c => g (3, c)%nat)) by exact Hx. ring.
    + rewrite (bsum_ext Ck _ (fun c => if (c =? x)%nat then g (4, c)%nat else 0%R)) by (intros c _; destruct (c =? x); ring). rewrite (rsum_one Ck x (fun c => g (4, c)%nat)) by exact Hx. ring.
Qed.
Lemma fT_hits : forall b c u s, b < B * per -> c < nl * Wo -> u < cells -> fst s < 5 -> fst s <> 1 -> snd s < bnch (fst s) ->
  hits (faddr u s) (fT b c) = (if cell b c =? u then rlsum (alB (b / per) (ho_of c) (wo_of c) s) (flat_map (active (wo_of c)) (share per (b mod per) (nth (ho_of c) P []))) else 0)%R.
Proof.
  intros b c u s Hb Hc Hu Hi Ne Hx. assert (Lc := bcell9_lt b c Hb Hc). unfold fT. rewrite hits_flat. set (v := fval V nci nco Ho Wo quad kf vf qf df (b / per) (ho_of c) (wo_of c) cur (listed (act_of b c))).
  transitivity (rlsum (fun t => rlsum (fun s' => if (fst s' =? fst s)%nat && (snd s' =? snd s)%nat then (if (cell b c =? u)%nat then v s' else 0)%R else 0%R) (fslots t)) (seq 0 BD)).
  - apply lsum_ext. intros t Ht. apply in_seq in Ht. unfold f_FT. rewrite hits_map. fold v. apply lsum_ext. intros s' Hs. apply (fslots_in NW V nloc nci t s' ltac:(lia)) in Hs. destruct Hs as [Ne' Hs]. apply (slots_in NW V nloc nci HNW HV Hnl Hci t s' ltac:(lia)) in Hs. destruct Hs as (S1 & S2 & _).
    destruct (Nat.eqb_spec (faddr (cell b c) s') (faddr u s)) as [Q|Q].
    + apply faddr_inj in Q; auto. destruct Q as [-> ->]. now rewrite !Nat.eqb_refl.
    + destruct (Nat.eqb_spec (fst s') (fst s)) as [Q1|]; [|reflexivity]. destruct (Nat.eqb_spec (snd s') (snd s)) as [Q2|]; [|reflexivity]. cbn [andb]. destruct (Nat.eqb_spec (cell b c) u) as [Q3|]; [|reflexivity]. destruct Q. rewrite Q3. destruct s, s'. cbn [fst snd] in *. now subst.
  - rewrite (fslots_total (fun s' => if (cell b c =? u)%nat then v s' else 0%R) s Hi Ne Hx). destruct (cell b c =? u); [|reflexivity]. unfold v, fval. rewrite <- (act_ents NW), lsum_map. apply lsum_ext. intros y _. unfold fal, alB, ade. rewrite cell_of_eq. reflexivity.
Qed.
Lemma fin_sums : forall b h w s, b < B -> h < Ho -> w < Wo -> fst s < 5 -> fst s <> 1 -> snd s < bnch (fst s) -> let o := upds (flat_map (at_key key fT) (seq 0 G)) out in let a := (b * Ho + h) * Wo + w in
  (In h (firstn nl rows) -> o (faddr a s) = (out (faddr a s) + rlsum (alB b h w s) (ents w h))%R) /\ (~ In h (firstn nl rows) -> o (faddr a s) = out (faddr a s)).
Proof.
  intros b h w s Hb Hh Hw Hi Ne Hx o a. assert (La : a < cells) by (unfold a; rewrite <- cell_of_eq; now apply cell_of_lt). split.
  - intros Hr. unfold o. rewrite upds_add.
    + f_equal. change (hits (faddr a s) (flat_map (at_key key fT) (seq 0 G)) = rlsum (alB b h w s) (ents w h)). unfold hits. rewrite (keyed_sum _ G (B * per) (nl * Wo) key fT _ KY).
      apply (shares_total NW BY V nloc nci nci H W Wi ps lon_lo lat0 B Ho Wo true P HNW HV Hnl Hci (fun _ => Hci) HBY HWi per nl rows Hper Hlen ND brows_at (fun b' c' => hits (faddr a s) (fT b' c')) (alB b h w s) b h w Hb Hr Hh Hw).
      intros b' c' Hb' Hc'. rewrite fT_hits by auto. fold a. destruct (Nat.eqb_spec (cell b' c') a) as [Q|Q]; [|reflexivity]. unfold a in Q. rewrite <- cell_of_eq in Q. destruct (bcell9 c' Hc') as (_ & D2 & D3 & _). apply cell_of_inj in Q; auto. destruct Q as (-> & -> & ->). reflexivity.
    + intros u Hu _. apply (in_at_key _ G (B * per) (nl * Wo) key fT u KY) in Hu. destruct Hu as (b' & c' & Hb' & Hc' & Hu). apply fT_in in Hu. destruct Hu as (s' & _ & _ & _ & E). now rewrite E.
  - intros Nr. unfold o. apply upds_out. intros u Hu Ea. apply (in_at_key _ G (B * per) (nl * Wo) key fT u KY) in Hu. destruct Hu as (b' & c' & Hb' & Hc' & Hu). apply fT_in in Hu. destruct Hu as (s' & S1 & S2 & S3 & E). rewrite E in Ea. cbn [fst] in Ea. apply faddr_inj in Ea; auto using bcell9_lt. destruct Ea as [Q _]. unfold a in Q. rewrite <- cell_of_eq in Q. destruct (bcell9 c' Hc') as (_ & D2 & D3 & _). apply cell_of_inj in Q; auto. destruct Q as (_ & Q & _). apply Nr. rewrite <- Q.
    exact (row_listed NW BY V nloc nci nci Wi Ho Wo true HNW HV Hnl Hci (fun _ => Hci) HBY HWi per nl rows Hper Hlen brows_at c' Hc').
Qed.
End Final.
(** ** All three launches *)
Lemma bents_above : forall b h w e, b < B -> h < Ho -> w < Wo -> In e (ents w h) -> (ninf < sce Ck kf qf b h w e)%R.
Proof. exact (ents_above V nci H W Wi ps lon_lo lat0 B Ho Wo ninf P kf qf HWi HS). Qed.
Lemma brun_above : forall b h w st m, b < B -> h < Ho -> w < Wo -> (forall x, b_max st = Some x -> (ninf < x)%R) -> b_max (visits b h w st) = Some m -> (ninf < m)%R.
Proof.
  intros b h w st m Hb Hh Hw HA E. rewrite bvisits_run in E. assert (M := brun_max Ck Cv quad kf vf qf df ninf b h w (ents w h) st (fun e He => bents_above b h w e Hb Hh Hw He)). rewrite E in M. cbn [as_num] in M.
  destruct (fold_max (map (sce Ck kf qf b h w) (ents w h)) (as_num ninf (b_max st))) as (F1 & F2 & F3). rewrite <- M in *. destruct F3 as [F3|F3].
  - destruct (b_max st) as [x|] eqn:Ex; cbn [as_num] in *; [rewrite F3; auto|]. destruct (ents w h) as [|e d] eqn:Ed; [cbn in E; congruence|]. assert (A := bents_above b h w e Hb Hh Hw ltac:(rewrite Ed; now left)). specialize (F2 _ (in_map (sce Ck kf qf b h w) (e :: d) e (or_introl eq_refl))). lra.
  - apply in_map_iff in F3. destruct F3 as (e & <- & He). now apply bents_above.
Qed.
Notation k1 := (p1_softmax_kernel BD BY V nci H W Wi ps lon_lo lat0 B Ho Wo (offsets 0 P) (columns P) kA qA mid per nl rows).
Notation k3 := (p1_final_kernel BD BY V nloc nci nco H W Wi ps lon_lo lat0 B Ho Wo as_in (offsets 0 P) (columns P) nq kA vA qA dA quad mid per nl rows).
Variable k2 : (nat -> R) -> kernel.
Variable ws : nat.
Hypothesis Hk2 : forall cur out rg sh, lsettles ws cells (k2 cur) (start (k2 cur) rg sh out) (rescaled cells Ck 2 2 ninf (row_cells B Ho Wo (firstn nl rows)) (fun _ => True) cur out).
Lemma blong_settles : forall out buf, bmaxima_above B Ho Wo ninf buf -> all_bhold B Ho Wo Ck ninf out buf ->
  long_ends ws cells (k1, k2, k3) out (fun o => forall b h w, b < B -> h < Ho -> w < Wo ->
    (In h (firstn nl rows) -> bholds cells Ck ninf o ((b * Ho + h) * Wo + w) (visits b h w (buf b h w))) /\
    (~ In h (firstn nl rows) -> bholds cells Ck ninf o ((b * Ho + h) * Wo + w) (buf b h w))).
Proof.
  intros out buf HA HO rg1 sh1. eapply settles_impl; [exact (soft_settles0 NW BY V nloc nci nci H W Wi ps lon_lo lat0 B Ho Wo true P nq kA kA qA quad kf kf qf HNW HV Hnl Hci (fun _ => Hci) HBY HWi HP Lk Lk Lq mid per nl rows Hper Hlen brows_at Hmid out rg1 sh1)|].
  cbv beta. intros m Em rg2 sh2.
  assert (Vm : forall b h w, b < B -> h < Ho -> w < Wo -> In h (firstn nl rows) -> m ((b * Ho + h) * Wo + w) = as_num ninf (b_max (visits b h w (buf b h w)))).
  { intros b h w Hb Hh Hw Hi. rewrite Em. destruct (soft_value NW BY V nloc nci nci H W Wi ps lon_lo lat0 B Ho Wo true P kf qf HNW HV Hnl Hci (fun _ => Hci) HBY HWi per nl rows Hper Hlen ND brows_at out b h w Hb Hh Hw) as [V1 _]. cbv zeta in *. rewrite (V1 Hi), bvisits_run. rewrite (brun_max _ _ _ _ _ _ _ ninf) by (intros e He; now apply bents_above). destruct (HO b h w Hb Hh Hw) as (O1 & _). unfold the_max in O1. now rewrite O1. }
  clear Em. eapply lsettles_mono; [|apply Hk2]. cbv beta. intros s Hs rg3 sh3. eapply settles_impl; [exact (fin_settles0 m (fun a => s (cells + a)) rg3 sh3)|].
  cbv beta. intros o Eo b h w Hb Hh Hw. assert (HO' := HO b h w Hb Hh Hw). rewrite bholds_slots in HO'.
  assert (La : (b * Ho + h) * Wo + w < cells) by (rewrite <- (cell_of_eq Ho Wo b h w); now apply cell_of_lt).
  assert (F := fun sl => fin_sums m (fun a => s (cells + a)) b h w sl Hb Hh Hw). cbv zeta in F. rewrite <- Eo in F. clear Eo. cbn beta in F.
  set (a := (b * Ho + h) * Wo + w) in *.
  assert (Hsplit : forall st, s a = as_num ninf (b_max st) -> (forall sl, fst sl < 5 -> fst sl <> 1 -> snd sl < bnch (fst sl) -> o (faddr a sl) = bval ninf st sl) -> bholds cells Ck ninf (fun i => if i <? cells then s i else o (i - cells)) a st).
  { intros st E1 E2. rewrite bholds_slots. intros [i x] S1 S2. destruct (Nat.eq_dec i 1) as [->|Ne].
    - unfold CudaRingBwdProofs6.bnch in S2. cbn [fst snd Nat.ltb Nat.leb] in S2. change (baddr a (1, x)) with a. rewrite (proj2 (Nat.ltb_lt _ _) La). exact E1.
    - rewrite <- (proj2 (foff_lt V nci B Ho Wo a (i, x) La S1 Ne S2)). rewrite (proj2 (Nat.ltb_ge _ _)) by lia. replace (cells + faddr a (i, x) - cells) with (faddr a (i, x)) by lia. now apply E2. }
  split.
  - intros Hi. assert (M1 := Vm b h w Hb Hh Hw Hi). fold a in M1. assert (Cc : row_cells B Ho Wo (firstn nl rows) a) by (exists b, h, w; auto). set (fin := visits b h w (buf b h w)) in *.
    assert (Rs : forall sl, fst sl < 5 -> fst sl <> 1 -> snd sl < bnch (fst sl) -> times_exp ninf (as_num ninf (b_max (buf b h w))) (m a) (bval ninf (buf b h w) sl) (s (cells + faddr a sl))).
    { intros sl S1 Ne S2. rewrite (proj2 (foff_lt V nci B Ho Wo a sl La S1 Ne S2)). rewrite <- (HO' sl S1 S2). assert (E1 := HO' (1, 0) ltac:(cbn; lia) ltac:(cbn; lia)). change (out a = as_num ninf (b_max (buf b h w))) in E1. rewrite <- E1. eapply rescaled_slots; eauto. }
    apply Hsplit; [exact (eq_trans (re_max _ _ _ _ _ _ _ _ _ _ Hs a Cc) M1)|]. intros sl S1 Ne S2. rewrite (proj1 (F sl S1 Ne S2) Hi). specialize (Rs sl S1 Ne S2). destruct (b_max fin) as [M|] eqn:EM.
    + assert (HM : (ninf < M)%R) by (exact (brun_above b h w (buf b h w) M Hb Hh Hw (fun y => HA b h w y Hb Hh Hw) EM)).
      assert (Sl : slot Ck sl). { split; [exact S1|]. split; [exact Ne|]. intros L. unfold CudaRingBwdProofs6.bnch in S2. rewrite (proj2 (Nat.ltb_ge _ _)) in S2 by exact L. exact S2. }
      assert (EM' := EM). unfold fin in EM'. rewrite bvisits_run in EM'. apply (brun_closed Ck Cv quad kf vf qf df ninf b h w (ents w h) (buf b h w) M sl Sl) in EM'. rewrite <- bvisits_run in EM'. fold fin in EM'. rewrite EM'. cbn [as_num] in M1. f_equal.
      * unfold rsc. destruct Rs as (R1 & R2 & R3). rewrite M1 in R1, R2, R3. destruct (b_max (buf b h w)) as [y|] eqn:Ey; cbn [as_num exp_diff] in *.
        -- assert (Hy := HA b h w y Hb Hh Hw Ey). destruct (Req_EM_T y M) as [->|Nn]; [rewrite R1, Rminus_diag_eq, exp_0 by reflexivity; ring|]. rewrite R3 by lra. ring.
        -- rewrite R2 by lra. ring.
      * apply lsum_ext. intros e _. unfold alB. fold a. now rewrite M1.
    + assert (EM' := EM). unfold fin in EM'. rewrite bvisits_run in EM'. apply brun_none in EM'. destruct EM' as [Ed Eb]. assert (Ef : fin = buf b h w) by (unfold fin; rewrite bvisits_run, Ed; reflexivity). rewrite Ef, Ed. cbn [lsum_ fold_right]. destruct Rs as (R1 & _). rewrite R1 by (rewrite M1, Eb; reflexivity). ring.
  - intros Nh. assert (Nc : ~ row_cells B Ho Wo (firstn nl rows) a). { intros (b' & h' & w' & Hb' & Hi' & Hw' & E). apply Nh. assert (h' < Ho) by (apply Hrows; rewrite <- (firstn_skipn nl rows); apply in_or_app; now left). unfold a in E. rewrite <- !(cell_of_eq Ho Wo) in E. apply cell_of_inj in E; auto. destruct E as (_ & -> & _). exact Hi'. }
    apply Hsplit.
    + assert (E1 := rescaled_rest V nci B Ho Wo _ _ _ _ _ _ a (1, 0) Hs Nc La ltac:(cbn; lia) ltac:(cbn; lia)). assert (E2 := HO' (1, 0) ltac:(cbn; lia) ltac:(cbn; lia)). rewrite E2 in E1. exact E1.
    + intros sl S1 Ne S2. rewrite (proj2 (F sl S1 Ne S2) Nh). rewrite (proj2 (foff_lt V nci B Ho Wo a sl La S1 Ne S2)). rewrite (rescaled_rest V nci B Ho Wo _ _ _ _ _ _ a sl Hs Nc La S1 S2). now apply HO'.
Qed.
End Ctx.
