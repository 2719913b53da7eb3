(** The rescale launches with the block sizes the host picks. *)
From Coq Require Import List Arith Lia Bool Reals Lra.
From Verif Require Import TensorModel TensorProofs GpuModel GpuSpec GpuProofs GpuProofs2 GpuRwModel GpuRwSpec GpuRwProofs CudaWarpModel CudaAttnModel CudaAttnSpec CudaAttnProofs CudaAttnFwdProofs2 CudaAttnLaunchProofs DistAttnModel CudaRescaleModel CudaRescaleSpec CudaRescaleProofs CudaRescaleProofs2 CudaRescaleProofs3 CudaRescaleProofs4.
Import ListNotations.
Local Open Scope nat_scope.

Lemma lsettles_mono : forall ws base k s (P Q : (nat -> R) -> Prop), (forall o, P o -> Q o) -> lsettles ws base k s P -> lsettles ws base k s Q.
Proof. intros ws base k s P Q H [m S]. exists m. intros j u Pa. destruct (S j u Pa) as [A B]. split; [exact A|]. intros St. destruct (B St). auto. Qed.
Lemma may_end_mono : forall ws base k s (P Q : (nat -> R) -> Prop), (forall o, P o -> Q o) -> may_end ws base k s P -> may_end ws base k s Q.
Proof. intros ws base k s P Q H (m & u & A & B & C). exists m, u. auto. Qed.

Section Wide.
Variables (ninf : R) (B Ho Wo V C nl : nat) (rows : list nat) (cur : nat -> R).
Hypotheses (HV : 1 <= V) (HVC : C mod V = 0) (HC : 1 <= C) (Hnl : nl <= length rows) (ND : NoDup rows) (HR : forall r, In r rows -> r < Ho).
Variable BD : nat.
Hypothesis HBD : 1 <= BD.
Notation BY := (if BD =? 32 then 2 else 1).
Notation cells := (B * Ho * Wo).
Notation nvec := (C / V).
Notation nloc := (div_up (C / V) BD).
Lemma vc : V * nvec = C. Proof. pose proof (Nat.div_mod C V ltac:(lia)). lia. Qed.
Lemma nv1 : 1 <= nvec. Proof. pose proof vc. destruct nvec; lia. Qed.
Lemma by1 : 1 <= BY. Proof. destruct (BD =? 32); lia. Qed.
Lemma chans_cover : covers BD (V * nvec) (chan_own BD V) (fun t => floats V (unrolled_chans BD nloc nvec t)).
Proof.
  apply floats_covers; auto. pose proof nv1. apply unrolled_covers.
  - destruct (div_up nvec BD) eqn:E; [|lia]. pose proof (div_up_ge nvec BD HBD). lia.
  - pose proof (div_up_ge nvec BD HBD). split; [|lia]. destruct (Nat.le_gt_cases ((nloc - 1) * BD) nvec) as [L|L]; [exact L|]. assert (Q : nvec <= (nloc - 1) * BD) by lia. apply (div_up_le nvec (nloc - 1) BD HBD) in Q. destruct nloc eqn:E; [simpl in L; lia|lia].
Qed.
Variable nx : nat.
Notation K := (resc_kernel cells (V * nvec) nx nx (B * long_width BY nl Wo) BD (long_key BY nl Ho Wo rows)
    (long_code ninf cells (V * nvec) nx nx (fun t => floats V (unrolled_chans BD nloc nvec t))) cur).
Lemma long_together : forall ws out rg sh, BD <= ws -> lsettles ws cells K (start K rg sh out) (rescaled cells C nx nx ninf (row_cells B Ho Wo (firstn nl rows)) (fun _ => True) cur out).
Proof.
  intros ws out rg sh HW. eapply lsettles_mono; [|apply (together ninf cells (V * nvec) nx nx (B * long_width BY nl Wo) BD (3 + 2 * nx) (chan_own BD V)); auto].
  - intros o Ho'. rewrite vc in Ho'. eapply rescaled_ext; [| |exact Ho']; [|tauto]. intros c. apply long_cov; auto. apply by1.
  - apply long_ok; [apply chans_cover|reflexivity|reflexivity].
  - intros g o. apply long_lt; auto. apply by1.
  - intros g g' c. apply long_inj; auto. apply by1.
  - intros ch _. now apply chan_own_lt.
Qed.
Lemma long_apart : forall ws out rg sh, 1 <= ws -> may_end ws cells K (start K rg sh out) (rescaled cells C nx nx ninf (row_cells B Ho Wo (firstn nl rows)) (fun ch => (ch / V) mod BD < ws) cur out).
Proof.
  intros ws out rg sh HW. eapply may_end_mono; [|apply (apart_wrong ninf cells (V * nvec) nx nx (B * long_width BY nl Wo) BD (3 + 2 * nx) (chan_own BD V)); auto].
  - intros o Ho'. rewrite vc in Ho'. eapply rescaled_ext; [| |exact Ho']; [|intros; unfold chan_own; tauto]. intros c. apply long_cov; auto. apply by1.
  - apply long_ok; [apply chans_cover|reflexivity|reflexivity].
  - intros g o. apply long_lt; auto. apply by1.
  - intros g g' c. apply long_inj; auto. apply by1.
  - intros ch _. now apply chan_own_lt.
Qed.
End Wide.

Section Upsample.
Variables (ninf : R) (B Ho Wo nco : nat) (cur : nat -> R).
Notation K := (up_rescale ninf B Ho Wo nco cur).
Notation cells := (B * Ho * Wo).
Lemma up_together : forall ws out rg sh, 32 <= ws -> lsettles ws cells K (start K rg sh out) (rescaled cells nco 1 1 ninf (fun c => c < cells) (fun _ => True) cur out).
Proof.
  intros ws out rg sh HW. eapply lsettles_mono; [|apply (together ninf cells nco 1 1 (B * up_width Ho Wo) 32 3 (fun u => u mod 32)); try lia].
  - intros o Ho'. eapply rescaled_ext; [| |exact Ho']; [|tauto]. intros c. apply up_cov.
  - apply up_ok; [apply loop_covers; lia|reflexivity|reflexivity].
  - intros g o. apply up_lt.
  - intros g g' c. apply up_inj.
  - intros ch _. apply Nat.mod_upper_bound. lia.
Qed.
Lemma up_apart : forall ws out rg sh, 1 <= ws -> may_end ws cells K (start K rg sh out) (rescaled cells nco 1 1 ninf (fun c => c < cells) (fun ch => ch mod 32 < ws) cur out).
Proof.
  intros ws out rg sh HW. eapply may_end_mono; [|apply (apart_wrong ninf cells nco 1 1 (B * up_width Ho Wo) 32 3 (fun u => u mod 32)); try lia].
  - intros o Ho'. eapply rescaled_ext; [| |exact Ho']; [|intros; tauto]. intros c. apply up_cov.
  - apply up_ok; [apply loop_covers; lia|reflexivity|reflexivity].
  - intros g o. apply up_lt.
  - intros g g' c. apply up_inj.
  - intros ch _. apply Nat.mod_upper_bound. lia.
Qed.
End Upsample.

(** ** With the widths the host picks *)
Lemma width_le : forall C, C <= 16 * 32 -> pick_bdimx C = 32.
Proof. intros C H. rewrite pick_width by lia. unfold block_width. now rewrite (proj2 (Nat.leb_le _ _) H). Qed.
Lemma width_gt : forall C, 16 * 32 < C -> C <= 16 * 1024 -> pick_bdimx C = block_width C /\ 64 <= block_width C <= 1024 /\ (C <= 16 * 512 -> block_width C <= 512).
Proof.
  intros C H H'. rewrite pick_width by lia. split; [reflexivity|]. unfold block_width. rewrite (proj2 (Nat.leb_gt _ _) H).
  destruct (Nat.leb_spec C (16 * 64)); [lia|]. destruct (Nat.leb_spec C (16 * 128)); [lia|]. destruct (Nat.leb_spec C (16 * 256)); [lia|]. destruct (Nat.leb_spec C (16 * 512)); lia.
Qed.
Section Host.
Variables (bwd : bool) (ninf : R) (B Ho Wo V C nl : nat) (rows : list nat) (cur : nat -> R).
Hypotheses (HV : 1 <= V) (HVC : C mod V = 0) (HC : 1 <= C) (Hnl : nl <= length rows) (ND : NoDup rows) (HR : forall r, In r rows -> r < Ho).
Lemma narrow_right : C <= 16 * 32 -> exists k, rescale_launch bwd ninf B Ho Wo V C nl rows cur = Some k /\ forall ws out rg sh, 32 <= ws ->
  lsettles ws (B * Ho * Wo) k (start k rg sh out) (rescaled (B * Ho * Wo) C (copies bwd) (copies bwd) ninf (row_cells B Ho Wo (firstn nl rows)) (fun _ => True) cur out).
Proof. intros H. destruct bwd; unfold rescale_launch, bwd_rescale_launch, fwd_rescale_launch; cbv zeta; rewrite (width_le C H); (eexists; split; [reflexivity|]); intros ws out rg sh HW; apply long_together; auto; lia. Qed.
Lemma narrow_wrong : C <= 16 * 32 -> exists k, rescale_launch bwd ninf B Ho Wo V C nl rows cur = Some k /\ forall ws out rg sh, 1 <= ws ->
  may_end ws (B * Ho * Wo) k (start k rg sh out) (rescaled (B * Ho * Wo) C (copies bwd) (copies bwd) ninf (row_cells B Ho Wo (firstn nl rows)) (fun ch => (ch / V) mod 32 < ws) cur out).
Proof. intros H. destruct bwd; unfold rescale_launch, bwd_rescale_launch, fwd_rescale_launch; cbv zeta; rewrite (width_le C H); (eexists; split; [reflexivity|]); intros ws out rg sh HW; apply long_apart; auto; lia. Qed.
Lemma wide_wrong : 16 * 32 < C -> C <= max_chans bwd -> exists k, rescale_launch bwd ninf B Ho Wo V C nl rows cur = Some k /\ forall ws out rg sh, 1 <= ws ->
  may_end ws (B * Ho * Wo) k (start k rg sh out) (rescaled (B * Ho * Wo) C (copies bwd) (copies bwd) ninf (row_cells B Ho Wo (firstn nl rows)) (fun ch => (ch / V) mod block_width C < ws) cur out).
Proof.
  intros H H'. unfold max_chans in H'. destruct (width_gt C H ltac:(destruct bwd; lia)) as (E & W1 & W2). destruct bwd; unfold rescale_launch, bwd_rescale_launch, fwd_rescale_launch; cbv zeta; rewrite E.
  - rewrite (proj2 (Nat.leb_le (block_width C) 512)) by auto. eexists. split; [reflexivity|]. intros ws out rg sh HW. apply long_apart; auto. lia.
  - rewrite (proj2 (Nat.leb_le (block_width C) 1024)) by lia. eexists. split; [reflexivity|]. intros ws out rg sh HW. apply long_apart; auto. lia.
Qed.
End Host.

(** ** A channel that is left behind *)
Lemma not_scaled : forall ninf old new y, old <> new -> y <> 0%R -> ~ times_exp ninf old new y y.
Proof.
  intros ninf old new y N Z (_ & A & B). destruct (Req_EM_T old ninf) as [E|E]; [specialize (A N E); contradiction|]. specialize (B N E).
  assert (Q : ((exp (old - new) - 1) * y = 0)%R) by (rewrite Rmult_minus_distr_r, <- B; ring). apply Rmult_integral in Q. destruct Q as [Q|Q]; [|contradiction].
  apply N. assert (exp (old - new) = exp 0)%R by (rewrite exp_0; lra). apply exp_inv in H. lra.
Qed.
Lemma left_behind : forall cells n ns nv ninf cov ok cur out o c j ch, rescaled cells n ns nv ninf cov ok cur out o -> cov c -> j < nv -> ch < n -> ~ ok ch -> the_max out c <> cur c -> the_acc cells n ns out j c ch <> 0%R ->
  (forall c, cov c -> the_max o c = cur c) /\ ~ rescaled cells n ns nv ninf cov (fun _ => True) cur out o.
Proof.
  intros cells n ns nv ninf cov ok cur out o c j ch H Cv Hj Hch N M Z. split; [apply H|]. intros [_ _ R _ _]. specialize (R c j ch Cv Hj Hch I). destruct H as [_ _ _ Q _]. rewrite (Q c j ch Cv Hj Hch N) in R. exact (not_scaled _ _ _ _ M Z R).
Qed.
Section Refute.
Variables (bwd : bool) (ninf : R) (B Ho Wo V C nl : nat) (rows : list nat) (cur out : nat -> R) (c j : nat).
Hypotheses (HV : V = 1 \/ V = 4) (HVC : C mod V = 0) (Hnl : nl <= length rows) (ND : NoDup rows) (HR : forall r, In r rows -> r < Ho).
Hypotheses (Cv : row_cells B Ho Wo (firstn nl rows) c) (Hj : j < copies bwd) (M : the_max out c <> cur c).
Notation cells := (B * Ho * Wo).
Lemma wide_refuted : forall rg sh, 16 * 32 < C -> C <= max_chans bwd -> the_acc cells C (copies bwd) out j c (32 * V) <> 0%R -> exists k, rescale_launch bwd ninf B Ho Wo V C nl rows cur = Some k /\
  may_end 32 cells k (start k rg sh out) (fun o => (forall c, row_cells B Ho Wo (firstn nl rows) c -> the_max o c = cur c) /\ ~ rescaled cells C (copies bwd) (copies bwd) ninf (row_cells B Ho Wo (firstn nl rows)) (fun _ => True) cur out o).
Proof.
  intros rg sh H H' Z. destruct (wide_wrong bwd ninf B Ho Wo V C nl rows cur ltac:(lia) HVC ltac:(lia) Hnl ND HR H H') as (k & E & W). exists k. split; [exact E|]. eapply may_end_mono; [|apply (W 32); lia].
  intros o R. destruct (width_gt C H ltac:(unfold max_chans in H'; destruct bwd; lia)) as (_ & W1 & _). apply (left_behind _ _ _ _ _ _ _ _ _ _ c j (32 * V) R); auto; [destruct HV; subst; lia|]. cbv beta. rewrite Nat.div_mul by lia. rewrite Nat.mod_small; lia.
Qed.
Lemma free_refuted : forall rg sh, V < C -> C <= 16 * 32 -> the_acc cells C (copies bwd) out j c V <> 0%R -> exists k, rescale_launch bwd ninf B Ho Wo V C nl rows cur = Some k /\
  may_end 1 cells k (start k rg sh out) (fun o => (forall c, row_cells B Ho Wo (firstn nl rows) c -> the_max o c = cur c) /\ ~ rescaled cells C (copies bwd) (copies bwd) ninf (row_cells B Ho Wo (firstn nl rows)) (fun _ => True) cur out o).
Proof.
  intros rg sh H H' Z. destruct (narrow_wrong bwd ninf B Ho Wo V C nl rows cur ltac:(lia) HVC ltac:(lia) Hnl ND HR H') as (k & E & W). exists k. split; [exact E|]. eapply may_end_mono; [|apply (W 1); lia].
  intros o R. apply (left_behind _ _ _ _ _ _ _ _ _ _ c j V R); auto. cbv beta. rewrite Nat.div_same by lia. rewrite Nat.mod_small; lia.
Qed.
End Refute.
Lemma up_refuted : forall ninf B Ho Wo nco cur out c rg sh, c < B * Ho * Wo -> 2 <= nco -> the_max out c <> cur c -> the_acc (B * Ho * Wo) nco 1 out 0 c 1 <> 0%R -> let k := up_rescale ninf B Ho Wo nco cur in
  may_end 1 (B * Ho * Wo) k (start k rg sh out) (fun o => (forall c, c < B * Ho * Wo -> the_max o c = cur c) /\ ~ rescaled (B * Ho * Wo) nco 1 1 ninf (fun c => c < B * Ho * Wo) (fun _ => True) cur out o).
Proof.
  intros ninf B Ho Wo nco cur out c rg sh Hc Hn M Z k. unfold k. eapply may_end_mono; [|apply (up_apart ninf B Ho Wo nco cur 1); lia]. intros o R. eapply (left_behind _ _ _ _ _ _ _ _ _ _ c 0 1 R); eauto. cbv beta. rewrite Nat.mod_small; lia.
Qed.
