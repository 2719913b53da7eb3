(** The CUDA kernels of the upsampling direction: one group. *)
From Coq Require Import List Arith Lia Bool Reals Lra Permutation FunctionalExtensionality.
From Verif Require Import TensorModel TensorProofs BigSum DiscoModel DiscoSortProofs AttnModel AttnCoreProofs GpuModel GpuSpec GpuProofs GpuProofs2 WarpProofs CudaDiscoModel CudaWarpModel WarpSumProofs CudaFwdProofs CudaAttnModel CudaAttnUpModel CudaAttnProofs CudaAttnLaneProofs CudaAttnFwdProofs2 WarpKernelProofs CudaKeyProofs CudaLoopProofs.
From Verif Require Import AttnSpec.
Import ListNotations.
Local Open Scope nat_scope.
Notation upd := (nat * uop * R)%type (only parsing).
Notation lanes := (nat -> (nat -> R) * (nat -> R)) (only parsing).

Lemma sub_mod : forall x n, 1 <= n -> x - x / n * n = x mod n.
Proof. intros. rewrite (Nat.mod_eq x n) by lia. rewrite (Nat.mul_comm n). reflexivity. Qed.
(** ** Groups *)
Definition up_gw (cells : nat) : nat := div_up cells 2 * 2.
Definition up_key (cells g : nat) : option (nat * nat) := if cells <=? g mod up_gw cells then None else Some (g / up_gw cells, g mod up_gw cells).
Lemma up_keyed : forall BH cells, keyed (BH * up_gw cells) BH cells (up_key cells).
Proof.
  intros BH cells. assert (L : cells <= up_gw cells) by (apply div_up_ge; lia). unfold up_key. constructor.
  - intros g b c Hg. destruct (Nat.leb_spec cells (g mod up_gw cells)) as [Q|Q]; [discriminate|]. intros [= <- <-]. split; [|exact Q]. apply Nat.div_lt_upper_bound; [lia|]. rewrite Nat.mul_comm. exact Hg.
  - intros g g' [b c] Hg Hg'. destruct (Nat.leb_spec cells (g mod up_gw cells)) as [Q|Q]; [discriminate|]. destruct (Nat.leb_spec cells (g' mod up_gw cells)) as [Q'|Q']; [discriminate|]. intros [= E1 E2] [= E3 E4].
    rewrite (Nat.div_mod g (up_gw cells)), (Nat.div_mod g' (up_gw cells)) by lia. congruence.
  - intros b c Hb Hc. exists (b * up_gw cells + c). assert (Hg : c < up_gw cells) by lia. destruct (split_div (up_gw cells) b c Hg) as [-> ->]. split; [nia|]. rewrite (proj2 (Nat.leb_gt _ _) Hc). reflexivity.
Qed.

(** ** Consecutive shared arrays, each dealt out to the 32 threads *)
Fixpoint own_segs (ls : list nat) (a : nat) : nat := match ls with [] => 32 | n :: r => if a <? n then a mod 32 else own_segs r (a - n) end.
Lemma own_segs_at : forall l n r c, c < n -> own_segs (l ++ n :: r) (list_sum l + c) = c mod 32.
Proof.
  induction l as [|m l IH]; intros n r c Hc; cbn [app own_segs list_sum fold_right plus].
  - now rewrite (proj2 (Nat.ltb_lt _ _) Hc).
  - rewrite (proj2 (Nat.ltb_ge _ _)) by lia. replace (m + fold_right Nat.add 0 l + c - m) with (list_sum l + c) by (unfold list_sum; lia). now apply IH.
Qed.
Lemma own_segs_out : forall l a, list_sum l <= a -> own_segs l a = 32.
Proof. induction l as [|m l IH]; intros a Ha; [reflexivity|]. cbn [own_segs list_sum fold_right] in *. rewrite (proj2 (Nat.ltb_ge _ _)) by lia. apply IH. unfold list_sum. lia. Qed.

Lemma cell_lt : forall Ho Wo ho wo, ho < Ho -> wo < Wo -> ho * Wo + wo < Ho * Wo.
Proof. intros. nia. Qed.
Lemma cell_split : forall Wo h w, w < Wo -> (h * Wo + w) / Wo = h /\ (h * Wo + w) - (h * Wo + w) / Wo * Wo = w.
Proof. intros Wo h w H. destruct (split_div Wo h w H) as [E1 E2]. split; [exact E1|]. rewrite E1. lia. Qed.

Section Cells.
Variables (nh Hi Wi Ho Wo : nat) (P : pattern).
Hypotheses (HWi : 1 <= Wi) (HWo : 1 <= Wo) (Hdiv : Wo mod Wi = 0) (HP : pattern_ok P Hi (Ho * Wo)).
Definition to_ho (c : nat) : nat := c / Wo.
Definition to_wo (wi c : nat) : nat := (c mod Wo + Wo / Wi * wi) mod Wo.
Lemma scatter_wo_eq : forall wi wc, wi < Wi -> wc < Wo -> scatter_wo Wi Wo wc wi = (wc + Wo / Wi * wi) mod Wo.
Proof using HWi HWo Hdiv.
  intros wi wc H Hc. unfold scatter_wo. assert (E : Wo = Wi * (Wo / Wi)) by (apply Nat.div_exact; lia). set (s := Wo / Wi) in *.
  assert (s * wi < Wo) by (rewrite E; assert (1 <= s) by (destruct s; lia); nia).
  destruct (Nat.leb_spec Wo (wc + s * wi)); [apply (Nat.mod_unique _ _ 1); lia|]. symmetry. apply Nat.mod_small. lia.
Qed.
Lemma out_cell_eq : forall wi c, wi < Wi -> out_cell Wi Wo wi c = to_ho c * Wo + to_wo wi c.
Proof using HWi HWo Hdiv.
  intros wi c H. unfold out_cell, to_ho, to_wo. rewrite sub_mod by lia. rewrite scatter_wo_eq; [reflexivity|exact H|]. apply Nat.mod_upper_bound. lia.
Qed.
Lemma row_in : forall hi c, hi < Hi -> In c (nth hi P []) -> c < Ho * Wo.
Proof using HWi HWo Hdiv HP. intros hi c H Hc. apply (proj2 HP (nth hi P [])); [|exact Hc]. apply nth_In. destruct HP. lia. Qed.
Lemma to_ok : forall hi wi c, hi < Hi -> In c (nth hi P []) -> to_ho c < Ho /\ to_wo wi c < Wo.
Proof using HWi HWo Hdiv HP. intros hi wi c H Hc. apply row_in in Hc; auto. split; [apply Nat.div_lt_upper_bound; [lia|rewrite Nat.mul_comm; exact Hc]|]. apply Nat.mod_upper_bound. lia. Qed.
End Cells.

(** ** The dot products of an entry *)
Section Dots.
Variables (inp : nat -> R) (N : nat).
(** every thread holds f in its part of the shared array from [base] on *)
Definition keeps (base n : nat) (f : nat -> R) (st : lanes) : Prop := forall t c, t < 32 -> c < n -> c mod 32 = t -> snd (st t) (base + c) = f c.
Lemma my_chans : forall n t c, t < 32 -> (In c (loop_chans 32 n t) <-> c < n /\ c mod 32 = t).
Proof. intros n t c Ht. apply (warp_covers n t Ht). Qed.
Lemma chans_nodup : forall n t, t < 32 -> NoDup (loop_chans 32 n t).
Proof. intros n t Ht. apply (warp_covers n t Ht). Qed.
Lemma warp_dot : forall base n (f : nat -> R) (F : nat -> R) st, keeps base n f st -> rsum 32 (fun t => rlsum (fun c => snd (st t) (base + c)%nat * F c)%R (loop_chans 32 n t)) = rsum n (fun c => f c * F c)%R.
Proof.
  intros base n f F st K. rewrite <- (warp_lanes n), (lsum_seq RT). apply bsum_ext. intros t Ht. apply lsum_ext. intros c Hc. apply my_chans in Hc; [|exact Ht]. rewrite (K t c) by tauto. reflexivity.
Qed.
Lemma up_dot_lane : forall rd base p b n F t m, t < 32 -> rd <> r_t -> rd <> r_u -> reads inp N p b n F -> let m' := lrun inp (up_dot rd base p b n t) m in
  snd m' = [] /\ snd (fst m') = snd m /\ fst (fst m') rd = rlsum (fun c => snd m (base + c)%nat * F c)%R (loop_chans 32 n t) /\ forall r, r <> r_t -> r <> r_u -> r <> rd -> fst (fst m') r = fst m r.
Proof. intros rd base p b n F t [rg sh] Ht N1 N2 HR. apply (loop_dot inp N rd p b base n F (loop_chans 32 n t) rg sh); auto. intros c Hc. apply my_chans in Hc; tauto. Qed.
Lemma up_copy_lane : forall base p b n F t m, t < 32 -> reads inp N p b n F -> let m' := lrun inp (up_copy base p b n t) m in
  snd m' = [] /\ (forall r, r <> r_t -> fst (fst m') r = fst m r) /\ (forall c, In c (loop_chans 32 n t) -> snd (fst m') (base + c) = F c) /\ forall a, (forall c, In c (loop_chans 32 n t) -> a <> base + c) -> snd (fst m') a = snd m a.
Proof. intros base p b n F t [rg sh] Ht HR. apply (loop_copy inp N p b base n F (loop_chans 32 n t) rg sh); auto. intros c Hc. apply my_chans in Hc; tauto. Qed.
Variables (own : nat -> nat) (pub : nat -> bool).
Notation fend := (fend inp 32 own pub). Notation ftrace := (ftrace inp 32 own pub).
Definition one_dot (rd base : nat) (p : nat * nat) (b n : nat) : list fstep := [FSeg (up_dot rd base p b n); FSum rd].
Lemma one_dot_run : forall rd base p b n f F st, rd <> r_t -> rd <> r_u -> keeps base n f st -> reads inp N p b n F ->
  ftrace (one_dot rd base p b n) st = [] /\ forall t, t < 32 -> snd (fend (one_dot rd base p b n) st t) = snd (st t) /\ fst (fend (one_dot rd base p b n) st t) rd = rsum n (fun c => f c * F c)%R /\
    forall r, r <> r_t -> r <> r_u -> r <> rd -> fst (fend (one_dot rd base p b n) st t) r = fst (st t) r.
Proof.
  intros rd base p b n f F st N1 N2 K HR.
  assert (L : forall t, t < 32 -> let m := lrun inp (up_dot rd base p b n t) (st t) in snd m = [] /\ snd (fst m) = snd (st t) /\ fst (fst m) rd = rlsum (fun c => snd (st t) (base + c)%nat * F c)%R (loop_chans 32 n t) /\ forall r, r <> r_t -> r <> r_u -> r <> rd -> fst (fst m) r = fst (st t) r).
  { intros t Ht. now apply up_dot_lane. }
  split.
  - cbn [ftrace one_dot ftrace1 app]. rewrite app_nil_r. apply quiet. intros t Ht. apply (L t Ht).
  - intros t Ht. cbn [fend one_dot fold_left fstate]. rewrite after_sum_in by exact Ht. cbn [fst snd]. destruct (L t Ht) as (L1 & L2 & L3 & L4). rewrite (after_in inp 32 _ st t Ht). split; [exact L2|]. split.
    + rewrite put_eq. rewrite <- (warp_dot base n f F st K). apply bsum_ext. intros t' Ht'. rewrite after_in by exact Ht'. apply (L t' Ht').
    + intros r H1 H2 H3. rewrite put_ne by exact H3. now apply L4.
Qed.
Definition two_dots (r1 s1 : nat) (p1 : nat * nat) (b1 n1 r2 s2 : nat) (p2 : nat * nat) (b2 n2 : nat) : list fstep := [FSeg (fun t => up_dot r1 s1 p1 b1 n1 t ++ up_dot r2 s2 p2 b2 n2 t); FSum r1; FSum r2].
Lemma two_dots_run : forall r1 s1 p1 b1 n1 f1 F1 r2 s2 p2 b2 n2 f2 F2 st, r1 <> r_t -> r1 <> r_u -> r2 <> r_t -> r2 <> r_u -> r1 <> r2 -> keeps s1 n1 f1 st -> keeps s2 n2 f2 st -> reads inp N p1 b1 n1 F1 -> reads inp N p2 b2 n2 F2 ->
  let pr := two_dots r1 s1 p1 b1 n1 r2 s2 p2 b2 n2 in
  ftrace pr st = [] /\ forall t, t < 32 -> snd (fend pr st t) = snd (st t) /\ fst (fend pr st t) r1 = rsum n1 (fun c => f1 c * F1 c)%R /\ fst (fend pr st t) r2 = rsum n2 (fun c => f2 c * F2 c)%R /\
    forall r, r <> r_t -> r <> r_u -> r <> r1 -> r <> r2 -> fst (fend pr st t) r = fst (st t) r.
Proof.
  intros r1 s1 p1 b1 n1 f1 F1 r2 s2 p2 b2 n2 f2 F2 st N1 N2 N3 N4 N5 K1 K2 HR1 HR2 pr. subst pr.
  assert (L : forall t, t < 32 -> let m := lrun inp (up_dot r1 s1 p1 b1 n1 t ++ up_dot r2 s2 p2 b2 n2 t) (st t) in snd m = [] /\ snd (fst m) = snd (st t) /\ fst (fst m) r1 = rlsum (fun c => snd (st t) (s1 + c)%nat * F1 c)%R (loop_chans 32 n1 t) /\
     fst (fst m) r2 = rlsum (fun c => snd (st t) (s2 + c)%nat * F2 c)%R (loop_chans 32 n2 t) /\ forall r, r <> r_t -> r <> r_u -> r <> r1 -> r <> r2 -> fst (fst m) r = fst (st t) r).
  { intros t Ht m. subst m. rewrite lrun_app. cbn [fst snd].
    destruct (up_dot_lane r1 s1 p1 b1 n1 F1 t (st t) Ht N1 N2 HR1) as (A1 & A2 & A3 & A4). set (m1 := lrun inp (up_dot r1 s1 p1 b1 n1 t) (st t)) in *.
    destruct (up_dot_lane r2 s2 p2 b2 n2 F2 t (fst m1) Ht N3 N4 HR2) as (B1 & B2 & B3 & B4). rewrite A1, B1, B2, B3, A2. split; [reflexivity|]. split; [reflexivity|]. split; [rewrite B4 by auto; exact A3|]. split; [reflexivity|].
    intros r H1 H2 H3 H4. rewrite B4 by auto. now apply A4. }
  split.
  - cbn [ftrace two_dots ftrace1 app]. rewrite !app_nil_r. apply quiet. intros t Ht. apply (L t Ht).
  - intros t Ht. cbn [fend two_dots fold_left fstate]. rewrite after_sum_in by exact Ht. cbn [fst snd]. destruct (L t Ht) as (L1 & L2 & L3 & L4 & L5). rewrite (after_sum_in 32 r1 _ t Ht). cbn [fst snd]. rewrite (after_in inp 32 _ st t Ht). split; [exact L2|]. split; [|split].
    + rewrite put_ne by auto. rewrite put_eq. rewrite <- (warp_dot s1 n1 f1 F1 st K1). apply bsum_ext. intros t' Ht'. rewrite after_in by exact Ht'. apply (L t' Ht').
    + rewrite put_eq. rewrite <- (warp_dot s2 n2 f2 F2 st K2). apply bsum_ext. intros t' Ht'. rewrite after_sum_in by exact Ht'. cbn [fst]. rewrite put_ne by auto. rewrite after_in by exact Ht'. apply (L t' Ht').
    + intros r H1 H2 H3 H4. rewrite !put_ne by auto. now apply L5.
Qed.
End Dots.
