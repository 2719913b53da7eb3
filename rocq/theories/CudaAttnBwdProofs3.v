(** The CUDA kernels of the attention backward pass compute the gradients. *)
From Coq Require Import List Arith Lia Bool Reals Lra Permutation FunctionalExtensionality.
From Verif Require Import TensorModel TensorProofs BigSum DiscoModel DiscoSortProofs AttnModel AttnCoreProofs AttnKernelProofs AttnUpProofs AttnGradProofs AttnBwdProofs AttnOpProofs AttnOpValProofs GpuModel GpuSpec GpuProofs GpuProofs2 WarpProofs CudaDiscoModel CudaWarpModel WarpSumProofs CudaFwdProofs CudaAttnModel CudaAttnUpModel CudaAttnBwdModel CudaAttnProofs CudaAttnLaneProofs CudaAttnFwdProofs CudaAttnFwdProofs2 WarpKernelProofs CudaKeyProofs CudaLoopProofs CudaAttnUpProofs CudaAttnUpProofs2 CudaAttnUpProofs4 CudaAttnBwdProofs CudaAttnBwdProofs2.
From Verif Require Import AttnSpec.
Import ListNotations.
Local Open Scope nat_scope.

(** ** Consecutive shared arrays, dealt out by vectors *)
Fixpoint own_vec (BD V : nat) (ls : list nat) (a : nat) : nat := match ls with [] => BD | n :: r => if a <? n then chan_own BD V a else own_vec BD V r (a - n) end.
Lemma own_vec_at : forall BD V l n r c, c < n -> own_vec BD V (l ++ n :: r) (list_sum l + c) = chan_own BD V c.
Proof.
  intros BD V. induction l as [|m l IH]; intros n r c Hc; cbn [app own_vec list_sum fold_right plus].
  - now rewrite (proj2 (Nat.ltb_lt _ _) Hc).
  - rewrite (proj2 (Nat.ltb_ge _ _)) by lia. replace (m + fold_right Nat.add 0 l + c - m) with (list_sum l + c) by (unfold list_sum; lia). now apply IH.
Qed.
Lemma own_vec_out : forall BD V l a, list_sum l <= a -> own_vec BD V l a = BD.
Proof. intros BD V. induction l as [|m l IH]; intros a Ha; [reflexivity|]. cbn [own_vec list_sum fold_right] in *. rewrite (proj2 (Nat.ltb_ge _ _)) by lia. apply IH. unfold list_sum. lia. Qed.

(** ** The atomic additions: single numbers or vectors *)
Section Atoms.
Variables (BD V : nat) (old : bool).
Hypotheses (HBD : 1 <= BD) (HV : V = 1 \/ V = 4).
Definition atom_own (c : nat) : nat := if old then c mod BD else chan_own BD V c.
Lemma atom_own_lt : forall c, atom_own c < BD.
Proof. intros. unfold atom_own. destruct old; [apply Nat.mod_upper_bound; lia|now apply chan_own_lt]. Qed.
Lemma atom_covers : forall n mine, covers BD (V * n) (chan_own BD V) mine -> covers BD (V * n) atom_own (fun t => atom_chans BD V old n (mine t) t).
Proof. intros n mine H t Ht. unfold atom_own, atom_chans. destruct old; [rewrite (Nat.mul_comm V); now apply loop_covers|now apply H]. Qed.
Lemma atom_vis : forall n mine own pub t c a, covers BD (V * n) (chan_own BD V) mine -> t < BD -> In c (atom_chans BD V old n (mine t) t) -> (c < V * n -> own a = chan_own BD V c /\ pub a = true) -> vis own pub (old && (V =? 4)) t a.
Proof.
  intros n mine own pub t c a Hm Ht Hc Ha. apply (atom_covers n mine Hm t Ht) in Hc. destruct Hc as [Hc1 Hc2]. destruct (Ha Hc1) as [E1 E2]. unfold atom_own in Hc2. destruct old; cbn [andb].
  - destruct HV as [-> | ->]; [left|right; auto]. rewrite E1, <- Hc2. unfold chan_own. now rewrite Nat.div_1_r.
  - left. congruence.
Qed.
End Atoms.

Section Kernels.
Variables (V B nh nci nco Hi Wi Ho Wo : nat) (old : bool) (fmin : R) (kw vw qw dyw : tensor R) (quad : nat -> R) (P : pattern) (row_idx : list nat).
Notation Ck := (V * nci). Notation Cv := (V * nco).
Hypotheses (HV : V = 1 \/ V = 4) (Hok : attn_ok B nh Ck Cv Hi Wi Ho Wo quad P kw vw qw) (Sd : shp dyw = [B; Ho; Wo; nh * Cv]) (Hdiv : Wi mod Wo = 0) (Hperm : Permutation row_idx (seq 0 Ho)).
Notation arr := [(prod_list (shp kw), flat kw); (prod_list (shp vw), flat vw); (prod_list (shp qw), flat qw); (prod_list (shp dyw), flat dyw); (Hi, quad)].
Notation insz := (list_sum (map fst arr)).
Notation ks := (B * Hi * Wi * (nh * Ck)). Notation vs := (B * Hi * Wi * (nh * Cv)). Notation qz := (B * Ho * Wo * (nh * Ck)).
Notation Kf := (ffld nh Ck kw). Notation Vf := (ffld nh Cv vw). Notation Qf := (ffld nh Ck qw). Notation Df := (ffld nh Cv dyw).
Notation Np := (nbrs_gather P Wi Wo).
Definition grads_ok (o : nat -> R) : Prop :=
  teq (tensor_of [B; Hi; Wi; nh * Ck] o) (dK B nh Ck Cv Hi Wi Ho Wo quad P kw vw qw dyw) /\
  teq (tensor_of [B; Hi; Wi; nh * Cv] (fun i => o (ks + i))) (dV B nh Ck Cv Hi Wi Ho Wo quad P kw qw dyw) /\
  teq (tensor_of [B; Ho; Wo; nh * Ck] (fun i => o (ks + vs + i))) (dQ B nh Ck Cv Hi Wi Ho Wo quad P kw vw qw dyw).
Lemma N_gather : nbrs P Hi Wi Wo = Np.
Proof using Hdiv. apply functional_extensionality; intros ho. apply functional_extensionality; intros wo. unfold nbrs. now rewrite Hdiv. Qed.
Lemma found_grads : forall o,
  (forall b h w c, b < B * nh -> h < Hi -> w < Wi -> c < Ck -> o (pidx nh (Hi * Wi) Ck b (h * Wi + w) c) = GK Ck Cv Ho Wo quad Np Kf Vf Qf Df b h w c) ->
  (forall b h w c, b < B * nh -> h < Hi -> w < Wi -> c < Cv -> o (ks + pidx nh (Hi * Wi) Cv b (h * Wi + w) c) = GV Ck Ho Wo quad Np Kf Qf Df b h w c) ->
  (forall b h w c, b < B * nh -> h < Ho -> w < Wo -> c < Ck -> o (ks + vs + pidx nh (Ho * Wo) Ck b (h * Wo + w) c) = GQ Ck Cv quad Np Kf Vf Qf Df b h w c) -> grads_ok o.
Proof using Hdiv.
  intros o H1 H2 H3. assert (EN := N_gather). unfold grads_ok, dK, dV, dQ. split; [|split].
  - apply (unpk_teq B nh Ck Hi Wi _ (fun b h w c => o (pidx nh (Hi * Wi) Ck b (h * Wi + w) c))); [reflexivity| |].
    + intros b h x d Hb Hh Hx Hd. now rewrite tensor_of_pidx.
    + intros b h w c Hb Hh Hw Hc. rewrite EN. now apply H1.
  - apply (unpk_teq B nh Cv Hi Wi _ (fun b h w c => o (ks + pidx nh (Hi * Wi) Cv b (h * Wi + w) c))); [reflexivity| |].
    + intros b h x d Hb Hh Hx Hd. now rewrite tensor_of_pidx.
    + intros b h w c Hb Hh Hw Hc. rewrite EN. now apply H2.
  - apply (unpk_teq B nh Ck Ho Wo _ (fun b h w c => o (ks + vs + pidx nh (Ho * Wo) Ck b (h * Wo + w) c))); [reflexivity| |].
    + intros b h x d Hb Hh Hx Hd. now rewrite tensor_of_pidx.
    + intros b h w c Hb Hh Hw Hc. rewrite EN. now apply H3.
Qed.

(** ** A launch, given how the threads share the channels *)
Lemma kernel_grads : forall (NW BY shared : nat) (regs : bool) (sc0 : nat) (segs l0 : list nat) (qs : nat) (cin cout zch : nat -> list nat) (body : nat -> nat -> nat -> nat -> list nat -> list gstep),
  let ph := old && (V =? 4) in let ds := list_sum l0 in let kch := fun t => atom_chans (32 * NW) V old nci (cin t) t in let vch := fun t => atom_chans (32 * NW) V old nco (cout t) t in
  let k := mkKernel (groups B nh Ho Wo BY) (32 * NW) shared insz (joined arr) (ks + vs + qz) (fun g => code_of (bwd_group BY nh Ho Wo row_idx (offsets 0 P) (columns P) body g)) in
  1 <= NW <= 32 -> 1 <= BY -> l0 = (if regs then [] else [Ck; Ck; Ck]) -> segs = l0 ++ [Cv; Ck] -> sc0 = list_sum segs -> qs = ds + Cv ->
  covers (32 * NW) Ck (chan_own (32 * NW) V) cin -> covers (32 * NW) Cv (chan_own (32 * NW) V) cout -> (forall t c, In c (cin t) -> In c (zch t)) ->
  list_sum segs <= shared -> (1 < NW -> list_sum segs + NW <= shared) ->
  (forall bh ho wo, bh < B * nh -> ho < Ho -> wo < Wo -> body (bh / nh) (bh - bh / nh * nh) ho wo (nth ho P []) =
     expand (32 * NW) sc0 (fbody B nh V nci nco Hi Wi Ho Wo P fmin (part arr 0) (part arr 1) (part arr 2) (part arr 3) (part arr 4) regs ph qs ds cin cout kch vch zch bh ho wo)) ->
  forall rg sh, settles k (start k rg sh (fun _ => 0%R)) grads_ok.
Proof.
  intros NW BY shared regs sc0 segs l0 qs cin cout zch body ph ds kch vch k HNW HBY El0 Esegs Esc Eqs Hcin Hcout Hz Hs1 Hs2 Hbody rg sh.
  assert (HP := gather_P V B nh nci nco Hi Wi Ho Wo kw vw qw quad P Hok Hdiv). assert (Hne := gather_ne V B nh nci nco Hi Wi Ho Wo kw vw qw quad P Hok Hdiv). assert (OK' := Hok). destruct OK' as [HB Hn HHi HHo HWi HWo Sk Sv Sq _ _ Hq _].
  assert (HV1 : 1 <= V) by lia. assert (HBD : 1 <= 32 * NW) by lia.
  set (own := own_vec (32 * NW) V segs).
  assert (Els : list_sum segs = ds + Cv + Ck) by (rewrite Esegs, list_sum_app; unfold ds; cbn; lia).
  assert (Hod : forall c, c < Cv -> own (ds + c) = chan_own (32 * NW) V c) by (intros c Hc; unfold own; rewrite Esegs; now apply own_vec_at).
  assert (Hoq : forall c, c < Ck -> own (qs + c) = chan_own (32 * NW) V c).
  { intros c Hc. unfold own. rewrite Esegs, Eqs. replace (l0 ++ [Cv; Ck]) with ((l0 ++ [Cv]) ++ Ck :: []) by (rewrite <- app_assoc; reflexivity). replace (ds + Cv + c) with (list_sum (l0 ++ [Cv]) + c) by (rewrite list_sum_app; cbn; unfold ds; lia). now apply own_vec_at. }
  assert (Hds : regs = false -> Ck + Ck + Ck <= ds) by (intros ->; unfold ds; rewrite El0; cbn; lia).
  assert (Ho0 : regs = false -> forall c, c < Ck -> own c = chan_own (32 * NW) V c /\ own (Ck + c) = chan_own (32 * NW) V c /\ own (Ck + Ck + c) = chan_own (32 * NW) V c).
  { intros -> c Hc. unfold own. rewrite Esegs, El0. cbn [app]. split; [|split].
    - exact (own_vec_at (32 * NW) V [] Ck [Ck; Ck; Cv; Ck] c Hc).
    - rewrite <- (own_vec_at (32 * NW) V [Ck] Ck [Ck; Cv; Ck] c Hc). f_equal. cbn. lia.
    - rewrite <- (own_vec_at (32 * NW) V [Ck; Ck] Ck [Cv; Ck] c Hc). f_equal. cbn. lia. }
  assert (Hkv : forall t c, t < 32 * NW -> In c (kch t) -> vis own (pub qs ds Ck) ph t (qs + c)).
  { intros t c Ht Hc. apply (atom_vis (32 * NW) V old HBD HV nci cin own _ t c (qs + c) Hcin Ht Hc). intros Hc'. split; [now apply Hoq|]. unfold pub. rewrite (proj2 (Nat.leb_le _ _)), (proj2 (Nat.ltb_lt _ _)) by lia. reflexivity. }
  assert (Hvv : forall t c, t < 32 * NW -> In c (vch t) -> vis own (pub qs ds Ck) ph t (ds + c)).
  { intros t c Ht Hc. apply (atom_vis (32 * NW) V old HBD HV nco cout own _ t c (ds + c) Hcout Ht Hc). intros Hc'. split; [now apply Hod|]. unfold pub. rewrite (proj2 (Nat.leb_le _ _)), (proj2 (Nat.ltb_lt _ _)) by lia. reflexivity. }
  assert (Hsc : forall a, sc0 <= a -> 32 * NW <= own a) by (intros a Ha; unfold own; rewrite own_vec_out; lia).
  assert (Oc := fun c => chan_own_lt (32 * NW) V c HBD). assert (Ao := atom_own_lt (32 * NW) V old HBD).
  assert (Hkc := atom_covers (32 * NW) V old HBD nci cin Hcin). assert (Hvc := atom_covers (32 * NW) V old HBD nco cout Hcout).
  eapply settles_impl; [apply (launch_trace B nh V nci nco Hi Wi Ho Wo BY NW P row_idx Kf Vf Qf Df quad fmin Hn HV1 HWi HWo HBY HNW HP Hperm Hq Hne k (part arr 0) (part arr 1) (part arr 2) (part arr 3) (part arr 4)) with (regs := regs) (ph := ph) (own := own) (oc := chan_own (32 * NW) V) (ok := atom_own (32 * NW) V old) (ov := atom_own (32 * NW) V old) (sc0 := sc0) (qs := qs) (ds := ds) (cin := cin) (cout := cout) (kch := kch) (vch := vch) (zch := zch) (body := body); auto; try reflexivity|].
  1-4: apply tensor_reads; auto; cbn; lia.
  - apply array_reads; [cbn; lia|reflexivity].
  - intros L. cbn [k k_shared]. specialize (Hs2 L). lia.
  - cbn [k k_shared]. lia.
  - intros o ->. apply found_grads; intros b h w c Hb Hh Hw Hc.
    + eapply eq_trans; [eapply dk_found with (k := k) (regs := regs) (sc0 := sc0) (qs := qs) (ds := ds) (ok := atom_own (32 * NW) V old) (ov := atom_own (32 * NW) V old); auto; try reflexivity; cbn [k k_shared]; intros; lia|apply Rplus_0_l].
    + eapply eq_trans; [eapply dv_found with (k := k) (regs := regs) (sc0 := sc0) (qs := qs) (ds := ds) (ok := atom_own (32 * NW) V old) (ov := atom_own (32 * NW) V old); auto; try reflexivity; cbn [k k_shared]; intros; lia|apply Rplus_0_l].
    + eapply dq_found with (k := k) (regs := regs) (sc0 := sc0) (qs := qs) (ds := ds) (ok := atom_own (32 * NW) V old) (ov := atom_own (32 * NW) V old) (oc := chan_own (32 * NW) V); auto; try reflexivity; cbn [k k_shared]; intros; lia.
Qed.

(** ** The special kernel *)
Notation dk := (0, ks). Notation dv := (ks, vs). Notation dq := (ks + vs, qz).
Lemma expand_share : forall BD sc0, expand BD sc0 (if old && (V =? 4) then [FShare] else []) = share V old.
Proof. intros. unfold share. destruct (old && (V =? 4)); reflexivity. Qed.
Lemma flat_ext : forall X Y (f g : X -> list Y) l, (forall x, f x = g x) -> flat_map f l = flat_map g l.
Proof. intros X Y f g l H. induction l as [|x l IH]; [reflexivity|]. cbn [flat_map]. now rewrite H, IH. Qed.
Section Special.
Variables (NW nloc BY shared : nat) (as_in : bool).
Notation BD := (32 * NW).
Notation cin := (bin_chans BD V nloc nci). Notation cout := (bout_chans BD V nloc nco as_in).
Lemma spc_eq : forall bh ho wo row, row = nth ho P [] ->
  spc_body BD V nloc nh nci nco Hi Wi Ho Wo as_in old fmin (part arr 0) (part arr 1) (part arr 2) (part arr 3) (part arr 4) dk dv dq (bh / nh) (bh - bh / nh * nh) ho wo row =
  expand BD (V * (nci + nco)) (fbody B nh V nci nco Hi Wi Ho Wo P fmin (part arr 0) (part arr 1) (part arr 2) (part arr 3) (part arr 4) true (old && (V =? 4)) Cv 0 cin cout
    (fun t => atom_chans BD V old nci (cin t) t) (fun t => atom_chans BD V old nco (cout t) t) (fun t => floats V (all_chans BD nloc t)) bh ho wo).
Proof using Type.
  intros bh ho wo row ->. unfold spc_body, fbody, f_body. cbv zeta. rewrite !expand_app, !expand_flat, expand_share.
  f_equal; [cbn [expand flat_map expand1 app]; f_equal; f_equal; apply functional_extensionality; intros t; unfold f_init; rewrite <- app_assoc; reflexivity|]. f_equal. f_equal. f_equal; [|f_equal].
  - apply flat_ext. intros x. unfold spc_entry, f_dots, kbase, vbase. destruct (in_point Wi Wo wo x) as [hi wip] eqn:E. cbv zeta. cbn [fst snd]. rewrite expand_app. unfold both_dots, f_stats, f_acc. rewrite E. cbn [expand flat_map expand1 app fst snd]. rewrite <- !app_assoc. reflexivity.
  - apply flat_ext. intros x. unfold second_entry, f_dots, kbase, vbase. destruct (in_point Wi Wo wo x) as [hi wip] eqn:E. cbv zeta. cbn [fst snd]. rewrite expand_app. unfold both_dots, add_grads, f_grads. rewrite E. cbn [expand flat_map expand1 app fst snd]. rewrite <- !app_assoc. reflexivity.
Qed.
Theorem special_grads : forall rg sh, 1 <= NW <= 32 -> 1 <= nloc -> (nloc - 1) * BD <= nci <= nloc * BD -> (as_in = true -> (nloc - 1) * BD <= nco <= nloc * BD) -> 1 <= BY -> V * (nci + nco) <= shared -> (1 < NW -> V * (nci + nco) + NW <= shared) ->
  let k := mkKernel (groups B nh Ho Wo BY) BD shared insz (joined arr) (ks + vs + qz) (fun g => code_of (bwd_group BY nh Ho Wo row_idx (offsets 0 P) (columns P)
    (spc_body BD V nloc nh nci nco Hi Wi Ho Wo as_in old fmin (part arr 0) (part arr 1) (part arr 2) (part arr 3) (part arr 4) dk dv dq) g)) in
  settles k (start k rg sh (fun _ => 0%R)) grads_ok.
Proof using HV Hok Sd Hdiv Hperm.
  intros rg sh HNW Hl Hin Hout HBY Hs1 Hs2 k. assert (HV1 : 1 <= V) by (destruct HV; lia). assert (HBD : 1 <= BD) by lia.
  apply (kernel_grads NW BY shared true (V * (nci + nco)) [Cv; Ck] [] Cv cin cout (fun t => floats V (all_chans BD nloc t))); auto.
  - cbn. lia.
  - apply floats_covers; [assumption|]. now apply unrolled_covers.
  - unfold bout_chans. destruct as_in; (apply floats_covers; [assumption|]); [apply unrolled_covers; auto|now apply loop_covers].
  - intros t c Hc. unfold bin_chans in Hc. apply floats_in in Hc; [|assumption]. apply floats_in; [assumption|]. now apply unrolled_all in Hc.
  - cbn. lia.
  - intros G. specialize (Hs2 G). cbn. lia.
  - intros bh ho wo _ _ _. now apply spc_eq.
Qed.
End Special.

(** ** The generic kernel *)
Lemma gen_eq : forall bh ho wo row, row = nth ho P [] ->
  gen_body 32 V nh nci nco Hi Wi Ho Wo old fmin (part arr 0) (part arr 1) (part arr 2) (part arr 3) (part arr 4) dk dv dq (bh / nh) (bh - bh / nh * nh) ho wo row =
  expand (32 * 1) (V * (4 * nci + nco)) (fbody B nh V nci nco Hi Wi Ho Wo P fmin (part arr 0) (part arr 1) (part arr 2) (part arr 3) (part arr 4) false (old && (V =? 4)) (s_qy V nci nco) (s_dy V nci) (bgin_chans V nci) (bgout_chans V nco)
    (fun t => atom_chans (32 * 1) V old nci (bgin_chans V nci t) t) (fun t => atom_chans (32 * 1) V old nco (bgout_chans V nco t) t) (bgin_chans V nci) bh ho wo).
Proof using Type.
  intros bh ho wo row ->. unfold gen_body, fbody, f_body. cbv zeta. change (32 * 1) with 32. rewrite !expand_app, !expand_flat, expand_share.
  do 3 (refine (f_equal2 (@app gstep) _ _); [reflexivity|]). refine (f_equal2 (@app gstep) _ _); [|refine (f_equal2 (@app gstep) _ _); [reflexivity|]].
  - apply flat_ext. intros x. unfold gen_entry, f_dots, kbase, vbase. destruct (in_point Wi Wo wo x) as [hi wip] eqn:E. cbv zeta. cbn [fst snd]. rewrite expand_app. unfold both_dots, f_stats, f_acc. rewrite E. cbn [expand flat_map expand1 app fst snd]. rewrite <- !app_assoc. reflexivity.
  - apply flat_ext. intros x. unfold second_entry, f_dots, kbase, vbase. destruct (in_point Wi Wo wo x) as [hi wip] eqn:E. cbv zeta. cbn [fst snd]. rewrite expand_app. unfold both_dots, add_grads, f_grads. rewrite E. cbn [expand flat_map expand1 app fst snd]. rewrite <- !app_assoc. reflexivity.
Qed.
Theorem generic_grads : forall BY shared rg sh, 1 <= BY -> V * (4 * nci + nco) <= shared ->
  let k := mkKernel (groups B nh Ho Wo BY) 32 shared insz (joined arr) (ks + vs + qz) (fun g => code_of (bwd_group BY nh Ho Wo row_idx (offsets 0 P) (columns P)
    (gen_body 32 V nh nci nco Hi Wi Ho Wo old fmin (part arr 0) (part arr 1) (part arr 2) (part arr 3) (part arr 4) dk dv dq) g)) in
  settles k (start k rg sh (fun _ => 0%R)) grads_ok.
Proof using HV Hok Sd Hdiv Hperm.
  intros BY shared rg sh HBY Hs1 k. assert (HV1 : 1 <= V) by (destruct HV; lia).
  apply (kernel_grads 1 BY shared false (V * (4 * nci + nco)) [Ck; Ck; Ck; Cv; Ck] [Ck; Ck; Ck] (s_qy V nci nco) (bgin_chans V nci) (bgout_chans V nco) (bgin_chans V nci)); auto.
  - lia.
  - cbn. lia.
  - unfold s_qy. cbn. lia.
  - apply floats_covers; [assumption|]. apply loop_covers; lia.
  - apply floats_covers; [assumption|]. apply loop_covers; lia.
  - cbn. lia.
  - lia.
  - intros bh ho wo _ _ _. rewrite gen_eq by reflexivity. repeat f_equal. unfold s_dy. cbn. lia.
Qed.
End Kernels.
