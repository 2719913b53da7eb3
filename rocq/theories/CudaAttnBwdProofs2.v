(** The CUDA kernels of the attention backward pass: a launch. *)
From Coq Require Import List Arith Lia Bool Reals Lra Permutation FunctionalExtensionality.
From Verif Require Import TensorModel TensorProofs BigSum DiscoModel DiscoSortProofs AttnModel AttnCoreProofs AttnKernelProofs AttnUpProofs AttnGradProofs AttnBwdProofs AttnOpProofs AttnOpValProofs GpuModel GpuSpec GpuProofs GpuProofs2 WarpProofs CudaDiscoModel CudaWarpModel WarpSumProofs CudaFwdProofs CudaAttnModel CudaAttnUpModel CudaAttnBwdModel CudaAttnProofs CudaAttnLaneProofs CudaAttnFwdProofs CudaAttnFwdProofs2 WarpKernelProofs CudaKeyProofs CudaLoopProofs CudaAttnUpProofs CudaAttnUpProofs2 CudaAttnUpProofs4 CudaAttnBwdProofs.
From Verif Require Import AttnSpec.
Import ListNotations.
Local Open Scope nat_scope.
Notation upd := (nat * uop * R)%type (only parsing).

Lemma base_pidx : forall V nh nc H W bh h w c, 1 <= nh -> at_point V (nh * nc) nc H W (bh / nh) (bh - bh / nh * nh) h w + c = pidx nh (H * W) (V * nc) bh (h * W + w) c.
Proof. intros. rewrite point_addr, sub_mod by assumption. rewrite pidx_flat; [reflexivity|assumption|]. apply Nat.mod_upper_bound. lia. Qed.
Lemma base_cell : forall V nh nc H W bh h w, 1 <= nh -> at_point V (nh * nc) nc H W (bh / nh) (bh - bh / nh * nh) h w = cell_at (nh * (V * nc)) (V * nc) H W (bh / nh) (bh - bh / nh * nh) (h * W + w).
Proof. intros. assert (A := base_pidx V nh nc H W bh h w 0 H0). assert (Q := cell_at_pidx nh (V * nc) H W bh (h * W + w) 0 H0). lia. Qed.

(** ** The groups *)
Section Keys.
Variables (B nh Ho Wo BY : nat) (row_idx : list nat).
Hypotheses (HBY : 1 <= BY) (Hperm : Permutation row_idx (seq 0 Ho)).
Notation gw := (div_up (Ho * Wo) BY * BY).
Definition bkey (g : nat) : option (nat * nat) := if Ho * Wo <=? g mod gw then None else Some (g / gw, g_ho Ho Wo BY row_idx g * Wo + g_wo Ho Wo BY g).
Lemma bkey_keyed : keyed (groups B nh Ho Wo BY) (B * nh) (Ho * Wo) bkey.
Proof.
  unfold bkey. constructor.
  - intros g b c Hg. destruct (Nat.leb_spec (Ho * Wo) (g mod gw)) as [Q|Q]; [discriminate|]. intros [= <- <-]. destruct (group_ok B nh Ho Wo BY row_idx HBY Hperm g Hg Q) as (_ & _ & L3 & L4 & _). split; [|now apply cell_lt].
    assert (Hgw : gw <> 0) by (intros E0; unfold groups in Hg; rewrite E0, Nat.mul_0_r in Hg; lia). apply Nat.div_lt_upper_bound; [exact Hgw|]. rewrite (Nat.mul_comm gw). exact Hg.
  - intros g g' [b c] Hg Hg'. destruct (Nat.leb_spec (Ho * Wo) (g mod gw)) as [Q|Q]; [discriminate|]. destruct (Nat.leb_spec (Ho * Wo) (g' mod gw)) as [Q'|Q']; [discriminate|]. intros [= E1 E2] [= E3 E4].
    destruct (group_ok B nh Ho Wo BY row_idx HBY Hperm g Hg Q) as (_ & _ & L3 & L4 & _). destruct (group_ok B nh Ho Wo BY row_idx HBY Hperm g' Hg' Q') as (_ & _ & L3' & L4' & _).
    destruct (cell_split Wo (g_ho Ho Wo BY row_idx g) _ L4) as [S1 S2]. destruct (cell_split Wo (g_ho Ho Wo BY row_idx g') _ L4') as [S3 S4]. rewrite E2 in S1, S2. rewrite E4 in S3, S4.
    apply (group_inj B nh Ho Wo BY row_idx HBY Hperm); auto; unfold g_b, g_hd; congruence.
  - intros b c Hb Hc. assert (Hnh : 1 <= nh) by (destruct nh; [rewrite Nat.mul_0_r in Hb; lia|lia]). assert (HWo : 1 <= Wo) by (destruct Wo; [rewrite Nat.mul_0_r in Hc; lia|lia]).
    destruct (unfold_idx nh B b Hnh Hb) as (L1 & L2 & L3). assert (L4 : c / Wo < Ho) by (apply Nat.div_lt_upper_bound; [lia|rewrite Nat.mul_comm; exact Hc]). assert (L5 := Nat.mod_upper_bound c Wo ltac:(lia)).
    destruct (group_at B nh Ho Wo BY row_idx HBY Hperm (b / nh) (b mod nh) (c / Wo) (c mod Wo) L1 L2 L4 L5) as (g & Hg & Ha & E1 & E2 & E3 & E4). exists g. split; [exact Hg|]. unfold active in Ha. rewrite (proj2 (Nat.leb_gt _ _) Ha), E3, E4. f_equal. f_equal.
    + unfold g_b, g_hd in *. rewrite sub_mod in E2 by exact Hnh. rewrite (Nat.div_mod (g / gw) nh ltac:(lia)), (Nat.div_mod b nh ltac:(lia)). congruence.
    + rewrite Nat.mul_comm. symmetry. apply Nat.div_mod. lia.
Qed.
End Keys.

Section Launch.
Variables (B nh V nci nco Hi Wi Ho Wo BY NW : nat) (P : pattern) (row_idx : list nat) (Kf Vf Qf Df : fld) (quad : nat -> R) (fmin : R).
Notation Ck := (V * nci). Notation Cv := (V * nco). Notation BD := (32 * NW). Notation BH := (B * nh).
Notation ks := (B * Hi * Wi * (nh * Ck)). Notation vs := (B * Hi * Wi * (nh * Cv)). Notation qz := (B * Ho * Wo * (nh * Ck)).
Notation dk := (0, ks). Notation dv := (ks, vs). Notation dq := (ks + vs, qz).
Hypotheses (Hnh : 1 <= nh) (HV : 1 <= V) (HWi : 1 <= Wi) (HWo : 1 <= Wo) (HBY : 1 <= BY) (HNW : 1 <= NW <= 32) (HP : pattern_ok P Ho (Hi * Wi)) (Hperm : Permutation row_idx (seq 0 Ho)).
Hypotheses (Hquad : forall h, h < Hi -> (0 < quad h)%R) (Hne : forall ho wo, ho < Ho -> wo < Wo -> nbrs_gather P Wi Wo ho wo <> []).
Variables (k : kernel) (pk pv pq pdy pw : nat * nat).
Notation inp := (k_in k). Notation N := (k_insize k).
Hypotheses (HK : cells_read B nh inp N pk Ck Hi Wi Kf) (HVf : cells_read B nh inp N pv Cv Hi Wi Vf) (HQ : cells_read B nh inp N pq Ck Ho Wo Qf) (HD : cells_read B nh inp N pdy Cv Ho Wo Df) (HW : reads inp N pw 0 Hi quad).
Variables (regs ph : bool) (own oc ok ov : nat -> nat) (sc0 qs ds : nat) (cin cout kch vch zch : nat -> list nat) (body : nat -> nat -> nat -> nat -> list nat -> list gstep).
Hypotheses (Hqs : qs = ds + Cv) (Hds : regs = false -> Ck + Ck + Ck <= ds).
Hypotheses (Hcin : covers BD Ck oc cin) (Hcout : covers BD Cv oc cout) (Hoc : forall c, oc c < BD) (Hz : forall t c, In c (cin t) -> In c (zch t)).
Hypotheses (Hkch : covers BD Ck ok kch) (Hvch : covers BD Cv ov vch) (Hok : forall c, ok c < BD) (Hov : forall c, ov c < BD).
Hypotheses (Hoq : forall c, c < Ck -> own (qs + c) = oc c) (Hod : forall c, c < Cv -> own (ds + c) = oc c).
Hypotheses (Ho0 : regs = false -> forall c, c < Ck -> own c = oc c /\ own (Ck + c) = oc c /\ own (Ck + Ck + c) = oc c).
Hypotheses (Hkv : forall t c, t < BD -> In c (kch t) -> vis own (pub qs ds Ck) ph t (qs + c)) (Hvv : forall t c, t < BD -> In c (vch t) -> vis own (pub qs ds Ck) ph t (ds + c)).
Hypotheses (Hsc : forall a, sc0 <= a -> BD <= own a) (Hsc2 : 1 < NW -> sc0 + NW <= k_shared k) (Hshm : qs + Ck <= k_shared k).
Hypotheses (Eg : k_groups k = B * nh * (div_up (Ho * Wo) BY * BY)) (Et : k_threads k = BD) (Eo : k_outsize k = ks + vs + qz).
Notation ib ho wo x := (fst (in_point Wi Wo wo x)). Notation iw ho wo x := (snd (in_point Wi Wo wo x)).
Definition kbase (bh wo x : nat) : nat := at_point V (ldi nh nci) nci Hi Wi (bh / nh) (bh - bh / nh * nh) (fst (in_point Wi Wo wo x)) (snd (in_point Wi Wo wo x)).
Definition vbase (bh wo x : nat) : nat := at_point V (ldo nh nco) nco Hi Wi (bh / nh) (bh - bh / nh * nh) (fst (in_point Wi Wo wo x)) (snd (in_point Wi Wo wo x)).
Definition qbase (bh ho wo : nat) : nat := at_point V (ldi nh nci) nci Ho Wo (bh / nh) (bh - bh / nh * nh) ho wo.
Definition dbase (bh ho wo : nat) : nat := at_point V (ldo nh nco) nco Ho Wo (bh / nh) (bh - bh / nh * nh) ho wo.
Definition fbody (bh ho wo : nat) : list fstep :=
  f_body regs ph qs ds Ck cin cout kch vch zch pk pv pq pdy pw dk dv dq fmin (qbase bh ho wo) (dbase bh ho wo) (nth ho P []) (fun x => fst (in_point Wi Wo wo x)) (kbase bh wo) (vbase bh wo).
Hypothesis (Hbody : forall bh ho wo, bh < BH -> ho < Ho -> wo < Wo -> body (bh / nh) (bh - bh / nh * nh) ho wo (nth ho P []) = expand BD sc0 (fbody bh ho wo)).
Hypothesis (Hcode : forall g t, g < k_groups k -> t < k_threads k -> k_code k g t = code_of (bwd_group BY nh Ho Wo row_idx (offsets 0 P) (columns P) body g) t).

Notation Np := (nbrs_gather P Wi Wo).
Notation Kx bh wo := (fun x => Kf bh (fst (in_point Wi Wo wo x)) (snd (in_point Wi Wo wo x))). Notation Vx bh wo := (fun x => Vf bh (fst (in_point Wi Wo wo x)) (snd (in_point Wi Wo wo x))).
Definition dqT (bh ho wo : nat) : list upd := dq_trace BD Ck Cv cin dq (qbase bh ho wo) (nth ho P []) (fun x => fst (in_point Wi Wo wo x)) (Kx bh wo) (Vx bh wo) (Qf bh ho wo) (Df bh ho wo) quad.
Definition kvT (bh ho wo x : nat) : list upd := kv_trace BD Ck Cv kch vch dk dv (nth ho P []) (fun x => fst (in_point Wi Wo wo x)) (kbase bh wo) (vbase bh wo) (Kx bh wo) (Vx bh wo) (Qf bh ho wo) (Df bh ho wo) quad x.
Definition cellT (bh cell : nat) : list upd := let ho := cell / Wo in let wo := cell - cell / Wo * Wo in dqT bh ho wo ++ flat_map (kvT bh ho wo) (nth ho P []).

Lemma at_cell : forall p nc H W F bh h w, cells_read B nh inp N p (V * nc) H W F -> bh < BH -> h < H -> w < W -> reads inp N p (at_point V (nh * nc) nc H W (bh / nh) (bh - bh / nh * nh) h w) (V * nc) (F bh h w).
Proof. intros p nc H W F bh h w HR Hb Hh Hw. rewrite base_cell by exact Hnh. now apply HR. Qed.
Lemma ip : forall ho wo x, In x (nth ho P []) -> fst (in_point Wi Wo wo x) < Hi /\ snd (in_point Wi Wo wo x) < Wi.
Proof. intros ho wo x Hx. exact (in_point_ok V Hi Wi Ho Wo P HV HWi HWo HP ho wo x Hx). Qed.
Lemma row_ne : forall ho wo, ho < Ho -> wo < Wo -> nth ho P [] <> [].
Proof. intros ho wo Hh Hw E0. apply (Hne ho wo Hh Hw). change (pts Wi Wo P ho wo = []). rewrite pts_eq by exact HWi. now rewrite E0. Qed.
Lemma wq_pos : forall ho wo x, In x (nth ho P []) -> (0 < wq (fun x => fst (in_point Wi Wo wo x)) quad x)%R.
Proof. intros ho wo x Hx. apply Hquad. now apply (ip ho wo x Hx). Qed.
Lemma kb_pidx : forall bh wo x c, kbase bh wo x + c = pidx nh (Hi * Wi) Ck bh (fst (in_point Wi Wo wo x) * Wi + snd (in_point Wi Wo wo x)) c.
Proof. intros. apply base_pidx. exact Hnh. Qed.
Lemma vb_pidx : forall bh wo x c, vbase bh wo x + c = pidx nh (Hi * Wi) Cv bh (fst (in_point Wi Wo wo x) * Wi + snd (in_point Wi Wo wo x)) c.
Proof. intros. apply base_pidx. exact Hnh. Qed.
Lemma qb_pidx : forall bh ho wo c, qbase bh ho wo + c = pidx nh (Ho * Wo) Ck bh (ho * Wo + wo) c.
Proof. intros. apply base_pidx. exact Hnh. Qed.
Lemma pidx_lt3 : forall H W n b h w c, b < BH -> h < H -> w < W -> c < n -> pidx nh (H * W) n b (h * W + w) c < B * H * W * (nh * n).
Proof. intros H W n b h w c Hb Hh Hw Hc. replace (B * H * W) with (B * (H * W)) by ring. apply pidx_lt; auto. now apply cell_lt. Qed.

Definition qholds (a : nat) (gt : nat * nat) : Prop := wholds (groups B nh Ho Wo BY) 1 (bkey Ho Wo BY row_idx) (fun _ => Ck) oc (fun _ b c x => ks + vs + pidx nh (Ho * Wo) Ck b c x) a gt.
Definition kinds (a : nat) : option aop := if a <? ks + vs then Some AAdd else None.
Lemma q_inj : forall i b c x i' b' c' x', i < 1 -> b < BH -> c < Ho * Wo -> x < Ck -> i' < 1 -> b' < BH -> c' < Ho * Wo -> x' < Ck -> ks + vs + pidx nh (Ho * Wo) Ck b c x = ks + vs + pidx nh (Ho * Wo) Ck b' c' x' -> i = i' /\ b = b' /\ c = c' /\ x = x'.
Proof. intros i b c x i' b' c' x' H1 _ H3 H4 H5 _ H7 H8 E0. split; [lia|]. apply (pidx_inj nh (Ho * Wo) Ck); auto. lia. Qed.
Lemma cell_parts : forall c, c < Ho * Wo -> c / Wo < Ho /\ c - c / Wo * Wo < Wo /\ c / Wo * Wo + (c - c / Wo * Wo) = c.
Proof. intros c Hc. split; [apply Nat.div_lt_upper_bound; [lia|rewrite Nat.mul_comm; exact Hc]|]. rewrite sub_mod by exact HWo. split; [apply Nat.mod_upper_bound; lia|]. rewrite Nat.mul_comm. symmetry. apply Nat.div_mod. lia. Qed.

Theorem launch_trace : forall rg sh out, settles k (start k rg sh out) (fun o => o = upds (flat_map (at_key (bkey Ho Wo BY row_idx) cellT) (seq 0 (groups B nh Ho Wo BY))) out).
Proof.
  intros rg sh out. change (groups B nh Ho Wo BY) with (B * nh * (div_up (Ho * Wo) BY * BY)). rewrite <- Eg.
  assert (KY := bkey_keyed B nh Ho Wo BY row_idx HBY Hperm).
  assert (Bd : 1 <= BD) by lia.
  apply (fsteps_settle k NW sc0 own (pub qs ds Ck) kinds qholds HNW Et Hsc2 Hsc) with (prog := at_key (bkey Ho Wo BY row_idx) (fun bh cell => fbody bh (cell / Wo) (cell - cell / Wo * Wo))).
  - intros a Ha. unfold pub in Ha. apply andb_prop in Ha. destruct Ha as [A1 A2]. apply Nat.leb_le in A1. apply Nat.ltb_lt in A2. destruct (Nat.lt_ge_cases a qs) as [L|L].
    + replace a with (ds + (a - ds)) by lia. rewrite Hod by lia. apply Hoc.
    + replace a with (qs + (a - qs)) by lia. rewrite Hoq by lia. apply Hoc.
  - intros g t Hg Ht. rewrite Hcode by auto. f_equal. rewrite Eg in Hg. unfold bwd_group, at_key, bkey. cbv zeta. destruct (Nat.leb_spec (Ho * Wo) (g mod (div_up (Ho * Wo) BY * BY))) as [Q|Q]; [reflexivity|].
    destruct (group_ok B nh Ho Wo BY row_idx HBY Hperm g Hg Q) as (_ & _ & L3 & L4 & L5 & _). unfold g_h in L5. rewrite L5. rewrite (row_of_spec P Ho (Hi * Wi) _ HP L3). destruct (cell_split Wo (g_ho Ho Wo BY row_idx g) _ L4) as [S1 S2]. rewrite S2, S1.
    change (g mod (div_up (Ho * Wo) BY * BY) - g mod (div_up (Ho * Wo) BY * BY) / Wo * Wo) with (g_wo Ho Wo BY g). apply Hbody; auto. assert (Hgw : div_up (Ho * Wo) BY * BY <> 0) by (intros E0; rewrite E0, Nat.mul_0_r in Hg; lia). apply Nat.div_lt_upper_bound; [exact Hgw|]. rewrite (Nat.mul_comm (div_up _ _ * _)). exact Hg.
  - intros g Hg. unfold at_key. destruct (bkey Ho Wo BY row_idx g) as [[bh c]|] eqn:Ek; [|exact I]. rewrite Eg in Hg. destruct (ky_in _ _ _ _ KY g bh c Hg Ek) as [Hb Hc]. destruct (cell_parts c Hc) as (L1 & L2 & L3). set (ho := c / Wo) in *. set (wo := c - ho * Wo) in *.
    apply (body_good inp N BD regs ph own oc ok ov qs ds Ck Cv Hi cin cout kch vch zch pk pv pq pdy pw dk dv dq fmin (qbase bh ho wo) (dbase bh ho wo) (nth ho P []) _ (kbase bh wo) (vbase bh wo) (Kx bh wo) (Vx bh wo) (Qf bh ho wo) (Df bh ho wo) quad); auto.
    + now apply at_cell.
    + now apply at_cell.
    + intros x Hx. destruct (ip ho wo x Hx). now apply at_cell.
    + intros x Hx. destruct (ip ho wo x Hx). now apply at_cell.
    + intros x Hx. now apply (ip ho wo x Hx).
    + intros x y Hx Hy. destruct (ip ho wo x Hx). rewrite kb_pidx. cbn [snd]. now apply pidx_lt3.
    + intros x y Hx Hy. destruct (ip ho wo x Hx). rewrite vb_pidx. cbn [snd]. now apply pidx_lt3.
    + intros y Hy. rewrite qb_pidx. cbn [snd]. now apply pidx_lt3.
    + intros x y Hx Hy. destruct (ip ho wo x Hx) as [I1 I2]. rewrite kb_pidx. assert (L := pidx_lt3 Hi Wi Ck bh _ _ y Hb I1 I2 Hy). cbn [fst plus]. rewrite Eo. split; [lia|]. unfold kinds. rewrite (proj2 (Nat.ltb_lt _ _)) by lia. reflexivity.
    + intros x y Hx Hy. destruct (ip ho wo x Hx) as [I1 I2]. rewrite vb_pidx. assert (L := pidx_lt3 Hi Wi Cv bh _ _ y Hb I1 I2 Hy). cbn [fst plus]. rewrite Eo. split; [lia|]. unfold kinds. rewrite (proj2 (Nat.ltb_lt _ _)) by lia. reflexivity.
    + intros y Hy. rewrite qb_pidx, L3. assert (L := pidx_lt3 Ho Wo Ck bh ho wo y Hb L1 L2 Hy). rewrite L3 in L. cbn [fst]. rewrite Eo. split; [lia|]. split; [unfold kinds; rewrite (proj2 (Nat.ltb_ge _ _)) by lia; reflexivity|].
      apply (wholds_at (groups B nh Ho Wo BY) 1 (bkey Ho Wo BY row_idx) (fun _ => Ck) oc (fun _ b c x => ks + vs + pidx nh (Ho * Wo) Ck b c x) g (oc y) bh c 0 y); auto.
  - intros a gt gt'. apply (wholds_one (groups B nh Ho Wo BY) BH (Ho * Wo) 1 (bkey Ho Wo BY row_idx) (fun _ => Ck) oc _ KY q_inj).
  - intros g st Hg. unfold at_key. destruct (bkey Ho Wo BY row_idx g) as [[bh c]|] eqn:Ek; [|reflexivity]. rewrite Eg in Hg. destruct (ky_in _ _ _ _ KY g bh c Hg Ek) as [Hb Hc]. destruct (cell_parts c Hc) as (L1 & L2 & L3). unfold cellT, dqT, kvT, fbody. cbv zeta. set (ho := c / Wo) in *. set (wo := c - ho * Wo) in *.
    apply (body_trace inp N BD regs ph own oc ok ov qs ds Ck Cv Hi cin cout kch vch zch pk pv pq pdy pw dk dv dq fmin (qbase bh ho wo) (dbase bh ho wo) (nth ho P []) (fun x => fst (in_point Wi Wo wo x)) (kbase bh wo) (vbase bh wo) (Kx bh wo) (Vx bh wo) (Qf bh ho wo) (Df bh ho wo) quad); auto.
    + now apply at_cell.
    + now apply at_cell.
    + intros x Hx. destruct (ip ho wo x Hx). now apply at_cell.
    + intros x Hx. destruct (ip ho wo x Hx). now apply at_cell.
    + intros x Hx. now apply (ip ho wo x Hx).
    + intros x y Hx Hy. destruct (ip ho wo x Hx). rewrite kb_pidx. cbn [snd]. now apply pidx_lt3.
    + intros x y Hx Hy. destruct (ip ho wo x Hx). rewrite vb_pidx. cbn [snd]. now apply pidx_lt3.
    + intros y Hy. rewrite qb_pidx. cbn [snd]. now apply pidx_lt3.
    + now apply (row_ne ho wo).
    + intros x Hx. now apply (wq_pos ho wo x).
Qed.

(** ** What is found afterwards *)
Notation gp := (g_prob Ck quad Np Kf Qf). Notation gw := (g_wt Ck Cv quad Np Kf Vf Qf Df).
Notation scx bh ho wo := (CudaAttnBwdProofs.sc Ck (Kx bh wo) (Qf bh ho wo)). Notation wx wo := (wq (fun x => fst (in_point Wi Wo wo x)) quad).
Lemma np_eq : forall ho wo, Np ho wo = map (in_point Wi Wo wo) (nth ho P []).
Proof. intros. exact (pts_eq Wi Wo P HWi ho wo). Qed.
Lemma sc_score : forall bh ho wo x, scx bh ho wo x = AttnSpec.score Ck (Kf bh) (Qf bh) ho wo (in_point Wi Wo wo x).
Proof. intros. unfold CudaAttnBwdProofs.sc, AttnSpec.score. apply bsum_ext. intros c _. ring. Qed.
Lemma prb_gp : forall bh ho wo x, prb (scx bh ho wo) (wx wo) (nth ho P []) x = gp bh ho wo (in_point Wi Wo wo x).
Proof.
  intros bh ho wo x. unfold prb, g_prob, g_den, softmax_den. rewrite np_eq, lsum_map. rewrite sc_score. unfold wq.
  assert (EE : rlsum (fun y => exp (scx bh ho wo y) * quad (fst (in_point Wi Wo wo y)))%R (nth ho P []) = rlsum (fun y => quad (fst (in_point Wi Wo wo y)) * exp (AttnSpec.score Ck (Kf bh) (Qf bh) ho wo (in_point Wi Wo wo y)))%R (nth ho P [])) by (apply rlsum_ext; intros y _; rewrite sc_score; ring).
  rewrite EE. unfold Rdiv. ring.
Qed.
Lemma gv_dot : forall bh ho wo x, gv Cv (Vx bh wo) (Df bh ho wo) x = g_dot Cv Vf Df bh ho wo (in_point Wi Wo wo x).
Proof. reflexivity. Qed.
Lemma avg_bar : forall bh ho wo, avg (scx bh ho wo) (wx wo) (gv Cv (Vx bh wo) (Df bh ho wo)) (nth ho P []) = g_bar Ck Cv quad Np Kf Vf Qf Df bh ho wo.
Proof. intros. unfold avg, g_bar. rewrite np_eq, lsum_map. apply lsum_ext. intros x _. now rewrite prb_gp, gv_dot. Qed.

Lemma cellT_dq : forall bh cell u, In u (dqT bh (cell / Wo) (cell - cell / Wo * Wo)) -> bh < BH -> cell < Ho * Wo -> exists t x, t < BD /\ In x (cin t) /\ u = (ks + vs + pidx nh (Ho * Wo) Ck bh cell x, USet, GQ Ck Cv quad Np Kf Vf Qf Df bh (cell / Wo) (cell - cell / Wo * Wo) x).
Proof.
  intros bh cell u Hu Hb Hc. unfold dqT, dq_trace in Hu. apply in_flat_map in Hu. destruct Hu as (t & Ht & Hu). apply in_seq in Ht. apply in_map_iff in Hu. destruct Hu as (x & <- & Hx). exists t, x. split; [lia|]. split; [exact Hx|]. destruct (cell_parts cell Hc) as (_ & _ & L3). rewrite qb_pidx, L3. cbn [fst]. f_equal.
  unfold DQ, GQ. rewrite np_eq, lsum_map. apply lsum_ext. intros y _. rewrite prb_gp, avg_bar, gv_dot. reflexivity.
Qed.
Lemma cellT_kv : forall bh cell u, In u (flat_map (kvT bh (cell / Wo) (cell - cell / Wo * Wo)) (nth (cell / Wo) P [])) -> bh < BH -> fst (fst u) < ks + vs /\ snd (fst u) = UAtom AAdd.
Proof.
  intros bh cell u Hu Hb. apply in_flat_map in Hu. destruct Hu as (x & Hx & Hu). destruct (ip (cell / Wo) (cell - cell / Wo * Wo) x Hx) as [I1 I2]. unfold kvT, kv_trace in Hu. apply in_flat_map in Hu. destruct Hu as (t & Ht & Hu). apply in_seq in Ht. apply in_app_iff in Hu. destruct Hu as [Hu|Hu]; apply in_map_iff in Hu; destruct Hu as (c & <- & Hc); cbn [fst snd plus].
  - apply (Hkch t) in Hc; [|lia]. rewrite kb_pidx. assert (L := pidx_lt3 Hi Wi Ck bh _ _ c Hb I1 I2 (proj1 Hc)). split; [lia|reflexivity].
  - apply (Hvch t) in Hc; [|lia]. rewrite vb_pidx. assert (L := pidx_lt3 Hi Wi Cv bh _ _ c Hb I1 I2 (proj1 Hc)). split; [lia|reflexivity].
Qed.
Notation total out := (upds (flat_map (at_key (bkey Ho Wo BY row_idx) cellT) (seq 0 (groups B nh Ho Wo BY))) out).
Lemma dq_found : forall out b ho wo c, b < BH -> ho < Ho -> wo < Wo -> c < Ck -> total out (ks + vs + pidx nh (Ho * Wo) Ck b (ho * Wo + wo) c) = GQ Ck Cv quad Np Kf Vf Qf Df b ho wo c.
Proof.
  intros out b ho wo c Hb Hh Hw Hc. assert (KY := bkey_keyed B nh Ho Wo BY row_idx HBY Hperm). assert (Lc := cell_lt Ho Wo ho wo Hh Hw).
  set (vl := fun (_ b cell x : nat) => GQ Ck Cv quad Np Kf Vf Qf Df b (cell / Wo) (cell - cell / Wo * Wo) x).
  assert (W : total out (ks + vs + pidx nh (Ho * Wo) Ck b (ho * Wo + wo) c) = vl 0 b (ho * Wo + wo) c).
  { apply (written (groups B nh Ho Wo BY) BH (Ho * Wo) BD 1 (bkey Ho Wo BY row_idx) (fun _ => Ck) oc (fun _ => cin) (fun _ b c x => ks + vs + pidx nh (Ho * Wo) Ck b c x) vl KY (fun _ _ => Hcin) (fun _ c _ _ => Hoc c) q_inj cellT out b (ho * Wo + wo) 0 c); auto.
    - intros b' c' u Hb' Hc' Hu. unfold cellT in Hu. apply in_app_iff in Hu. destruct Hu as [Hu|Hu].
      + left. destruct (cellT_dq b' c' u Hu Hb' Hc') as (t & x & Ht & Hx & ->). exists t. split; [exact Ht|]. exists 0, x. auto.
      + right. destruct (cellT_kv b' c' u Hu Hb') as [L _]. lia.
    - intros u Hu. unfold cellT. apply in_app_iff. left. unfold wtrace in Hu. apply in_flat_map in Hu. destruct Hu as (t & Ht & Hu). cbn [seq flat_map] in Hu. rewrite app_nil_r in Hu. apply in_map_iff in Hu. destruct Hu as (x & <- & Hx).
      unfold dqT, dq_trace. apply in_flat_map. exists t. split; [exact Ht|]. apply in_map_iff. exists x. split; [|exact Hx]. destruct (cell_parts _ Lc) as (_ & _ & L3). rewrite qb_pidx, L3. cbn [fst]. f_equal.
      unfold vl, DQ, GQ. rewrite np_eq, lsum_map. apply lsum_ext. intros y _. rewrite prb_gp, avg_bar, gv_dot. reflexivity. }
  rewrite W. unfold vl. destruct (cell_split Wo ho wo Hw) as [S1 S2]. now rewrite S2, S1.
Qed.
(** the sum of what is added at an address below the gradient of q *)
Lemma added : forall out a, a < ks + vs -> total out a = (out a + rsum BH (fun b => rsum Ho (fun ho => rsum Wo (fun wo => rlsum (fun x => hits a (kvT b ho wo x)) (nth ho P [])))))%R.
Proof.
  intros out a Ha. assert (KY := bkey_keyed B nh Ho Wo BY row_idx HBY Hperm). rewrite upds_add.
  - f_equal. rewrite (keyed_sum _ _ _ _ _ _ _ KY). apply bsum_ext. intros b Hb. rewrite (bsum_mul_range RT). apply bsum_ext. intros ho Hh. apply bsum_ext. intros wo Hw. fold (hits a (cellT b (ho * Wo + wo))). unfold cellT. destruct (cell_split Wo ho wo Hw) as [S1 S2]. cbv zeta. rewrite hits_app, hits_flat, S2, S1.
    replace (hits a (dqT b ho wo)) with 0%R; [ring|]. symmetry. unfold hits. apply rlsum_zero. intros u Hu. rewrite <- S2, <- S1 in Hu at 1. rewrite <- S1 in Hu at 1. 
    assert (Lc := cell_lt Ho Wo ho wo Hh Hw). assert (Hu' : In u (dqT b ((ho * Wo + wo) / Wo) (ho * Wo + wo - (ho * Wo + wo) / Wo * Wo))) by (rewrite S2, S1; rewrite ?S2, ?S1 in Hu; exact Hu).
    destruct (cellT_dq b _ u Hu' Hb Lc) as (t & x & _ & _ & ->). cbn [fst snd]. rewrite (proj2 (Nat.eqb_neq _ _)) by lia. reflexivity.
  - intros u Hu Ea. apply (in_at_key _ _ _ _ _ _ _ KY) in Hu. destruct Hu as (b & c & Hb & Hc & Hu). unfold cellT in Hu. apply in_app_iff in Hu. destruct Hu as [Hu|Hu]; [|now apply (cellT_kv b c u Hu Hb)].
    destruct (cellT_dq b c u Hu Hb Hc) as (t & x & _ & _ & ->). cbn [fst] in Ea. lia.
Qed.
Lemma pt_pidx : forall n b h w c b' p c', h < Hi -> w < Wi -> fst p < Hi -> snd p < Wi -> c < n -> c' < n -> 
  (pidx nh (Hi * Wi) n b' (fst p * Wi + snd p) c' =? pidx nh (Hi * Wi) n b (h * Wi + w) c) = (b' =? b) && pt_eqb (h, w) p && (c' =? c).
Proof.
  intros n b h w c b' [h' w'] c' H1 H2 H3 H4 H5 H6. cbn [fst snd] in *. destruct (Nat.eqb_spec (pidx nh (Hi * Wi) n b' (h' * Wi + w') c') (pidx nh (Hi * Wi) n b (h * Wi + w) c)) as [E0|E0].
  - apply pidx_inj in E0; auto using cell_lt. destruct E0 as (-> & E1 & ->). destruct (cell_split Wi h' w' H4) as [S1 S2]. destruct (cell_split Wi h w H2) as [S3 S4]. rewrite E1 in S1, S2. assert (Ep : (h, w) = (h', w')) by congruence. symmetry. apply andb_true_intro. split; [apply andb_true_intro; split; [apply Nat.eqb_refl|now apply AttnUpProofs.pt_eqb_iff]|apply Nat.eqb_refl].
  - symmetry. apply not_true_iff_false. intros Q. apply andb_prop in Q. destruct Q as [Q Q3]. apply andb_prop in Q. destruct Q as [Q1 Q2]. apply Nat.eqb_eq in Q1, Q3. apply AttnUpProofs.pt_eqb_iff in Q2. injection Q2 as -> ->. subst. now apply E0.
Qed.
Lemma one_chan : forall n (own' : nat -> nat) ch c (f : nat -> R), covers BD n own' ch -> (forall c, own' c < BD) -> c < n -> rlsum (fun t => rlsum (fun c' => if (c' =? c)%nat then f c' else 0)%R (ch t)) (seq 0 BD) = f c.
Proof. intros n own' ch c f Hcv Ho' Hc. rewrite (lanes_sum BD n own' ch _ Hcv (fun c _ => Ho' c)). rewrite (rsum_one n c f Hc). reflexivity. Qed.
Lemma hits_k : forall b h w c b' ho wo x, b < BH -> b' < BH -> h < Hi -> w < Wi -> c < Ck -> In x (nth ho P []) ->
  hits (pidx nh (Hi * Wi) Ck b (h * Wi + w) c) (kvT b' ho wo x) = (if (b' =? b)%nat then if pt_eqb (h, w) (in_point Wi Wo wo x) then Qf b' ho wo c * gw b' ho wo (in_point Wi Wo wo x) else 0 else 0)%R.
Proof.
  intros b h w c b' ho wo x Hb Hb' Hh Hw Hc Hx. destruct (ip ho wo x Hx) as [I1 I2]. unfold kvT, kv_trace. rewrite hits_flat.
  transitivity (rlsum (fun t => rlsum (fun c' => if (c' =? c)%nat then (if (b' =? b)%nat then if pt_eqb (h, w) (in_point Wi Wo wo x) then Qf b' ho wo c' * gw b' ho wo (in_point Wi Wo wo x) else 0 else 0) else 0)%R (kch t)) (seq 0 BD)).
  - apply lsum_ext. intros t Ht. apply in_seq in Ht. rewrite hits_app, !hits_map.
    rewrite (rlsum_zero _ _ (vch t)). 2:{ intros c' Hc'. apply (Hvch t) in Hc'; [|lia]. rewrite vb_pidx. cbn [fst]. assert (L := pidx_lt3 Hi Wi Ck b h w c Hb Hh Hw Hc). rewrite (proj2 (Nat.eqb_neq _ _)) by lia. reflexivity. }
    rewrite Rplus_0_r. apply lsum_ext. intros c' Hc'. apply (Hkch t) in Hc'; [|lia]. rewrite kb_pidx. cbn [fst plus]. rewrite pt_pidx by tauto. rewrite prb_gp, avg_bar, gv_dot. unfold g_wt. destruct (b' =? b)%nat, (pt_eqb (h, w) (in_point Wi Wo wo x)), (c' =? c)%nat; cbn [andb]; ring.
  - apply (one_chan Ck ok kch c (fun c' => if (b' =? b)%nat then if pt_eqb (h, w) (in_point Wi Wo wo x) then Qf b' ho wo c' * gw b' ho wo (in_point Wi Wo wo x) else 0 else 0)%R Hkch Hok Hc).
Qed.
Lemma hits_v : forall b h w c b' ho wo x, b < BH -> b' < BH -> h < Hi -> w < Wi -> c < Cv -> In x (nth ho P []) ->
  hits (ks + pidx nh (Hi * Wi) Cv b (h * Wi + w) c) (kvT b' ho wo x) = (if (b' =? b)%nat then if pt_eqb (h, w) (in_point Wi Wo wo x) then gp b' ho wo (in_point Wi Wo wo x) * Df b' ho wo c else 0 else 0)%R.
Proof.
  intros b h w c b' ho wo x Hb Hb' Hh Hw Hc Hx. destruct (ip ho wo x Hx) as [I1 I2]. unfold kvT, kv_trace. rewrite hits_flat.
  transitivity (rlsum (fun t => rlsum (fun c' => if (c' =? c)%nat then (if (b' =? b)%nat then if pt_eqb (h, w) (in_point Wi Wo wo x) then gp b' ho wo (in_point Wi Wo wo x) * Df b' ho wo c' else 0 else 0) else 0)%R (vch t)) (seq 0 BD)).
  - apply lsum_ext. intros t Ht. apply in_seq in Ht. rewrite hits_app, !hits_map.
    rewrite (rlsum_zero _ _ (kch t)). 2:{ intros c' Hc'. apply (Hkch t) in Hc'; [|lia]. rewrite kb_pidx. cbn [fst plus]. assert (L := pidx_lt3 Hi Wi Ck b' _ _ c' Hb' I1 I2 (proj1 Hc')). rewrite (proj2 (Nat.eqb_neq _ _)) by lia. reflexivity. }
    rewrite Rplus_0_l. apply lsum_ext. intros c' Hc'. apply (Hvch t) in Hc'; [|lia]. rewrite vb_pidx. cbn [fst]. 
    replace (ks + pidx nh (Hi * Wi) Cv b' (fst (in_point Wi Wo wo x) * Wi + snd (in_point Wi Wo wo x)) c' =? ks + pidx nh (Hi * Wi) Cv b (h * Wi + w) c)%nat with (pidx nh (Hi * Wi) Cv b' (fst (in_point Wi Wo wo x) * Wi + snd (in_point Wi Wo wo x)) c' =? pidx nh (Hi * Wi) Cv b (h * Wi + w) c)%nat by (apply eq_true_iff_eq; rewrite !Nat.eqb_eq; split; intros; lia).
    rewrite pt_pidx by tauto. rewrite prb_gp. destruct (b' =? b)%nat, (pt_eqb (h, w) (in_point Wi Wo wo x)), (c' =? c)%nat; cbn [andb]; ring.
  - apply (one_chan Cv ov vch c (fun c' => if (b' =? b)%nat then if pt_eqb (h, w) (in_point Wi Wo wo x) then gp b' ho wo (in_point Wi Wo wo x) * Df b' ho wo c' else 0 else 0)%R Hvch Hov Hc).
Qed.
Lemma one_bh : forall b (F : nat -> nat -> nat -> nat -> R), b < BH -> rsum BH (fun b' => rsum Ho (fun ho => rsum Wo (fun wo => rlsum (fun x => if (b' =? b)%nat then F b' ho wo x else 0)%R (nth ho P [])))) = rsum Ho (fun ho => rsum Wo (fun wo => rlsum (fun x => F b ho wo x) (nth ho P []))).
Proof.
  intros b F Hb. rewrite <- (rsum_one BH b (fun b => rsum Ho (fun ho => rsum Wo (fun wo => rlsum (fun x => F b ho wo x) (nth ho P [])))) Hb). apply bsum_ext. intros b' _. destruct (b' =? b)%nat; [reflexivity|]. apply rsum_0. intros ho _. apply rsum_0. intros wo _. apply rlsum_zero. reflexivity.
Qed.
Lemma dk_found : forall out b h w c, b < BH -> h < Hi -> w < Wi -> c < Ck -> total out (pidx nh (Hi * Wi) Ck b (h * Wi + w) c) = (out (pidx nh (Hi * Wi) Ck b (h * Wi + w) c) + GK Ck Cv Ho Wo quad Np Kf Vf Qf Df b h w c)%R.
Proof.
  intros out b h w c Hb Hh Hw Hc. rewrite added. 2:{ assert (L := pidx_lt3 Hi Wi Ck b h w c Hb Hh Hw Hc). lia. }
  f_equal. transitivity (rsum BH (fun b' => rsum Ho (fun ho => rsum Wo (fun wo => rlsum (fun x => if (b' =? b)%nat then if pt_eqb (h, w) (in_point Wi Wo wo x) then Qf b' ho wo c * gw b' ho wo (in_point Wi Wo wo x) else 0 else 0)%R (nth ho P []))))).
  - apply bsum_ext. intros b' Hb'. apply bsum_ext. intros ho Hho. apply bsum_ext. intros wo Hwo. apply lsum_ext. intros x Hx. now apply hits_k.
  - rewrite (one_bh b (fun b' ho wo x => if pt_eqb (h, w) (in_point Wi Wo wo x) then Qf b' ho wo c * gw b' ho wo (in_point Wi Wo wo x) else 0)%R Hb). unfold GK. apply bsum_ext. intros ho Hho. apply bsum_ext. intros wo Hwo. rewrite np_eq, lsum_map. apply lsum_ext. intros x _. reflexivity.
Qed.
Lemma dv_found : forall out b h w c, b < BH -> h < Hi -> w < Wi -> c < Cv -> total out (ks + pidx nh (Hi * Wi) Cv b (h * Wi + w) c) = (out (ks + pidx nh (Hi * Wi) Cv b (h * Wi + w) c)%nat + GV Ck Ho Wo quad Np Kf Qf Df b h w c)%R.
Proof.
  intros out b h w c Hb Hh Hw Hc. rewrite added. 2:{ assert (L := pidx_lt3 Hi Wi Cv b h w c Hb Hh Hw Hc). lia. }
  f_equal. transitivity (rsum BH (fun b' => rsum Ho (fun ho => rsum Wo (fun wo => rlsum (fun x => if (b' =? b)%nat then if pt_eqb (h, w) (in_point Wi Wo wo x) then gp b' ho wo (in_point Wi Wo wo x) * Df b' ho wo c else 0 else 0)%R (nth ho P []))))).
  - apply bsum_ext. intros b' Hb'. apply bsum_ext. intros ho Hho. apply bsum_ext. intros wo Hwo. apply lsum_ext. intros x Hx. now apply hits_v.
  - rewrite (one_bh b (fun b' ho wo x => if pt_eqb (h, w) (in_point Wi Wo wo x) then gp b' ho wo (in_point Wi Wo wo x) * Df b' ho wo c else 0)%R Hb). unfold GV. apply bsum_ext. intros ho Hho. apply bsum_ext. intros wo Hwo. rewrite np_eq, lsum_map. apply lsum_ext. intros x _. reflexivity.
Qed.
End Launch.
