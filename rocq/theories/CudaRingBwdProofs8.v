(** The backward ring kernels, pass 1: the kernel for the short rows in every execution. *)
From Coq Require Import List Arith Lia Bool ZArith Reals Lra Permutation FunctionalExtensionality.
From Verif Require Import TensorModel TensorProofs BigSum DiscoModel DiscoSortProofs DistAttnModel DistAttnBwdModel DistAttnProofs AttnModel AttnCoreProofs GpuModel GpuSpec GpuProofs GpuProofs2 GpuRwModel GpuRwSpec GpuRwSyncProofs WarpProofs CudaDiscoModel CudaWarpModel WarpSumProofs CudaFwdProofs CudaAttnModel CudaAttnProofs CudaAttnLaneProofs CudaAttnFwdProofs CudaAttnFwdProofs2 WarpKernelProofs CudaAttnUpProofs3 CudaKeyProofs CudaLoopProofs CudaAttnUpModel CudaAttnBwdModel CudaAttnUpProofs2 CudaAttnUpProofs4 CudaRescaleModel CudaRescaleSpec GroupKernelProofs CudaRingUpSpec CudaRingSpec CudaRingModel CudaRingProofs CudaRingProofs2 CudaRingProofs4 CudaRingProofs6 CudaRingBwdModel CudaRingBwdSpec CudaRingBwdProofs CudaRingBwdProofs2 CudaRingBwdProofs6 CudaRingBwdProofs7.
From Verif Require DistAttnBwdProofs.
From Verif Require Import AttnSpec.
Import ListNotations.
Local Open Scope nat_scope.

Lemma bholds_slots : forall V nci B Ho Wo ninf o u st, bholds (B * Ho * Wo) (V * nci) ninf o u st <-> (forall s, fst s < 5 -> snd s < bnch V nci (fst s) -> o (baddr V nci B Ho Wo u s) = bval ninf st s).
Proof.
  intros V nci B Ho Wo ninf o u st. unfold bholds, the_max, CudaRescaleSpec.the_sum, the_acc, baddr, boff, bval, bnch.
  split.
  - intros (H1 & H2 & H3 & H4) [i x] Hi Hx. cbn [fst snd] in *. destruct i as [|[|[|[|[|]]]]]; try lia; cbn [Nat.ltb Nat.leb barr b_ssum b_smax b_sint b_sk b_skvw fst snd] in *.
    + rewrite <- H2. f_equal; ring.
    + rewrite <- H1. f_equal.
    + rewrite <- H3. f_equal; ring.
    + rewrite <- (proj1 (H4 x Hx)). f_equal; ring.
    + rewrite <- (proj2 (H4 x Hx)). f_equal; ring.
  - intros H. split; [|split; [|split]].
    + exact (H (1, 0) ltac:(cbn; lia) ltac:(cbn; lia)).
    + etransitivity; [|exact (H (0, 0) ltac:(cbn; lia) ltac:(cbn; lia))]. cbn [Nat.ltb Nat.leb barr b_ssum b_smax b_sint b_sk b_skvw fst snd]. f_equal; ring.
    + etransitivity; [|exact (H (2, 0) ltac:(cbn; lia) ltac:(cbn; lia))]. cbn [Nat.ltb Nat.leb barr b_ssum b_smax b_sint b_sk b_skvw fst snd]. f_equal; ring.
    + intros x Hx. split.
      * etransitivity; [|exact (H (3, x) ltac:(cbn; lia) Hx)]. cbn [Nat.ltb Nat.leb barr b_ssum b_smax b_sint b_sk b_skvw fst snd]. f_equal; ring.
      * etransitivity; [|exact (H (4, x) ltac:(cbn; lia) Hx)]. cbn [Nat.ltb Nat.leb barr b_ssum b_smax b_sint b_sk b_skvw fst snd]. f_equal; ring.
Qed.

Section Visits.
Variables (Ck Cv : nat) (quad : nat -> R) (H W Wi ps lon_lo : nat) (lat0 : Z) (kf vf qf df : fld).
Hypothesis HWi : 1 <= Wi.
Definition eb (b ho wo : nat) (st : bst) (e : entry) : bst := bring_entry (dot Ck (qf b ho wo) (kf b (fst (snd e)) (snd (snd e)))) (dot Cv (df b ho wo) (vf b (fst (snd e)) (snd (snd e)))) (quad (fst e)) (kf b (fst (snd e)) (snd (snd e))) st.
Notation bvisit := (bring_visit Ck Cv quad H W lon_lo lat0 kf vf qf df Wi ps).
Lemma bvisit_active : forall b ho wo st c, bvisit b ho wo st c = fold_left (eb b ho wo) (active H W Wi ps lon_lo lat0 wo c) st.
Proof.
  intros b ho wo st c. unfold bring_visit, chunk_hit, CudaRingModel.active. cbv zeta. assert (Q : forall x, x - x / Wi * Wi = x mod Wi) by (intros x; rewrite (Nat.mod_eq x Wi) by lia; rewrite (Nat.mul_comm Wi); reflexivity). rewrite !Q. set (wip := (c mod Wi + ps * wo) mod Wi). set (hl := (Z.of_nat (c / Wi) - lat0)%Z).
  destruct (Nat.ltb_spec wip lon_lo), (Nat.leb_spec (lon_lo + W) wip); cbn [orb].
  - rewrite (proj2 (Nat.leb_gt _ _)) by lia. reflexivity.
  - rewrite (proj2 (Nat.leb_gt _ _)) by lia. reflexivity.
  - rewrite (proj2 (Nat.ltb_ge _ _)) by lia. rewrite andb_false_r. reflexivity.
  - rewrite (proj2 (Nat.leb_le _ _)), (proj2 (Nat.ltb_lt _ _)) by lia. cbn [andb]. destruct (Z.ltb_spec hl 0), (Z.leb_spec (Z.of_nat H) hl); cbn [orb].
    + rewrite (proj2 (Z.leb_gt _ _)) by lia. reflexivity.
    + rewrite (proj2 (Z.leb_gt _ _)) by lia. reflexivity.
    + rewrite (proj2 (Z.ltb_ge _ _)) by lia. rewrite andb_false_r. reflexivity.
    + rewrite (proj2 (Z.leb_le _ _)), (proj2 (Z.ltb_lt _ _)) by lia. reflexivity.
Qed.
Lemma bvisits_active : forall b ho wo es st, fold_left (bvisit b ho wo) es st = fold_left (eb b ho wo) (flat_map (active H W Wi ps lon_lo lat0 wo) es) st.
Proof.
  intros b ho wo es st. rewrite <- fold_flat. revert st. induction es as [|c es IH]; intros st; [reflexivity|]. cbn [fold_left]. rewrite bvisit_active. apply IH.
Qed.
End Visits.
Lemma bvisits_found : forall NW V nci nco quad H W Wi ps lon_lo lat0 kf vf qf df b ho wo es st, 1 <= Wi ->
  fold_left (bring_visit (V * nci) (V * nco) quad H W lon_lo lat0 kf vf qf df Wi ps b ho wo) es st = fold_left (pvis V nci nco quad kf vf qf df b ho wo) (listed (found (32 * NW) H W Wi ps lon_lo lat0 wo es)) st.
Proof.
  intros NW V nci nco quad H W Wi ps lon_lo lat0 kf vf qf df b ho wo es st HWi. rewrite bvisits_active by exact HWi. rewrite <- (found_snd NW). rewrite <- (listed_map (found (32 * NW) H W Wi ps lon_lo lat0 wo es)) at 1. rewrite map_map.
  rewrite <- (fold_map _ _ _ (eb (V * nci) (V * nco) quad kf vf qf df b ho wo) (fun x : item => snd (snd x))). reflexivity.
Qed.

Section Ctx.
Variables (NW BY V nloc nci nco H W Wi ps lon_lo : nat) (lat0 : Z) (B Ho Wo : nat) (as_in : bool) (ninf : R) (P : pattern) (nq : nat) (kA vA qA dA quad : nat -> R) (kf vf qf df : fld).
Notation BD := (32 * NW). Notation Ck := (V * nci). Notation Cv := (V * nco). Notation cells := (B * Ho * Wo).
Hypotheses (HNW : 1 <= NW <= 32) (HV : 1 <= V) (Hnl : 1 <= nloc) (Hci : (nloc - 1) * BD <= nci <= nloc * BD) (Hco : as_in = true -> (nloc - 1) * BD <= nco <= nloc * BD).
Hypotheses (HBY : 1 <= BY) (HWi : 1 <= Wi) (HP : pattern_ok P Ho (nq * Wi)).
Hypotheses (Lk : lays B H W Ck kA kf) (Lv : lays B H W Cv vA vf) (Lq : lays B Ho Wo Ck qA qf) (Ld : lays B Ho Wo Cv dA df).
Hypothesis (HS : scores_above ninf B H W Ho Wo Ck kf qf).
Variables (mid nl : nat) (rows : list nat).
Hypotheses (Hlen : nl <= length rows) (ND : NoDup rows) (Hrows : forall h, h < nl -> nth h rows 0 < Ho) (Hmid : forall h, h < nl -> length (nth (nth h rows 0) P []) <= mid).
Notation arr := [(B * H * W * Ck, kA); (B * H * W * Cv, vA); (cells * Ck, qA); (cells * Cv, dA); (nq, quad)].
Notation base := (list_sum (map fst arr)).
Notation k0 := (p1_kernel BD BY V nloc nci nco H W Wi ps lon_lo lat0 B Ho Wo as_in ninf (offsets 0 P) (columns P) nq kA vA qA dA quad mid nl rows).
Variables (out : nat -> R) (buf : bbuf).
Hypotheses (HA : bmaxima_above B Ho Wo ninf buf) (HO : all_bhold B Ho Wo Ck ninf out buf).
Notation ka := (alias base k0 out).
Notation key := (rkey BY Wo nl). Notation ho_of := (gho Wo rows). Notation wo_of := (gwo Wo). Notation cell b c := (cell_of Ho Wo b (ho_of c) (wo_of c)).
Notation act_of := (gact NW H W Wi ps lon_lo lat0 Wo P 1 rows).
Notation G := (B * 1 * long_width BY nl Wo).
Notation bnch := (bnch V nci). Notation baddr := (baddr V nci B Ho Wo). Notation slots := (slots NW V nloc nci).
Lemma Hmid2 : forall h s wo, h < nl -> s < 1 -> length (found BD H W Wi ps lon_lo lat0 wo (share 1 s (nth (nth h rows 0) P []))) <= mid.
Proof. intros h s wo Hh Hs. assert (s = 0) by lia. subst s. rewrite share_all. eapply Nat.le_trans; [apply (found_length NW BY V nloc nco nci H W Wi ps lon_lo lat0 as_in HNW HV Hnl Hci Hco HBY HWi)|]. now apply Hmid. Qed.
Notation KY := (bkeyed NW BY V nloc nci nco Wi B Wo as_in HNW HV Hnl Hci Hco HBY HWi 1 nl rows (le_n 1) Hlen).
Lemma bcell' : forall c, c < nl * Wo -> c / Wo < nl /\ wo_of c < Wo /\ ho_of c < Ho /\ c = c / Wo * Wo + wo_of c.
Proof. exact (bcell NW BY V nloc nci nco Wi Ho Wo as_in HNW HV Hnl Hci Hco HBY HWi 1 nl rows (le_n 1) Hlen Hrows). Qed.
Lemma bcells_inj : forall b c b' c', c < nl * Wo -> c' < nl * Wo -> cell b c = cell b' c' -> b = b' /\ c = c'.
Proof.
  intros b c b' c' Hc Hc' E. destruct (bcell' c Hc) as (D1 & D2 & D3 & D4). destruct (bcell' c' Hc') as (D1' & D2' & D3' & D4'). apply cell_of_inj in E; auto. destruct E as (E1 & E2 & E3). split; [exact E1|].
  unfold gho in E2. apply (NoDup_nth rows 0) in E2; [|exact ND|lia|lia]. rewrite D4, D4'. now rewrite E2, E3.
Qed.
Lemma bcell_lt : forall b c, b < B * 1 -> c < nl * Wo -> cell b c < cells.
Proof. intros b c Hb Hc. rewrite Nat.mul_1_r in Hb. destruct (bcell' c Hc) as (_ & D2 & D3 & _). now apply cell_of_lt. Qed.
Lemma saddr_inj : forall b c s b' c' s', b < B * 1 -> c < nl * Wo -> fst s < 5 -> snd s < bnch (fst s) -> b' < B * 1 -> c' < nl * Wo -> fst s' < 5 -> snd s' < bnch (fst s') -> baddr (cell b c) s = baddr (cell b' c') s' -> b = b' /\ c = c' /\ s = s'.
Proof.
  intros b c s b' c' s' Hb Hc Hs Hx Hb' Hc' Hs' Hx' E. apply baddr_inj in E; auto using bcell_lt. destruct E as [E ->]. apply bcells_inj in E; auto. destruct E as [-> ->]. auto.
Qed.
Definition hl (a : nat) (gt : nat * nat) : Prop := fst gt < G /\ exists b c s, key (fst gt) = Some (b, c) /\ fst s < 5 /\ snd s < bnch (fst s) /\ chan_own BD V (snd s) = snd gt /\ a = baddr (cell b c) s.
Lemma bhl_one : forall a gt gt', gt <> gt' -> hl a gt -> hl a gt' -> False.
Proof.
  intros a [g t] [g' t'] Ne (Hg & b & c & s & E & Hi & Hx & Ht & Ea) (Hg' & b' & c' & s' & E' & Hi' & Hx' & Ht' & Ea'). cbn [fst snd] in *.
  destruct (ky_in _ _ _ _ KY g b c Hg E). destruct (ky_in _ _ _ _ KY g' b' c' Hg' E'). subst a. apply saddr_inj in Ea'; auto. destruct Ea' as (-> & -> & ->). apply Ne. f_equal; [|congruence]. eapply (ky_inj _ _ _ _ KY); eauto.
Qed.
(** ** Hypotheses about one cell *)
Lemma scell_facts : forall b c, b < B * 1 -> c < nl * Wo ->
  cell_hyps NW V nci nco H W B Ho Wo nq quad kf vf qf df b (ho_of c) (wo_of c) (act_of b c) (part arr 0) (part arr 1) (part arr 2) (part arr 3) (part arr 4) ka mid /\
  (forall i, i < 5 -> reads (k_in ka) (k_insize ka) (base + fst (barr V nci B Ho Wo i), snd (barr V nci B Ho Wo i)) 0 (snd (barr V nci B Ho Wo i)) (fun a => out (fst (barr V nci B Ho Wo i) + a))) /\
  (forall s, fst s < 5 -> snd s < bnch (fst s) -> out (baddr (cell b c) s) = bval ninf (buf b (ho_of c) (wo_of c)) s) /\
  (forall m, b_max (buf b (ho_of c) (wo_of c)) = Some m -> (ninf < m)%R) /\ (forall x, In x (listed (act_of b c)) -> (ninf < psc V nci kf qf b (ho_of c) (wo_of c) x)%R).
Proof.
  intros b c Hb Hc. assert (Is : k_insize k0 = base + bsize V nci B Ho Wo) by reflexivity.
  assert (Ein : forall a, a < base -> k_in ka a = joined arr a) by (intros a La; cbn [alias k_in]; rewrite (proj2 (Nat.ltb_lt _ _) La); reflexivity).
  assert (Esz : base <= k_insize ka) by (cbn [alias k_insize]; rewrite Is; apply Nat.le_add_r).
  assert (Fx := bfacts NW BY V nloc nci nco H W Wi ps lon_lo lat0 B Ho Wo as_in P nq kA vA qA dA kf vf qf df HNW HV Hnl Hci Hco HBY HWi HP Lk Lv Lq Ld mid 1 nl rows (le_n 1) Hlen Hrows Hmid2 ka arr Ein Esz eq_refl eq_refl eq_refl eq_refl ltac:(cbn; lia) b c Hb Hc). rewrite Nat.div_1_r in Fx.
  assert (R0 := breads0 ka arr Ein Esz 4 nq quad ltac:(cbn; lia) eq_refl). destruct Fx as (F1 & F2 & F3 & F4 & F5 & F6 & F7 & F8). split; [|split; [|split; [|split]]].
  - repeat (split; [assumption|]). unfold p1_kernel. cbn [alias k_shared]. apply Nat.le_add_r.
  - intros i Hi. apply (reads_out base k0 out). rewrite Is. unfold bsize. destruct i as [|[|[|[|[|]]]]]; [| | | | |lia]; cbn [barr b_ssum b_smax b_sint b_sk b_skvw fst snd]; lia.
  - rewrite <- bholds_slots, cell_of_eq. apply HO; tauto.
  - intros m. apply HA; tauto.
  - intros x Hx. destruct (F4 x Hx). unfold psc. apply HS; tauto.
Qed.
Definition spS (b c : nat) : bst := Pd V nci nco quad kf vf qf df b (ho_of c) (wo_of c) (buf b (ho_of c) (wo_of c)) (listed (act_of b c)).
Definition spT (b c : nat) : list upd := flat_map (s_FT NW V nloc nci nco B Ho Wo quad kf vf qf df b (ho_of c) (wo_of c) (act_of b c) ninf (buf b (ho_of c) (wo_of c))) (seq 0 BD).
Lemma short_settles0 : forall rg sh, settles ka (start ka rg sh out) (fun o => o = upds (flat_map (at_key key spT) (seq 0 G)) out).
Proof.
  intros rg sh. refine (brow_settles NW BY V nloc nci nco H W Wi ps lon_lo lat0 B Ho Wo as_in P nq HNW HV Hnl Hci Hco HBY HWi HP mid 1 nl rows (le_n 1) Hlen Hrows Hmid2 ka false (fun _ => None) hl _ (fun b ho wo act => sprog1 NW V nloc nci nco H W B Ho Wo as_in b ho wo act (part arr 0) (part arr 1) (part arr 2) (part arr 3) (part arr 4) ninf base) spT rg sh out eq_refl eq_refl _ (fun g t _ => eq_refl) (fun b ho wo act => s_expand NW V nloc nci nco H W B Ho Wo as_in b ho wo act _ _ _ _ _ mid ninf base) _ _ bhl_one).
  - intros HN. unfold p1_kernel. cbn [alias k_shared]. destruct (Nat.eqb_spec BD 32); [lia|]. rewrite (Nat.mul_comm 32 NW), Nat.div_mul by lia. lia.
  - intros g b c Hg Ek Hb Hc. rewrite Nat.div_1_r. destruct (scell_facts b c Hb Hc) as (F1 & F2 & F3 & F4 & F5). eapply (s_good NW V nloc nci nco H W B Ho Wo as_in nq quad kf vf qf df HNW HV Hnl Hci Hco); eauto.
    intros t s Ht Hs. apply (slots_in NW V nloc nci HNW HV Hnl Hci t s Ht) in Hs. destruct Hs as (S1 & S2 & S3). split; [exact Hg|]. exists b, c, s. auto.
  - intros b c st Hb Hc. rewrite Nat.div_1_r. destruct (scell_facts b c Hb Hc) as (F1 & F2 & F3 & F4 & F5). unfold spT. eapply (s_trace NW V nloc nci nco H W B Ho Wo as_in nq quad kf vf qf df HNW HV Hnl Hci Hco); eauto.
Qed.
(** ** Writes come after the group has read *)
Lemma short_sync : sync_first base k0.
Proof.
  set (A := fun g t => match key g with None => [] | Some (b, c) => s_pre NW V nloc nci B Ho Wo (b / 1) (ho_of c) (wo_of c) base t ++ load_qd BD V nloc nci nco Ho Wo as_in (part arr 2) (part arr 3) (b / 1) (ho_of c) (wo_of c) t ++ bstash V nci nco (part arr 4) (act_of b c) t end).
  set (B' := fun g t => match key g with None => [] | Some (b, c) => let act := act_of b c in let batch := b / 1 in let ho := ho_of c in let wo := wo_of c in code_of (
   flat_map (p1_entry BD V nloc nci nco H W as_in ninf mid (part arr 0) (part arr 1) batch) (listed act) ++
   [Seg (fun t => s_fin NW V nloc nci B Ho Wo batch ho wo t)]) t end).
  assert (HC : forall g t, g < k_groups k0 -> k_code k0 g t = match key g with None => [] | Some _ => A g t ++ ISync (fun all => all t) :: B' g t end).
  { intros g t Hg. change (k_code k0 g t) with (code_of (row_group BD BY H W Wi ps lon_lo lat0 Wo (offsets 0 P) (columns P) mid 1 nl rows (p1_body BD V nloc nci nco H W B Ho Wo as_in ninf mid base (part arr 0) (part arr 1) (part arr 2) (part arr 3) (part arr 4)) g) t).
    rewrite (row_group_eq NW BY V nloc nco nci H W Wi ps lon_lo lat0 B Ho Wo as_in P nq HNW HV Hnl Hci Hco HBY HWi HP mid 1 nl rows (le_n 1) Hlen Hrows Hmid2) by exact Hg. unfold A, B'. destruct (key g) as [[b c]|]; [|reflexivity].
    unfold p1_body. cbv zeta. unfold code_of at 1. rewrite flat_map_app. cbn [flat_map code1 app group_sync]. unfold s_pre. rewrite <- !app_assoc. cbn [app]. f_equal. f_equal. f_equal. f_equal. f_equal. f_equal. f_equal. unfold code_of. rewrite !flat_map_app. f_equal. cbn [flat_map code1]. rewrite !app_nil_r. unfold s_fin, CudaRingBwdProofs6.slots. rewrite map_fin. reflexivity. }
  assert (Part : forall i, i < 5 -> fst (part arr i) + snd (part arr i) <= base) by (intros i Hi; apply part_le; exact Hi).
  assert (TB : forall g t i, g < k_groups k0 -> t < BD -> In i (B' g t) -> (forall r a, i = IGet r a -> a < base) /\ forall a, writes i a -> exists b c s, key g = Some (b, c) /\ b < B * 1 /\ c < nl * Wo /\ fst s < 5 /\ snd s < bnch (fst s) /\ a = baddr (cell b c) s).
  { intros g t i Hg Ht. unfold B'. destruct (key g) as [[b c]|] eqn:Ek; [|intros []]. cbv zeta. destruct (ky_in _ _ _ _ KY g b c Hg Ek) as [Hb Hc].
    unfold code_of. rewrite flat_map_app. intros Hi. apply in_app_iff in Hi. destruct Hi as [Hi|Hi].
    - apply in_flat_map in Hi. destruct Hi as (st & Hs & Hi). apply in_flat_map in Hs. destruct Hs as (x & _ & Hs). destruct x as [i0 [l [hi p]]]. unfold p1_entry, bdots, bring_sum in Hs.
      assert (T : Forall (tame base (fun _ => False)) (code1 st t)).
      { assert (P0 := Part 0 ltac:(lia)). assert (P1 := Part 1 ltac:(lia)).
        assert (Q : forall r, In st (CudaAttnProofs.the_sum BD (bscratch V nci nco mid) r) -> Forall (tame base (fun _ => False)) (code1 st t)) by (intros r Hr; assert (Q := tame_sum base (fun _ => False) NW (bscratch V nci nco mid) r t); rewrite <- the_sum_block in Q; unfold code_of in Q; rewrite Forall_flat_map, Forall_forall in Q; exact (Q st Hr)).
        rewrite !in_app_iff in Hs. destruct Hs as [[Hs|[Hs|Hs]]|Hs]; [| exact (Q r_dot Hs) | exact (Q r_gd Hs) |].
        - destruct Hs as [<-|[]]. cbn [code1]. unfold dot_loop. apply Forall_app. split; (constructor; [tm|]); apply Forall_flat; intros ch _; fa; tm.
        - destruct Hs as [<-|[]]. cbn [code1]. apply Forall_app. split; [unfold bgrow; fa; tm|]. apply Forall_app. split; [|fa; tm]. apply Forall_flat. intros ch _. fa; tm. }
      rewrite Forall_forall in T. destruct (T i Hi) as [T1 T2]. split; [exact T1|]. intros a Wa. destruct (T2 a Wa).
    - cbn [flat_map code1] in Hi. rewrite app_nil_r in Hi. rewrite Nat.div_1_r in Hi. unfold s_fin in Hi. apply in_map_iff in Hi. destruct Hi as (s & <- & Hs). apply (slots_in NW V nloc nci HNW HV Hnl Hci t s Ht) in Hs. destruct Hs as (S1 & S2 & _). unfold set_out. destruct (_ <? _); (split; [discriminate|]); intros a E; [|destruct E]. cbn [GpuRwSyncProofs.writes] in E. exists b, c, s. unfold CudaRingBwdProofs6.baddr. auto 10. }
  apply (sync_by_bar base k0 A B').
  - intros g t Hg Ht. exists (fun all => all t). rewrite HC by exact Hg. unfold A. destruct (key g) as [[b c]|]; [now left|right; auto].
  - intros g t i Hg Ht Hi. unfold A in Hi. destruct (key g) as [[b c]|]; [|destruct Hi]. assert (GG : forall p r j, is_sync (get p r j) = false /\ forall a, ~ writes (get p r j) a) by (intros p r j; unfold get; destruct (_ <? _); split; try reflexivity; intros a []).
    assert (SS : forall a f, is_sync (IStore a f) = false /\ forall a', ~ writes (IStore a f) a') by (intros; split; [reflexivity|intros a' []]).
    unfold s_pre, get_s in Hi. rewrite !in_app_iff in Hi. destruct Hi as [[Hi|Hi]|[Hi|Hi]].
    + destruct Hi as [<-|[<-|[<-|[]]]]; apply GG.
    + apply in_flat_map in Hi. destruct Hi as (x & _ & [<-|[<-|[]]]); apply GG.
    + unfold load_qd in Hi. apply in_app_iff in Hi. destruct Hi as [Hi|Hi]; apply in_flat_map in Hi; destruct Hi as (x & _ & [<-|[<-|[]]]); auto.
    + unfold bstash in Hi. apply in_flat_map in Hi. destruct Hi as (x & _ & Hi). destruct (_ =? _); [|destruct Hi]. destruct Hi as [<-|[<-|[]]]; auto.
  - intros g t r a Hg Ht Hi. destruct (TB g t _ Hg Ht Hi) as [T _]. specialize (T r (base + a) eq_refl). clear - T. set (bs := base) in *. clearbody bs. lia.
  - intros g t i g' t' r a Hg Ht Hg' Ht' Hi Wa Hr. destruct (TB g t i Hg Ht Hi) as [_ T]. destruct (T a Wa) as (b & c & s & Ek & Hb & Hc & Hj & Hx & Ea).
    assert (R' : exists b' c' s', key g' = Some (b', c') /\ b' < B * 1 /\ c' < nl * Wo /\ fst s' < 5 /\ snd s' < bnch (fst s') /\ a = baddr (cell b' c') s').
    { unfold A in Hr. destruct (key g') as [[b' c']|] eqn:Ek'; [|destruct Hr]. destruct (ky_in _ _ _ _ KY g' b' c' Hg' Ek') as [Hb' Hc']. rewrite Nat.div_1_r in Hr. exists b', c'.
      assert (GA : forall p r0 i0, get_s base p r0 i0 = IGet r (base + a) -> fst p + i0 = a) by (intros p r0 i0; unfold get_s, get; cbn [fst snd]; set (bs := base); clearbody bs; destruct (_ <? _); [intros E; assert (bs + fst p + i0 = bs + a) by congruence; lia|discriminate]).
      assert (GB : forall i r0 i0, i < 5 -> get (part arr i) r0 i0 = IGet r (base + a) -> False). { intros i' r0 i0 Hi' E. unfold get in E. destruct (Nat.ltb_spec i0 (snd (part arr i'))) as [L|L]; [|discriminate]. assert (E' : fst (part arr i') + i0 = base + a) by congruence. assert (Q := Part i' Hi'). clear - L E' Q. set (bs := base) in *. clearbody bs. lia. }
      assert (GC : forall s r0 off, fst s < 5 -> snd s < bnch (fst s) -> off = boff V nci (cell b' c') s -> get_s base (barr V nci B Ho Wo (fst s)) r0 off = IGet r (base + a) -> exists s', Some (b', c') = Some (b', c') /\ b' < B * 1 /\ c' < nl * Wo /\ fst s' < 5 /\ snd s' < bnch (fst s') /\ a = baddr (cell b' c') s').
      { intros s0 r0 off S1 S2 -> E. apply GA in E. exists s0. unfold CudaRingBwdProofs6.baddr. auto 10. }
      unfold s_pre in Hr. rewrite !in_app_iff in Hr. destruct Hr as [[Hr|Hr]|[Hr|Hr]].
      - destruct Hr as [Hr|[Hr|[Hr|[]]]]; [apply (GC (0, 0) r_sum _) in Hr|apply (GC (1, 0) r_max _) in Hr|apply (GC (2, 0) r_int _) in Hr]; auto; cbn; lia.
      - apply in_flat_map in Hr. destruct Hr as (x' & Hx' & E). apply (bin_covers NW V nloc nci HV Hnl Hci t' Ht') in Hx'. destruct Hx' as [Hx' _]. destruct E as [E|[E|[]]]; [apply (GC (3, x') (r_lk x') _) in E|apply (GC (4, x') (r_lkvw x') _) in E]; auto; cbn; lia.
      - exfalso. unfold load_qd in Hr. apply in_app_iff in Hr. destruct Hr as [Hr|Hr]; apply in_flat_map in Hr; destruct Hr as (y & _ & [E|[E|[]]]); try discriminate; apply GB in E; auto; lia.
      - exfalso. unfold bstash in Hr. apply in_flat_map in Hr. destruct Hr as (y & _ & Hr). destruct (_ =? _); [|destruct Hr]. destruct Hr as [E|[E|[]]]; [|discriminate]. apply GB in E; [exact E|lia]. }
    destruct R' as (b' & c' & s' & Ek' & Hb' & Hc' & Hj' & Hx' & Ea'). rewrite Ea in Ea'. apply saddr_inj in Ea'; auto. destruct Ea' as (-> & -> & _). eapply (ky_inj _ _ _ _ KY); eauto.
Qed.
(** ** What is found at the end *)
Notation final := (upds (flat_map (at_key key spT) (seq 0 G)) out).
Lemma spT_in : forall b c u, In u (spT b c) <-> exists s, fst s < 5 /\ snd s < bnch (fst s) /\ u = (baddr (cell b c) s, USet, bval ninf (spS b c) s).
Proof.
  intros b c u. unfold spT. rewrite in_flat_map. split.
  - intros (t & Ht & Hu). apply in_seq in Ht. unfold s_FT in Hu. apply in_map_iff in Hu. destruct Hu as (s & <- & Hs). apply (slots_in NW V nloc nci HNW HV Hnl Hci t s ltac:(lia)) in Hs. exists s. tauto.
  - intros (s & S1 & S2 & ->). assert (L : chan_own BD V (snd s) < BD) by (unfold chan_own; apply Nat.mod_upper_bound; lia). exists (chan_own BD V (snd s)). split; [apply in_seq; lia|]. unfold s_FT. apply in_map_iff. exists s. split; [reflexivity|]. apply (slots_in NW V nloc nci HNW HV Hnl Hci _ s L). auto.
Qed.
Lemma short_cell : forall b h w, b < B -> h < Ho -> w < Wo ->
  (In h (firstn nl rows) -> bholds cells Ck ninf final ((b * Ho + h) * Wo + w) (fold_left (bring_visit Ck Cv quad H W lon_lo lat0 kf vf qf df Wi ps b h w) (nth h P []) (buf b h w))) /\
  (~ In h (firstn nl rows) -> bholds cells Ck ninf final ((b * Ho + h) * Wo + w) (buf b h w)).
Proof.
  intros b h w Hb Hh Hw. rewrite !bholds_slots, <- cell_of_eq. split.
  - intros Hi s S1 S2. apply (In_nth _ _ 0) in Hi. destruct Hi as (j & Lj & Ej). rewrite firstn_length in Lj. set (c := j * Wo + w). destruct (split_div Wo j w Hw) as [D1 D2]. assert (Hc : c < nl * Wo) by (unfold c; assert (j < nl) by lia; nia).
    assert (Eh : ho_of c = h). { unfold gho, c. rewrite D1. rewrite <- Ej. rewrite <- (firstn_skipn nl rows) at 1. apply app_nth1. rewrite firstn_length. lia. }
    assert (Ew : wo_of c = w) by (unfold gwo, c; rewrite D1; lia).
    assert (ES : fold_left (bring_visit Ck Cv quad H W lon_lo lat0 kf vf qf df Wi ps b h w) (nth h P []) (buf b h w) = spS b c).
    { unfold spS, gact. rewrite Eh, Ew. rewrite Nat.mod_1_r, share_all. unfold Pd. now apply bvisits_found. }
    rewrite ES. replace (cell_of Ho Wo b h w) with (cell b c) by (now rewrite Eh, Ew). assert (Hb' : b < B * 1) by lia. apply upds_keep.
    + intros u Hu Ea. apply (in_at_key _ G (B * 1) (nl * Wo) key spT u KY) in Hu. destruct Hu as (b' & c' & Hb2 & Hc2 & Hu). apply spT_in in Hu. destruct Hu as (s' & S1' & S2' & ->). cbn [fst] in Ea. rewrite Ea. apply saddr_inj in Ea; auto. destruct Ea as (-> & -> & ->). reflexivity.
    + right. exists (baddr (cell b c) s, USet, bval ninf (spS b c) s). split; [|reflexivity]. apply (in_at_key _ G (B * 1) (nl * Wo) key spT _ KY). exists b, c. split; [exact Hb'|]. split; [exact Hc|]. apply spT_in. exists s. auto.
  - intros Nh s S1 S2. assert (HO' := HO b h w Hb Hh Hw). rewrite bholds_slots, <- cell_of_eq in HO'. rewrite <- (HO' s S1 S2). apply upds_out. intros u Hu Ea. apply (in_at_key _ G (B * 1) (nl * Wo) key spT u KY) in Hu. destruct Hu as (b' & c' & Hb2 & Hc2 & Hu). apply spT_in in Hu. destruct Hu as (s' & S1' & S2' & ->). cbn [fst] in Ea.
    apply baddr_inj in Ea; auto using bcell_lt; [|now apply cell_of_lt]. destruct Ea as [E _]. destruct (bcell' c' Hc2) as (D1 & D2 & D3 & _). apply cell_of_inj in E; auto. destruct E as (_ & E & _). apply Nh. rewrite <- E. unfold gho. rewrite <- (firstn_skipn nl rows) at 1. rewrite app_nth1 by (rewrite firstn_length; lia). apply nth_In. rewrite firstn_length. lia.
Qed.
Theorem short_settles : forall rg sh, lsettles 1 base k0 (start k0 rg sh out) (fun o => forall b h w, b < B -> h < Ho -> w < Wo ->
  (In h (firstn nl rows) -> bholds cells Ck ninf o ((b * Ho + h) * Wo + w) (fold_left (bring_visit Ck Cv quad H W lon_lo lat0 kf vf qf df Wi ps b h w) (nth h P []) (buf b h w))) /\
  (~ In h (firstn nl rows) -> bholds cells Ck ninf o ((b * Ho + h) * Wo + w) (buf b h w))).
Proof.
  intros rg sh. apply sync_settles; [exact short_sync|]. eapply settles_impl; [apply short_settles0|]. cbv beta. intros o -> b h w Hb Hh Hw. now apply short_cell.
Qed.
End Ctx.
