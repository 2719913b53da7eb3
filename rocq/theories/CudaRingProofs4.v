(** The gather-direction ring kernels: the kernel for the short rows in every execution. *)
From Coq Require Import List Arith Lia Bool ZArith Reals Lra Permutation FunctionalExtensionality.
From Verif Require Import TensorModel TensorProofs BigSum DiscoModel DiscoSortProofs DistAttnModel DistAttnProofs AttnModel AttnCoreProofs GpuModel GpuSpec GpuProofs GpuProofs2 GpuRwModel GpuRwSpec GpuRwSyncProofs WarpProofs CudaDiscoModel CudaWarpModel WarpSumProofs CudaFwdProofs CudaAttnModel CudaAttnProofs CudaAttnLaneProofs CudaAttnFwdProofs CudaAttnFwdProofs2 WarpKernelProofs CudaKeyProofs CudaLoopProofs CudaAttnUpProofs2 CudaAttnUpProofs4 CudaRescaleModel CudaRescaleSpec GroupKernelProofs CudaRingUpSpec CudaRingModel CudaRingProofs CudaRingProofs2 CudaRingProofs3.
From Verif Require Import AttnSpec.
Import ListNotations.
Local Open Scope nat_scope.
Notation is_sync := GpuRwSyncProofs.is_sync. Notation writes := GpuRwSyncProofs.writes.

Lemma upds_keep : forall v a tr out, (forall u, In u tr -> fst (fst u) = a -> u = (a, USet, v)) -> (out a = v \/ exists u, In u tr /\ fst (fst u) = a) -> upds tr out a = v.
Proof.
  intros v a tr out Hu Ho. destruct (in_dec Nat.eq_dec a (map (fun u => fst (fst u)) tr)) as [Hi|Hi].
  - apply (upds_set (fun _ => v)); [exact Hu|]. apply in_map_iff in Hi. destruct Hi as (u & E & H). eauto.
  - destruct Ho as [Ho|(u & H & E)]; [|exfalso; apply Hi; apply in_map_iff; eauto]. rewrite upds_out; [exact Ho|]. intros u H E. apply Hi. apply in_map_iff. eauto.
Qed.
Lemma reads_alias : forall k arr out p b n f, k_in k = joined arr -> list_sum (map fst arr) <= k_insize k -> reads (joined arr) (list_sum (map fst arr)) p b n f ->
  reads (k_in (alias (list_sum (map fst arr)) k out)) (k_insize (alias (list_sum (map fst arr)) k out)) p b n f.
Proof.
  intros k arr out p b n f Ei Es HR c Hc. destruct (HR c Hc) as (A1 & A2 & A3). split; [exact A1|]. cbn [alias k_in k_insize]. split; [lia|]. rewrite (proj2 (Nat.ltb_lt _ _) A2), Ei. exact A3.
Qed.
Lemma reads_out : forall base k out o n, base + o + n <= k_insize k -> reads (k_in (alias base k out)) (k_insize (alias base k out)) (base + o, n) 0 n (fun i => out (o + i)).
Proof. intros base k out o n Hs c Hc. cbn [fst snd plus alias k_in k_insize]. split; [exact Hc|]. split; [lia|]. rewrite (proj2 (Nat.ltb_ge _ _)) by lia. f_equal. lia. Qed.

(** ** Instructions that read below [base] and write where [Wr] says *)
Definition tame (base : nat) (Wr : nat -> Prop) (i : instr) : Prop := (forall r a, i = IGet r a -> a < base) /\ forall a, writes i a -> Wr a.
Lemma tame_get : forall base Wr p r i, fst p + snd p <= base -> tame base Wr (get p r i).
Proof. intros base Wr p r i Hp. unfold get, tame. destruct (Nat.ltb_spec i (snd p)); (split; [|intros ? E; destruct E]); intros r' a' E; [injection E as _ <-; lia|discriminate]. Qed.
Lemma tame_code : forall base Wr l, (forall st t, In st l -> Forall (tame base Wr) (code1 st t)) -> forall t, Forall (tame base Wr) (code_of l t).
Proof. intros base Wr l Hl t. unfold code_of. apply Forall_flat. intros st Hst. now apply Hl. Qed.
Ltac fa := repeat first [apply Forall_nil | apply Forall_cons].
Ltac tm := first [apply tame_get; assumption | split; [discriminate|let E := fresh in intros ? E; destruct E]].
Lemma tame_sum : forall base Wr NW sc r t, Forall (tame base Wr) (code_of (block_sum NW sc r) t).
Proof.
  intros base Wr NW sc r. assert (WS : forall who r0, forall st t, In st (warp_sum who r0) -> Forall (tame base Wr) (code1 st t)). { intros who r0 st t Hs. unfold warp_sum in Hs. apply in_map_iff in Hs. destruct Hs as (x & <- & _). cbn [code1]. destruct (who (t / warp_size)); fa; tm. }
  apply tame_code. intros st t Hs. unfold block_sum in Hs. apply in_app_iff in Hs. destruct Hs as [Hs|Hs]; [now apply (WS _ _ _ _ Hs)|]. destruct (1 <? NW); [|destruct Hs]. apply in_app_iff in Hs. destruct Hs as [Hs|Hs].
  - destruct Hs as [<-|[<-|[<-|[]]]]; cbn [code1]; repeat match goal with |- context [if ?b then _ else _] => destruct b end; fa; tm.
  - apply in_app_iff in Hs. destruct Hs as [Hs|Hs]; [now apply (WS _ _ _ _ Hs)|]. destruct Hs as [<-|[<-|[<-|[<-|[<-|[]]]]]]; cbn [code1]; repeat match goal with |- context [if ?b then _ else _] => destruct b end; fa; tm.
Qed.
Lemma part_le : forall arr i, i < length arr -> fst (part arr i) + snd (part arr i) <= list_sum (map fst arr).
Proof.
  intros arr i Hi. unfold part. cbn [fst snd]. rewrite <- (firstn_skipn i arr) at 3. rewrite map_app, list_sum_app. apply Nat.add_le_mono_l.
  assert (E : nth i (map fst arr) 0 = nth 0 (map fst (skipn i arr)) 0). { rewrite <- (firstn_skipn i arr) at 1. rewrite map_app, app_nth2 by (rewrite map_length, firstn_length; lia). rewrite map_length, firstn_length. f_equal. lia. }
  rewrite E. destruct (map fst (skipn i arr)) as [|n m]; cbn; lia.
Qed.

Section Ctx.
Variables (NW BY V nloc nci nco H W Wi ps lon_lo : nat) (lat0 : Z) (B Ho Wo : nat) (as_out : bool) (ninf : R) (P : pattern) (nq : nat) (kA vA qA quad : nat -> R) (kf vf qf : fld).
Notation BD := (32 * NW). Notation Ck := (V * nci). Notation Cv := (V * nco). Notation cells := (B * Ho * Wo).
Hypotheses (HNW : 1 <= NW <= 32) (HV : 1 <= V) (Hnl : 1 <= nloc) (Hout : (nloc - 1) * BD <= nco <= nloc * BD) (Hin : as_out = true -> (nloc - 1) * BD <= nci <= nloc * BD).
Hypotheses (HBY : 1 <= BY) (HWi : 1 <= Wi) (HP : pattern_ok P Ho (nq * Wi)).
Hypotheses (Lk : lays B H W Ck kA kf) (Lv : lays B H W Cv vA vf) (Lq : lays B Ho Wo Ck qA qf).
Hypothesis (HS : scores_above ninf B H W Ho Wo Ck kf qf).
Variables (mid nl : nat) (rows : list nat).
Hypotheses (Hlen : nl <= length rows) (ND : NoDup rows) (Hrows : forall h, h < nl -> nth h rows 0 < Ho) (Hmid : forall h, h < nl -> length (nth (nth h rows 0) P []) <= mid).
Notation arr := [(B * H * W * Ck, kA); (B * H * W * Cv, vA); (cells * Ck, qA); (nq, quad)].
Notation base := (list_sum (map fst arr)).
Notation k0 := (rspecial_kernel BD BY V nloc nci nco H W Wi ps lon_lo lat0 B Ho Wo as_out ninf (offsets 0 P) (columns P) nq kA vA qA quad mid nl rows).
Notation cin := (rin_chans BD V nloc nci as_out). Notation cout := (rout_chans BD V nloc nco).
Variables (out : nat -> R) (buf : rbuf).
Hypotheses (HA : maxima_above B Ho Wo ninf buf) (HO : all_hold B Ho Wo Cv ninf out buf).
Notation ka := (alias base k0 out).
Notation key := (rkey BY Wo nl). Notation ho_of := (gho Wo rows). Notation wo_of := (gwo Wo).
Notation act_of := (gact NW H W Wi ps lon_lo lat0 Wo P 1 rows).
Notation G := (B * 1 * long_width BY nl Wo).
Lemma Hmid1 : forall h s wo, h < nl -> s < 1 -> length (found BD H W Wi ps lon_lo lat0 wo (share 1 s (nth (nth h rows 0) P []))) <= mid.
Proof. intros h s wo Hh Hs. assert (s = 0) by lia. subst s. rewrite share_all. eapply Nat.le_trans; [apply (found_length NW BY V nloc nci nco H W Wi ps lon_lo lat0 as_out HNW HV Hnl Hout Hin HBY HWi)|]. now apply Hmid. Qed.
Notation KY := (rkeyed NW BY V nloc nci nco Wi B Wo as_out HNW HV Hnl Hout Hin HBY HWi 1 nl rows (le_n 1) Hlen).
Definition spF (b ho wo : nat) (act : list (nat * (nat * (nat * nat)))) : list fstep :=
  if length act =? 0 then [FSeg (sinit NW V nloc nci nco B Ho Wo as_out b ho wo act (part arr 2) (part arr 3) base); FShare]
  else sprog NW V nloc nci nco H W B Ho Wo as_out ninf b ho wo act (part arr 0) (part arr 1) (part arr 2) (part arr 3) base.
Definition spS (b c : nat) : rst := Sd V nci quad kf vf qf b (ho_of c) (wo_of c) (buf b (ho_of c) (wo_of c)) (listed (act_of b c)).
Definition spT (b c : nat) : list upd := if length (act_of b c) =? 0 then [] else flat_map (sFT NW V nloc nci nco B Ho Wo ninf quad kf vf qf b (ho_of c) (wo_of c) (act_of b c) (buf b (ho_of c) (wo_of c))) (seq 0 BD).
(** the written places *)
Definition nch (i : nat) : nat := match i with 2 => Cv | _ => 1 end.
Definition chs (i t : nat) : list nat := match i with 2 => cout t | _ => if t =? 0 then [0] else [] end.
Definition addr (i b c x : nat) : nat := let cell := cell_of Ho Wo b (ho_of c) (wo_of c) in match i with 0 => cells + cell | 1 => cell | _ => cells + cells + (cell * Cv + x) end.
Definition vl (i b c x : nat) : R := match i with 0 => ssum (spS b c) | 1 => as_num ninf (smax (spS b c)) | _ => sacc (spS b c) x end.
Lemma own0 : forall x, x < 1 -> chan_own BD V x = 0.
Proof. intros x Hx. assert (x = 0) by lia. subst x. unfold chan_own. rewrite Nat.div_0_l by lia. apply Nat.mod_0_l. lia. Qed.
Lemma chs_cover : forall i, i < 3 -> covers BD (nch i) (chan_own BD V) (chs i).
Proof.
  intros i Hi. destruct i as [|[|[|]]]; try lia; cbn [nch chs]; [| |now apply rout_covers].
  all: intros t Ht; cbn [nch chs]; (split; [destruct (t =? 0); [apply NoDup_cons; [intros Q; destruct Q|apply NoDup_nil]|apply NoDup_nil]|]); intros x; destruct (Nat.eqb_spec t 0) as [->|Ne]; cbn [In]; (split; [intros Hx|intros [Hx E]]).
  all: try (destruct Hx as [Hx|Hx]; [subst x|destruct Hx]; split; [lia|apply own0; lia]). all: try (destruct Hx; fail). all: try lia. all: rewrite own0 in E by exact Hx; congruence.
Qed.
Lemma gcell' : forall c, c < nl * Wo -> c / Wo < nl /\ wo_of c < Wo /\ ho_of c < Ho /\ c = c / Wo * Wo + wo_of c.
Proof. intros c Hc. exact (gcell NW BY V nloc nci nco Wi Ho Wo as_out HNW HV Hnl Hout Hin HBY HWi 1 nl rows (le_n 1) Hlen Hrows c Hc). Qed.
Lemma cells_inj : forall b c b' c', c < nl * Wo -> c' < nl * Wo -> cell_of Ho Wo b (ho_of c) (wo_of c) = cell_of Ho Wo b' (ho_of c') (wo_of c') -> b = b' /\ c = c'.
Proof.
  intros b c b' c' Hc Hc' E. destruct (gcell' c Hc) as (D1 & D2 & D3 & D4). destruct (gcell' c' Hc') as (D1' & D2' & D3' & D4'). apply cell_of_inj in E; auto. destruct E as (E1 & E2 & E3). split; [exact E1|].
  unfold gho in E2. apply (NoDup_nth rows 0) in E2; [|exact ND|lia|lia]. rewrite D4, D4'. now rewrite E2, E3.
Qed.
Lemma addr_inj : forall i b c x i' b' c' x', i < 3 -> b < B * 1 -> c < nl * Wo -> x < nch i -> i' < 3 -> b' < B * 1 -> c' < nl * Wo -> x' < nch i' -> addr i b c x = addr i' b' c' x' -> i = i' /\ b = b' /\ c = c' /\ x = x'.
Proof.
  intros i b c x i' b' c' x' Hi Hb Hc Hx Hi' Hb' Hc' Hx' E. rewrite Nat.mul_1_r in Hb, Hb'. destruct (gcell' c Hc) as (_ & D2 & D3 & _). destruct (gcell' c' Hc') as (_ & D2' & D3' & _).
  assert (L := cell_of_lt B Ho Wo b (ho_of c) (wo_of c) Hb D3 D2). assert (L' := cell_of_lt B Ho Wo b' (ho_of c') (wo_of c') Hb' D3' D2'). unfold addr in E. cbv zeta in E.
  set (u := cell_of Ho Wo b (ho_of c) (wo_of c)) in *. set (u' := cell_of Ho Wo b' (ho_of c') (wo_of c')) in *.
  assert (Hu : u = u' -> b = b' /\ c = c') by (now apply cells_inj). clearbody u u'.
  destruct i as [|[|[|]]]; try lia; destruct i' as [|[|[|]]]; try lia; cbn [nch] in Hx, Hx'; try (assert (Q : u = u') by lia; destruct (Hu Q); repeat split; auto; lia).
  assert (Q : u * Cv + x = u' * Cv + x') by lia. destruct (split_div Cv u x Hx) as [A1 A2]. destruct (split_div Cv u' x' Hx') as [A3 A4]. rewrite Q in A1, A2. assert (Q1 : u = u') by congruence. destruct (Hu Q1). repeat split; auto. congruence.
Qed.
Notation hl := (wholds G 3 key nch (chan_own BD V) addr).
Lemma hl_one : forall a gt gt', gt <> gt' -> hl a gt -> hl a gt' -> False.
Proof. apply (wholds_one G (B * 1) (nl * Wo) 3 key nch (chan_own BD V) addr); [apply KY|exact addr_inj]. Qed.
Lemma hl_own : forall a g t i b c x, g < G -> key g = Some (b, c) -> i < 3 -> x < nch i -> chan_own BD V x = t -> a = addr i b c x -> hl a (g, t).
Proof. intros a g t i b c x H1 H2 H3 H4 H5 ->. now apply wholds_at. Qed.
(** ** Hypotheses about one cell *)
Notation gok := (gact_ok NW BY V nloc nci nco H W Wi ps lon_lo lat0 Ho Wo as_out P nq HNW HV Hnl Hout Hin HBY HWi HP 1 nl rows (le_n 1) Hlen).
Lemma cell_facts : forall b c, b < B * 1 -> c < nl * Wo ->
  b < B /\ ho_of c < Ho /\ wo_of c < Wo /\ length (act_of b c) <= mid /\ scratch V nci mid <= k_shared ka /\
  (forall x, In x (listed (act_of b c)) -> x_lane x < BD /\ x_hi x < nq /\ fst (x_pt x) < H /\ snd (x_pt x) < W) /\
  (forall p, fst p < H -> snd p < W -> reads (k_in ka) (k_insize ka) (part arr 0) (k_at V nci H W b p) Ck (kf b (fst p) (snd p))) /\
  reads (k_in ka) (k_insize ka) (part arr 2) (q_at V nci Ho Wo b (ho_of c) (wo_of c)) Ck (qf b (ho_of c) (wo_of c)) /\
  (forall p, fst p < H -> snd p < W -> reads (k_in ka) (k_insize ka) (part arr 1) (v_at V nco H W b p) Cv (vf b (fst p) (snd p))) /\
  reads (k_in ka) (k_insize ka) (part arr 3) 0 nq quad /\
  reads (k_in ka) (k_insize ka) (base + 0, cells) 0 cells out /\ reads (k_in ka) (k_insize ka) (base + cells, cells) 0 cells (fun i => out (cells + i)) /\
  reads (k_in ka) (k_insize ka) (base + (cells + cells), cells * Cv) 0 (cells * Cv) (fun i => out (cells + cells + i)) /\
  holds cells Cv 1 ninf out (cell_of Ho Wo b (ho_of c) (wo_of c)) (buf b (ho_of c) (wo_of c)) /\
  (forall m, smax (buf b (ho_of c) (wo_of c)) = Some m -> (ninf < m)%R) /\ (forall x, In x (listed (act_of b c)) -> (ninf < scr V nci kf qf b (ho_of c) (wo_of c) x)%R).
Proof.
  intros b c Hb Hc. rewrite Nat.mul_1_r in Hb. destruct (gcell' c Hc) as (_ & D2 & D3 & _).
  assert (RA : forall p b n f, reads (joined arr) base p b n f -> reads (k_in ka) (k_insize ka) p b n f). { intros p b0 n f. apply reads_alias; [reflexivity|]. unfold rspecial_kernel. cbn [k_insize]. apply Nat.le_add_r. }
  assert (Gk : forall x, In x (listed (act_of b c)) -> x_lane x < BD /\ x_hi x < nq /\ fst (x_pt x) < H /\ snd (x_pt x) < W). { intros x Hx. exact (gok Hrows b c x Hc Hx). }
  assert (Is : k_insize k0 = base + rsize V nco B Ho Wo) by reflexivity.
  split; [exact Hb|]. split; [exact D3|]. split; [exact D2|]. split. { exact (gact_mid NW BY V nloc nci nco H W Wi ps lon_lo lat0 Ho Wo as_out P HNW HV Hnl Hout Hin HBY HWi mid 1 nl rows (le_n 1) Hlen Hrows Hmid1 b c Hc). }
  split. { unfold alias, rspecial_kernel. cbn [k_shared]. apply Nat.le_add_r. }
  split; [exact Gk|]. split. { intros p Hp1 Hp2. apply RA. eapply (lays_reads NW BY V nloc nci nco Wi B as_out HNW HV Hnl Hout Hin HBY HWi arr 0 H W Ck kA kf); eauto; [cbn; lia|apply k_at_eq]. }
  split. { apply RA. eapply (lays_reads NW BY V nloc nci nco Wi B as_out HNW HV Hnl Hout Hin HBY HWi arr 2 Ho Wo Ck qA qf); eauto; [cbn; lia|apply q_at_eq]. }
  split. { intros p Hp1 Hp2. apply RA. eapply (lays_reads NW BY V nloc nci nco Wi B as_out HNW HV Hnl Hout Hin HBY HWi arr 1 H W Cv vA vf); eauto; [cbn; lia|apply v_at_eq]. }
  split. { apply RA. apply array_reads; [cbn; lia|reflexivity]. }
  split. { apply (reads_out base k0 out 0 cells). rewrite Is. unfold rsize. lia. }
  split. { apply (reads_out base k0 out cells cells). rewrite Is. unfold rsize. lia. }
  split. { apply (reads_out base k0 out (cells + cells) (cells * Cv)). rewrite Is. unfold rsize. lia. }
  split. { rewrite cell_of_eq. now apply HO. }
  split. { intros m. now apply HA. }
  intros x Hx. destruct (Gk x Hx) as (_ & _ & X1 & X2). now apply HS.
Qed.
Lemma special_trace : forall b c st, b < B * 1 -> c < nl * Wo -> ftrace (k_in ka) BD (rown NW V nci mid (act_of b c)) (rpub V nci (act_of b c)) (spF (b / 1) (ho_of c) (wo_of c) (act_of b c)) st = spT b c.
Proof.
  intros b c st Hb Hc. destruct (cell_facts b c Hb Hc) as (F1 & F2 & F3 & F4 & F5 & F6 & F7 & F8 & F9 & F10 & F11 & F12 & F13 & F14 & F15 & F16). rewrite Nat.div_1_r. unfold spF, spT. destruct (length (act_of b c) =? 0).
  - eapply (sinit_trace NW V nloc nci nco H W B Ho Wo as_out ninf nq quad kf vf qf) with (out := out); eauto.
  - eapply (sprog_trace NW V nloc nci nco H W B Ho Wo as_out ninf nq quad kf vf qf) with (out := out); eauto.
Qed.
Lemma special_good : forall g b c, g < k_groups ka -> key g = Some (b, c) -> b < B * 1 -> c < nl * Wo -> fgood ka NW (rown NW V nci mid (act_of b c)) (rpub V nci (act_of b c)) (fun _ => None) hl g false (spF (b / 1) (ho_of c) (wo_of c) (act_of b c)).
Proof.
  intros g b c Hg Ek Hb Hc. destruct (cell_facts b c Hb Hc) as (F1 & F2 & F3 & F4 & F5 & F6 & F7 & F8 & F9 & F10 & F11 & F12 & F13 & F14 & F15 & F16). rewrite Nat.div_1_r. unfold spF. destruct (length (act_of b c) =? 0).
  - eapply (sinit_good NW V nloc nci nco H W B Ho Wo as_out ninf nq quad qf) with (out := out); eauto.
  - eapply (sprog_good NW V nloc nci nco H W B Ho Wo as_out ninf nq quad kf vf qf) with (out := out); eauto; try reflexivity.
    + apply (hl_own _ g 0 0 b c 0); auto; try (cbn; lia). apply own0. lia.
    + apply (hl_own _ g 0 1 b c 0); auto; try (cbn; lia). apply own0. lia.
    + intros t x Ht Hx. apply (rout_covers NW V nloc nco HV Hnl Hout t Ht) in Hx. apply (hl_own _ g t 2 b c x); auto; try tauto.
Qed.
Lemma special_expand : forall b ho wo act, expand BD (scratch V nci mid) (spF b ho wo act) = rspecial_body BD V nloc nci nco H W B Ho Wo as_out ninf mid base (part arr 0) (part arr 1) (part arr 2) (part arr 3) b ho wo act.
Proof.
  intros b ho wo act. unfold spF, rspecial_body. cbv zeta. destruct (length act =? 0); [reflexivity|]. unfold sprog, gprog. rewrite !expand_app, expand_flat. unfold expand at 1 3. cbn [flat_map expand1 app]. f_equal. f_equal. f_equal.
  apply flat_map_ext. intros [i [l [hi p]]]. unfold gentry, rspecial_entry, score, sstep, dot_seg, kb, x_pt, the_sum. cbn [expand flat_map expand1 app fst snd]. rewrite <- ?app_assoc; reflexivity.
Qed.
Lemma special_settles0 : forall rg sh, settles ka (start ka rg sh out) (fun o => o = upds (flat_map (at_key key spT) (seq 0 G)) out).
Proof.
  intros rg sh. refine (row_settles NW BY V nloc nci nco H W Wi ps lon_lo lat0 B Ho Wo as_out P nq HNW HV Hnl Hout Hin HBY HWi HP mid 1 nl rows (le_n 1) Hlen Hrows Hmid1 ka (fun _ => None) hl _ spF spT rg sh out eq_refl eq_refl _ eq_refl special_expand special_good special_trace hl_one).
  intros HN. unfold alias, rspecial_kernel. cbn [k_shared]. destruct (Nat.eqb_spec BD 32); [lia|]. rewrite Nat.mul_comm, Nat.div_mul by lia. lia.
Qed.
(** ** Writes come after the group has read *)
Lemma special_sync : sync_first base k0.
Proof.
  set (A := fun g t => match key g with None => [] | Some (b, c) => sinit NW V nloc nci nco B Ho Wo as_out (b / 1) (ho_of c) (wo_of c) (act_of b c) (part arr 2) (part arr 3) base t end).
  set (B' := fun g t => match key g with None => [] | Some (b, c) => let act := act_of b c in let batch := b / 1 in let ho := ho_of c in let wo := wo_of c in code_of (if length act =? 0 then [] else
   flat_map (rspecial_entry BD V nloc nci nco H W as_out ninf mid (part arr 0) (part arr 1) batch) (listed act) ++
   [Seg (fun t => sfin NW V nloc nco B Ho Wo batch ho wo t)]) t end).
  assert (HC : forall g t, g < k_groups k0 -> k_code k0 g t = match key g with None => [] | Some _ => A g t ++ ISync (fun all => all t) :: B' g t end).
  { intros g t Hg. change (k_code k0 g t) with (code_of (row_group BD BY H W Wi ps lon_lo lat0 Wo (offsets 0 P) (columns P) mid 1 nl rows (rspecial_body BD V nloc nci nco H W B Ho Wo as_out ninf mid base (part arr 0) (part arr 1) (part arr 2) (part arr 3)) g) t).
    rewrite (row_group_eq NW BY V nloc nci nco H W Wi ps lon_lo lat0 B Ho Wo as_out P nq HNW HV Hnl Hout Hin HBY HWi HP mid 1 nl rows (le_n 1) Hlen Hrows Hmid1) by exact Hg. unfold A, B'. destruct (key g) as [[b c]|]; [|reflexivity].
    unfold rspecial_body. cbv zeta. unfold code_of at 1. rewrite flat_map_app. cbn [flat_map code1 app group_sync]. unfold sinit; cbn [app]; rewrite <- !app_assoc; reflexivity. }
  assert (Part : forall i, i < 4 -> fst (part arr i) + snd (part arr i) <= base) by (intros i Hi; apply part_le; exact Hi).
  assert (Dst : forall b c t i, b < B * 1 -> c < nl * Wo -> t < BD -> In i (sfin NW V nloc nco B Ho Wo b (ho_of c) (wo_of c) t) -> (forall r a, i <> IGet r a) /\ forall a, writes i a -> exists j x, j < 3 /\ x < nch j /\ a = addr j b c x).
  { intros b c t i Hb Hc Ht Hi. unfold sfin in Hi. apply in_app_iff in Hi. destruct Hi as [Hi|Hi].
    - destruct (t =? 0); [|destruct Hi]. destruct Hi as [<-|[<-|[]]]; unfold set_out; (destruct (_ <? _); (split; [discriminate|])); intros a E; try (destruct E; fail); cbn [writes s_sum s_max fst] in E; subst a; [exists 0, 0|exists 1, 0]; cbn [nch addr]; repeat split; lia.
    - apply in_map_iff in Hi. destruct Hi as (x & <- & Hx). apply (rout_covers NW V nloc nco HV Hnl Hout t Ht) in Hx. unfold set_out. destruct (_ <? _); (split; [discriminate|]); intros a E; [|destruct E]. cbn [writes s_acc fst] in E. subst a. exists 2, x. cbn [nch addr]. unfold acc_at. destruct Hx as [Hx _]. repeat split; auto; lia. }
  assert (TB : forall g t i, g < k_groups k0 -> t < BD -> In i (B' g t) -> (forall r a, i = IGet r a -> a < base) /\ forall a, writes i a -> exists b c j x, key g = Some (b, c) /\ b < B * 1 /\ c < nl * Wo /\ j < 3 /\ x < nch j /\ a = addr j b c x).
  { intros g t i Hg Ht. unfold B'. destruct (key g) as [[b c]|] eqn:Ek; [|intros []]. cbv zeta. destruct (ky_in _ _ _ _ KY g b c Hg Ek) as [Hb Hc]. destruct (length (act_of b c) =? 0); [intros []|].
    unfold code_of. rewrite flat_map_app. intros Hi. apply in_app_iff in Hi. destruct Hi as [Hi|Hi].
    - apply in_flat_map in Hi. destruct Hi as (st & Hs & Hi). apply in_flat_map in Hs. destruct Hs as (x & _ & Hs). destruct x as [i0 [l [hi p]]]. unfold rspecial_entry, score in Hs.
      assert (T : Forall (tame base (fun _ => False)) (code1 st t)).
      { assert (P0 := Part 0 ltac:(lia)). assert (P1 := Part 1 ltac:(lia)). apply in_app_iff in Hs. destruct Hs as [Hs|[<-|[]]]; [destruct Hs as [<-|Hs]|].
        - cbn [code1]. constructor; [tm|]. apply Forall_flat. intros ch _. fa; tm.
        - assert (Q := tame_sum base (fun _ => False) NW (scratch V nci mid) r_dot t). rewrite <- the_sum_block in Q. unfold code_of in Q. rewrite Forall_flat_map in Q. rewrite Forall_forall in Q. exact (Q st Hs).
        - cbn [code1]. apply Forall_app. split; [unfold grow; fa; tm|]. apply Forall_app. split; [|fa; tm]. apply Forall_flat. intros ch _. fa; tm. }
      rewrite Forall_forall in T. destruct (T i Hi) as [T1 T2]. split; [exact T1|]. intros a Wa. destruct (T2 a Wa).
    - cbn [flat_map code1] in Hi. rewrite app_nil_r in Hi. rewrite Nat.div_1_r in Hi. destruct (Dst b c t i Hb Hc Ht Hi) as [D1 D2]. split; [intros r a E; destruct (D1 r a E)|]. intros a Wa. destruct (D2 a Wa) as (j & x & Q). exists b, c, j, x. auto. }
  apply (sync_by_bar base k0 A B').
  - intros g t Hg Ht. exists (fun all => all t). rewrite HC by exact Hg. unfold A. destruct (key g) as [[b c]|]; [now left|right; auto].
  - intros g t i Hg Ht Hi. unfold A in Hi. destruct (key g) as [[b c]|]; [|destruct Hi]. unfold sinit in Hi. assert (GG : forall p r j, is_sync (get p r j) = false /\ forall a, ~ writes (get p r j) a) by (intros p r j; unfold get; destruct (_ <? _); split; try reflexivity; intros a []).
    assert (SS : forall a f, is_sync (IStore a f) = false /\ forall a', ~ writes (IStore a f) a') by (intros; split; [reflexivity|intros a' []]).
    apply in_app_iff in Hi. destruct Hi as [[<-|[<-|[]]]|Hi]; try apply GG. apply in_app_iff in Hi. destruct Hi as [Hi|Hi]; [apply in_map_iff in Hi; destruct Hi as (x & <- & _); apply GG|]. apply in_app_iff in Hi. destruct Hi as [Hi|Hi].
    + unfold load_q in Hi. apply in_flat_map in Hi. destruct Hi as (x & _ & [<-|[<-|[]]]); auto.
    + unfold stash in Hi. apply in_flat_map in Hi. destruct Hi as (x & _ & Hi). destruct (_ =? _); [|destruct Hi]. destruct Hi as [<-|[<-|[]]]; auto.
  - intros g t r a Hg Ht Hi. destruct (TB g t _ Hg Ht Hi) as [T _]. specialize (T r (base + a) eq_refl). clear - T. set (bs := base) in *. clearbody bs. lia.
  - intros g t i g' t' r a Hg Ht Hg' Ht' Hi Wa Hr. destruct (TB g t i Hg Ht Hi) as [_ T]. destruct (T a Wa) as (b & c & j & x & Ek & Hb & Hc & Hj & Hx & Ea).
    assert (R' : exists b' c' j' x', key g' = Some (b', c') /\ b' < B * 1 /\ c' < nl * Wo /\ j' < 3 /\ x' < nch j' /\ a = addr j' b' c' x').
    { unfold A in Hr. destruct (key g') as [[b' c']|] eqn:Ek'; [|destruct Hr]. destruct (ky_in _ _ _ _ KY g' b' c' Hg' Ek') as [Hb' Hc']. rewrite Nat.div_1_r in Hr. exists b', c'.
      assert (GA : forall p r0 i0, get p r0 i0 = IGet r (base + a) -> fst p + i0 = base + a) by (intros p r0 i0; unfold get; destruct (_ <? _); [intros E; congruence|discriminate]).
      assert (GB : forall i r0 i0, i < 4 -> get (part arr i) r0 i0 = IGet r (base + a) -> False). { intros i' r0 i0 Hi' E. unfold get in E. destruct (Nat.ltb_spec i0 (snd (part arr i'))) as [L|L]; [|discriminate]. assert (E' : fst (part arr i') + i0 = base + a) by congruence. assert (Q := Part i' Hi'). clear - L E' Q.  set (bs := base) in *. clearbody bs. lia. }
      unfold sinit in Hr. apply in_app_iff in Hr. destruct Hr as [[Hr|[Hr|[]]]|Hr].
      - apply GA in Hr. cbn [s_sum fst] in Hr. exists 0, 0. cbn [nch addr]. repeat split; auto; lia.
      - apply GA in Hr. cbn [s_max fst] in Hr. exists 1, 0. cbn [nch addr]. repeat split; auto; lia.
      - apply in_app_iff in Hr. destruct Hr as [Hr|Hr].
        + apply in_map_iff in Hr. destruct Hr as (x' & E & Hx'). apply (rout_covers NW V nloc nco HV Hnl Hout t' Ht') in Hx'. apply GA in E. cbn [s_acc fst] in E. exists 2, x'. cbn [nch addr]. unfold acc_at in E. destruct Hx' as [Hx' _]. repeat split; auto; lia.
        + exfalso. apply in_app_iff in Hr. destruct Hr as [Hr|Hr].
          * unfold load_q in Hr. apply in_flat_map in Hr. destruct Hr as (y & _ & [E|[E|[]]]); [|discriminate]. apply GB in E; [exact E|lia].
          * unfold stash in Hr. apply in_flat_map in Hr. destruct Hr as (y & _ & Hr). destruct (_ =? _); [|destruct Hr]. destruct Hr as [E|[E|[]]]; [|discriminate]. apply GB in E; [exact E|lia]. }
    destruct R' as (b' & c' & j' & x' & Ek' & Hb' & Hc' & Hj' & Hx' & Ea'). rewrite Ea in Ea'. apply addr_inj in Ea'; auto. destruct Ea' as (_ & -> & -> & _). eapply (ky_inj _ _ _ _ KY); eauto.
Qed.
(** ** What is found at the end *)
Definition ad (i u x : nat) : nat := match i with 0 => cells + u | 1 => u | _ => cells + cells + (u * Cv + x) end.
Lemma ad_inj : forall i u x i' u' x', i < 3 -> u < cells -> x < nch i -> i' < 3 -> u' < cells -> x' < nch i' -> ad i u x = ad i' u' x' -> u = u'.
Proof.
  intros i u x i' u' x' Hi Hu Hx Hi' Hu' Hx' E. unfold ad in E. destruct i as [|[|[|]]]; try lia; destruct i' as [|[|[|]]]; try lia; cbn [nch] in Hx, Hx'.
  assert (Q : u * Cv + x = u' * Cv + x') by lia. destruct (split_div Cv u x Hx) as [A1 A2]. destruct (split_div Cv u' x' Hx') as [A3 A4]. rewrite Q in A1. congruence.
Qed.
Lemma sFT_in : forall b c t u, t < BD -> (In u (sFT NW V nloc nci nco B Ho Wo ninf quad kf vf qf b (ho_of c) (wo_of c) (act_of b c) (buf b (ho_of c) (wo_of c)) t) <-> exists i x, i < 3 /\ In x (chs i t) /\ u = (addr i b c x, USet, vl i b c x)).
Proof.
  intros b c t u Ht. unfold sFT. cbv zeta. change (Sd V nci quad kf vf qf b (ho_of c) (wo_of c) (buf b (ho_of c) (wo_of c)) (listed (act_of b c))) with (spS b c). rewrite in_app_iff. split.
  - intros [Hu|Hu].
    + destruct (Nat.eqb_spec t 0) as [Q|Q]; [subst t|destruct Hu]. destruct Hu as [<-|[<-|[]]]; [exists 0, 0|exists 1, 0]; cbn; repeat split; auto.
    + apply in_map_iff in Hu. destruct Hu as (x & <- & Hx). exists 2, x. split; [lia|]. split; [exact Hx|reflexivity].
  - intros (i & x & Hi & Hx & ->). destruct i as [|[|[|]]]; try lia; cbn [chs] in Hx.
    + left. destruct (t =? 0); [|destruct Hx]. left. reflexivity.
    + left. destruct (t =? 0); [|destruct Hx]. right. left. reflexivity.
    + right. apply in_map_iff. exists x. split; [reflexivity|exact Hx].
Qed.
Lemma spT_in : forall b c u, In u (spT b c) -> exists i x, i < 3 /\ x < nch i /\ u = (addr i b c x, USet, vl i b c x).
Proof.
  intros b c u Hu. unfold spT in Hu. destruct (_ =? 0); [destruct Hu|]. apply in_flat_map in Hu. destruct Hu as (t & Ht & Hu). apply in_seq in Ht. apply sFT_in in Hu; [|lia]. destruct Hu as (i & x & Hi & Hx & E). exists i, x. split; [exact Hi|]. split; [|exact E]. apply (chs_cover i Hi t) in Hx; [tauto|lia].
Qed.
Lemma spT_has : forall b c i x, length (act_of b c) <> 0 -> i < 3 -> x < nch i -> In (addr i b c x, USet, vl i b c x) (spT b c).
Proof.
  intros b c i x Hl Hi Hx. unfold spT. destruct (Nat.eqb_spec (length (act_of b c)) 0); [contradiction|]. assert (L : chan_own BD V x < BD) by (unfold chan_own; apply Nat.mod_upper_bound; lia). apply in_flat_map. exists (chan_own BD V x). split; [apply in_seq; lia|]. apply sFT_in; [exact L|]. exists i, x. split; [exact Hi|]. split; [|reflexivity]. apply (chs_cover i Hi _ L). auto.
Qed.
Notation final := (upds (flat_map (at_key key spT) (seq 0 G)) out).
Lemma final_in : forall b c i x, b < B -> c < nl * Wo -> i < 3 -> x < nch i -> final (addr i b c x) = vl i b c x.
Proof.
  intros b c i x Hb Hc Hi Hx. assert (Hb' : b < B * 1) by lia. apply upds_keep.
  - intros u Hu Ea. apply (in_at_key _ G (B * 1) (nl * Wo) key spT u KY) in Hu. destruct Hu as (b' & c' & Hb2 & Hc2 & Hu). apply spT_in in Hu. destruct Hu as (i' & x' & Hi' & Hx' & ->). cbn [fst] in Ea. rewrite Ea. apply addr_inj in Ea; auto. destruct Ea as (-> & -> & -> & ->). reflexivity.
  - destruct (Nat.eq_dec (length (act_of b c)) 0) as [E|E].
    + left. destruct (cell_facts b c Hb' Hc) as (_ & _ & _ & _ & _ & _ & _ & _ & _ & _ & _ & _ & _ & (O1 & O2 & O3) & _). unfold vl, spS, addr. cbv zeta. apply length_zero_iff_nil in E. rewrite E. cbn [listed length seq combine Sd fold_left]. destruct i as [|[|[|]]]; try lia.
      * rewrite <- O2. unfold CudaRescaleSpec.the_sum. f_equal. lia.
      * exact O1.
      * cbn [nch] in Hx. rewrite <- (O3 x Hx). unfold the_acc. f_equal. lia.
    + right. exists (addr i b c x, USet, vl i b c x). split; [|reflexivity]. apply (in_at_key _ G (B * 1) (nl * Wo) key spT _ KY). exists b, c. split; [exact Hb'|]. split; [exact Hc|]. now apply spT_has.
Qed.
Lemma final_off : forall b h w i x, b < B -> h < Ho -> w < Wo -> ~ In h (firstn nl rows) -> i < 3 -> x < nch i -> final (ad i ((b * Ho + h) * Wo + w) x) = out (ad i ((b * Ho + h) * Wo + w) x).
Proof.
  intros b h w i x Hb Hh Hw Nh Hi Hx. apply upds_out. intros u Hu Ea. apply (in_at_key _ G (B * 1) (nl * Wo) key spT u KY) in Hu. destruct Hu as (b' & c' & Hb2 & Hc2 & Hu). apply spT_in in Hu. destruct Hu as (i' & x' & Hi' & Hx' & ->). cbn [fst] in Ea.
  destruct (gcell' c' Hc2) as (D1 & D2 & D3 & _). rewrite Nat.mul_1_r in Hb2. change (addr i' b' c' x') with (ad i' (cell_of Ho Wo b' (ho_of c') (wo_of c')) x') in Ea. rewrite <- cell_of_eq in Ea. apply ad_inj in Ea; auto; try now apply cell_of_lt.
  apply cell_of_inj in Ea; auto. destruct Ea as (_ & E & _). apply Nh. rewrite <- E. unfold gho. rewrite <- (firstn_skipn nl rows) at 1. rewrite app_nth1 by (rewrite firstn_length; lia). apply nth_In. rewrite firstn_length. lia.
Qed.
Lemma final_cell : forall b h w, b < B -> h < Ho -> w < Wo ->
  (In h (firstn nl rows) -> holds cells Cv 1 ninf final ((b * Ho + h) * Wo + w) (fold_left (ring_visit Ck quad H W lon_lo lat0 kf vf qf Wi ps b h w) (nth h P []) (buf b h w))) /\
  (~ In h (firstn nl rows) -> holds cells Cv 1 ninf final ((b * Ho + h) * Wo + w) (buf b h w)).
Proof.
  intros b h w Hb Hh Hw. assert (Es : forall f u, CudaRescaleSpec.the_sum cells f 0 u = f (ad 0 u 0)) by (intros f u; unfold CudaRescaleSpec.the_sum, ad; f_equal; lia). assert (Ea : forall f u x, the_acc cells Cv 1 f 0 u x = f (ad 2 u x)) by (intros f u x; unfold the_acc, ad; f_equal; lia). split.
  - intros Hi. apply (In_nth _ _ 0) in Hi. destruct Hi as (j & Lj & Ej). rewrite firstn_length in Lj. set (c := j * Wo + w). destruct (split_div Wo j w Hw) as [S1 S2]. assert (Hc : c < nl * Wo) by (unfold c; assert (j < nl) by lia; nia).
    assert (Eh : ho_of c = h). { unfold gho, c. rewrite S1. rewrite <- Ej. rewrite <- (firstn_skipn nl rows) at 1. apply app_nth1. rewrite firstn_length. lia. }
    assert (Ew : wo_of c = w) by (unfold gwo, c; rewrite S1; lia).
    assert (ES : fold_left (ring_visit Ck quad H W lon_lo lat0 kf vf qf Wi ps b h w) (nth h P []) (buf b h w) = spS b c).
    { unfold spS, gact. rewrite Eh, Ew. rewrite Nat.mod_1_r, share_all. unfold Sd. apply (visits_found NW BY V nloc nci nco H W Wi ps lon_lo lat0 as_out quad kf vf qf HNW HV Hnl Hout Hin HBY HWi). }
    rewrite ES. assert (Ac : forall i x, addr i b c x = ad i ((b * Ho + h) * Wo + w) x) by (intros i x; unfold addr, ad; cbv zeta; rewrite Eh, Ew, cell_of_eq; reflexivity). split; [|split].
    + change (final (ad 1 ((b * Ho + h) * Wo + w) 0) = vl 1 b c 0). rewrite <- Ac. apply final_in; auto; cbn; lia.
    + rewrite Es, <- Ac. apply (final_in b c 0 0); auto; cbn; lia.
    + intros x Hx. rewrite Ea, <- Ac. apply (final_in b c 2 x); auto.
  - intros Nh. destruct (HO b h w Hb Hh Hw) as (O1 & O2 & O3). split; [|split].
    + rewrite <- O1. change (final (ad 1 ((b * Ho + h) * Wo + w) 0) = out (ad 1 ((b * Ho + h) * Wo + w) 0)). apply final_off; auto; cbn; lia.
    + rewrite <- O2, !Es. apply final_off; auto; cbn; lia.
    + intros x Hx. rewrite <- (O3 x Hx), !Ea. apply final_off; auto.
Qed.
Theorem special_settles : forall rg sh, lsettles 1 base k0 (start k0 rg sh out) (fun o => forall b h w, b < B -> h < Ho -> w < Wo ->
  (In h (firstn nl rows) -> holds cells Cv 1 ninf o ((b * Ho + h) * Wo + w) (fold_left (ring_visit Ck quad H W lon_lo lat0 kf vf qf Wi ps b h w) (nth h P []) (buf b h w))) /\
  (~ In h (firstn nl rows) -> holds cells Cv 1 ninf o ((b * Ho + h) * Wo + w) (buf b h w))).
Proof.
  intros rg sh. apply sync_settles; [exact special_sync|]. eapply settles_impl; [apply special_settles0|]. cbv beta. intros o -> b h w Hb Hh Hw. now apply final_cell.
Qed.
End Ctx.
