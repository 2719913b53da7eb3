(** The gather-direction ring kernels: the launches for the long rows. *)
From Coq Require Import List Arith Lia Bool ZArith Reals Lra Permutation FunctionalExtensionality.
From Verif Require Import TensorModel TensorProofs BigSum DiscoModel DiscoSortProofs DistAttnModel DistAttnProofs AttnModel AttnCoreProofs GpuModel GpuSpec GpuProofs GpuProofs2 GpuRwModel GpuRwSpec WarpProofs CudaDiscoModel CudaWarpModel WarpSumProofs CudaFwdProofs CudaAttnModel CudaAttnProofs CudaAttnLaneProofs CudaAttnFwdProofs CudaAttnFwdProofs2 WarpKernelProofs CudaKeyProofs CudaLoopProofs CudaAttnUpProofs2 CudaAttnUpProofs3 CudaAttnUpProofs4 CudaRescaleModel CudaRescaleSpec CudaRescaleProofs4 CudaRescaleProofs5 GroupKernelProofs CudaRingUpSpec CudaRingModel CudaRingProofs CudaRingProofs2 CudaRingProofs3 CudaRingProofs5.
From Verif Require Import AttnSpec.
Import ListNotations.
Local Open Scope nat_scope.

Section Ctx.
Variables (NW BY V nloc nci nco H W Wi ps lon_lo : nat) (lat0 : Z) (B Ho Wo : nat) (as_out : bool) (ninf : R) (P : pattern) (nq : nat) (kA vA qA quad : nat -> R) (kf vf qf : fld).
Notation BD := (32 * NW). Notation Ck := (V * nci). Notation Cv := (V * nco). Notation cells := (B * Ho * Wo).
Hypotheses (HNW : 1 <= NW <= 32) (HV : 1 <= V) (Hnl : 1 <= nloc) (Hout : (nloc - 1) * BD <= nco <= nloc * BD) (Hin : as_out = true -> (nloc - 1) * BD <= nci <= nloc * BD).
Hypotheses (HBY : 1 <= BY) (HWi : 1 <= Wi) (HP : pattern_ok P Ho (nq * Wi)).
Hypotheses (Lk : lays B H W Ck kA kf) (Lv : lays B H W Cv vA vf) (Lq : lays B Ho Wo Ck qA qf).
Variables (mid per nl : nat) (rows : list nat).
Hypotheses (Hper : 1 <= per) (Hlen : nl <= length rows) (ND : NoDup rows) (Hrows : forall h, h < nl -> nth h rows 0 < Ho).
Hypothesis (Hmid : forall h s wo, h < nl -> s < per -> length (found BD H W Wi ps lon_lo lat0 wo (share per s (nth (nth h rows 0) P []))) <= mid).
Notation key := (rkey BY Wo nl). Notation ho_of := (gho Wo rows). Notation wo_of := (gwo Wo).
Notation act_of := (gact NW H W Wi ps lon_lo lat0 Wo P per rows).
Notation G := (B * per * long_width BY nl Wo).
Notation KY := (rkeyed NW BY V nloc nci nco Wi B Wo as_out HNW HV Hnl Hout Hin HBY HWi per nl rows Hper Hlen).
Notation active := (active H W Wi ps lon_lo lat0).
Notation cin := (rin_chans BD V nloc nci as_out). Notation clp := (rloop_chans BD V nci). Notation cout := (rout_chans BD V nloc nco).
(** the entries of a cell *)
Definition ents (w h : nat) : list entry := flat_map (active w) (nth h P []).
Definition es (b h w : nat) (e : entry) : R := dot Ck (qf b h w) (kf b (fst (snd e)) (snd (snd e))).
Definition ew (e : entry) : R := quad (fst e).
Definition ev (b : nat) (e : entry) : nat -> R := vf b (fst (snd e)) (snd (snd e)).
Lemma visits_erun : forall b h w st, fold_left (ring_visit Ck quad H W lon_lo lat0 kf vf qf Wi ps b h w) (nth h P []) st = erun (es b h w) ew (ev b) (ents w h) st.
Proof.
  intros b h w st. unfold erun, ents. rewrite <- fold_flat. revert st. induction (nth h P []) as [|c l IH]; intros st; [reflexivity|]. cbn [fold_left]. rewrite (visit_active NW BY V nloc nci nco H W Wi ps lon_lo lat0 as_out quad kf vf qf HNW HV Hnl Hout Hin HBY HWi). apply IH.
Qed.
Lemma gcell6 : forall c, c < nl * Wo -> c / Wo < nl /\ wo_of c < Wo /\ ho_of c < Ho /\ c = c / Wo * Wo + wo_of c.
Proof. intros c Hc. exact (gcell NW BY V nloc nci nco Wi Ho Wo as_out HNW HV Hnl Hout Hin HBY HWi per nl rows Hper Hlen Hrows c Hc). Qed.
Lemma cells_inj6 : forall b c b' c', c < nl * Wo -> c' < nl * Wo -> cell_of Ho Wo b (ho_of c) (wo_of c) = cell_of Ho Wo b' (ho_of c') (wo_of c') -> b = b' /\ c = c'.
Proof.
  intros b c b' c' Hc Hc' E. destruct (gcell6 c Hc) as (D1 & D2 & D3 & D4). destruct (gcell6 c' Hc') as (D1' & D2' & D3' & D4'). apply cell_of_inj in E; auto. destruct E as (E1 & E2 & E3). split; [exact E1|].
  unfold gho in E2. apply (NoDup_nth rows 0) in E2; [|exact ND|lia|lia]. rewrite D4, D4'. now rewrite E2, E3.
Qed.
Lemma row_cell : forall h w, In h (firstn nl rows) -> w < Wo -> exists c, c < nl * Wo /\ ho_of c = h /\ wo_of c = w.
Proof.
  intros h w Hi Hw. apply (In_nth _ _ 0) in Hi. destruct Hi as (j & Lj & Ej). rewrite firstn_length in Lj. exists (j * Wo + w). destruct (split_div Wo j w Hw) as [S1 S2]. split; [assert (j < nl) by lia; nia|]. unfold gho, gwo. rewrite S1. split; [|lia]. rewrite <- Ej. rewrite <- (firstn_skipn nl rows) at 1. apply app_nth1. rewrite firstn_length. lia.
Qed.
Lemma row_listed : forall c, c < nl * Wo -> In (ho_of c) (firstn nl rows).
Proof. intros c Hc. destruct (gcell6 c Hc) as (D1 & _). unfold gho. rewrite <- (firstn_skipn nl rows) at 1. rewrite app_nth1 by (rewrite firstn_length; lia). apply nth_In. rewrite firstn_length. lia. Qed.
Lemma batch_lt : forall b, b < B * per -> b / per < B.
Proof. intros b Hb. apply Nat.div_lt_upper_bound; [lia|]. now rewrite Nat.mul_comm. Qed.
(** entries of the shares and of the row *)
Lemma act_ents : forall b c, map (fun x : item => snd (snd x)) (listed (act_of b c)) = flat_map (active (wo_of c)) (share per (b mod per) (nth (ho_of c) P [])).
Proof. intros b c. rewrite <- (map_map snd snd), listed_map. unfold gact. apply found_snd. Qed.
Lemma shares_sum : forall (g : entry -> R) c, rlsum (fun s => rlsum g (flat_map (active (wo_of c)) (share per s (nth (ho_of c) P [])))) (seq 0 per) = rlsum g (ents (wo_of c) (ho_of c)).
Proof.
  intros g c. unfold ents. rewrite (lsum_flat_map RT). rewrite <- (lsum_perm RT _ _ _ _ (shares_perm per (nth (ho_of c) P []) Hper)). rewrite (lsum_flat_map RT). apply lsum_ext. intros s _. apply (lsum_flat_map RT).
Qed.
Lemma in_share : forall c e, In e (ents (wo_of c) (ho_of c)) <-> exists s, s < per /\ In e (flat_map (active (wo_of c)) (share per s (nth (ho_of c) P []))).
Proof.
  intros c e. unfold ents. split.
  - intros He. apply in_flat_map in He. destruct He as (x & Hx & He). apply (Permutation_in _ (Permutation_sym (shares_perm per (nth (ho_of c) P []) Hper))) in Hx. apply in_flat_map in Hx. destruct Hx as (s & Hs & Hx). apply in_seq in Hs. exists s. split; [lia|]. apply in_flat_map. eauto.
  - intros (s & Hs & He). apply in_flat_map in He. destruct He as (x & Hx & He). apply in_flat_map. exists x. split; [|exact He]. apply (share_in per s); auto.
Qed.
Section Facts.
Variables (k : kernel) (arr : list (nat * (nat -> R))) (ik iv iq : nat).
Hypotheses (Ein : k_in k = joined arr) (Esz : k_insize k = list_sum (map fst arr)) (Esh : scratch V nci mid <= k_shared k).
Lemma long_facts : forall b c, b < B * per -> c < nl * Wo -> nth ik arr (0, fun _ => 0%R) = (B * H * W * Ck, kA) -> ik < length arr -> nth iq arr (0, fun _ => 0%R) = (cells * Ck, qA) -> iq < length arr ->
  b / per < B /\ ho_of c < Ho /\ wo_of c < Wo /\ length (act_of b c) <= mid /\
  (forall x, In x (listed (act_of b c)) -> x_lane x < BD /\ x_hi x < nq /\ fst (x_pt x) < H /\ snd (x_pt x) < W) /\
  (forall p, fst p < H -> snd p < W -> reads (k_in k) (k_insize k) (part arr ik) (k_at V nci H W (b / per) p) Ck (kf (b / per) (fst p) (snd p))) /\
  reads (k_in k) (k_insize k) (part arr iq) (q_at V nci Ho Wo (b / per) (ho_of c) (wo_of c)) Ck (qf (b / per) (ho_of c) (wo_of c)) /\
  (nth iv arr (0, fun _ => 0%R) = (B * H * W * Cv, vA) -> iv < length arr -> forall p, fst p < H -> snd p < W -> reads (k_in k) (k_insize k) (part arr iv) (v_at V nco H W (b / per) p) Cv (vf (b / per) (fst p) (snd p))).
Proof.
  intros b c Hb Hc Ek Lik Eq Liq. destruct (gcell6 c Hc) as (_ & D2 & D3 & _). assert (Lb := batch_lt b Hb). rewrite Ein, Esz.
  split; [exact Lb|]. split; [exact D3|]. split; [exact D2|]. split; [exact (gact_mid NW BY V nloc nci nco H W Wi ps lon_lo lat0 Ho Wo as_out P HNW HV Hnl Hout Hin HBY HWi mid per nl rows Hper Hlen Hrows Hmid b c Hc)|].
  split; [intros x Hx; exact (gact_ok NW BY V nloc nci nco H W Wi ps lon_lo lat0 Ho Wo as_out P nq HNW HV Hnl Hout Hin HBY HWi HP per nl rows Hper Hlen Hrows b c x Hc Hx)|].
  split. { intros p Hp1 Hp2. eapply (lays_reads NW BY V nloc nci nco Wi B as_out HNW HV Hnl Hout Hin HBY HWi arr ik H W Ck kA kf); eauto. apply k_at_eq. }
  split. { eapply (lays_reads NW BY V nloc nci nco Wi B as_out HNW HV Hnl Hout Hin HBY HWi arr iq Ho Wo Ck qA qf); eauto. apply q_at_eq. }
  intros Ev Liv p Hp1 Hp2. eapply (lays_reads NW BY V nloc nci nco Wi B as_out HNW HV Hnl Hout Hin HBY HWi arr iv H W Cv vA vf); eauto. apply v_at_eq.
Qed.
End Facts.

(** ** The maxima *)
Section Softmax.
Variables (st : nat -> R).
Notation arr := [(B * H * W * Ck, kA); (cells * Ck, qA); (cells, st)].
Notation k1 := (rsoftmax_kernel BD BY V nci H W Wi ps lon_lo lat0 B Ho Wo (offsets 0 P) (columns P) kA qA mid per nl rows st).
Definition xF (b ho wo : nat) (act : list (nat * entry)) : list fstep := gprog act clp (part arr 0) (kb V nci H W b) (xinit NW V nci Ho Wo b ho wo (part arr 1) (part arr 2)) (xfin B Ho Wo b ho wo) xstep.
Definition xval (b c : nat) : R := xmax V nci Ho Wo kf qf (b / per) (ho_of c) (wo_of c) st (listed (act_of b c)).
Definition xT (b c : nat) : list upd := flat_map (xFT V nci Ho Wo kf qf (b / per) (ho_of c) (wo_of c) (act_of b c) st) (seq 0 BD).
Lemma xT_in : forall b c u, In u (xT b c) <-> u = (cell_of Ho Wo (b / per) (ho_of c) (wo_of c), UAtom AMax, xval b c).
Proof.
  intros b c u. unfold xT. rewrite in_flat_map. split.
  - intros (t & _ & Hu). unfold xFT in Hu. destruct (t =? 0); [|destruct Hu]. destruct Hu as [<-|[]]. reflexivity.
  - intros ->. exists 0. split; [apply in_seq; lia|]. left. reflexivity.
Qed.
Lemma soft_settles0 : forall rg sh, settles k1 (start k1 rg sh st) (fun o => o = upds (flat_map (at_key key xT) (seq 0 G)) st).
Proof.
  intros rg sh. refine (row_settles NW BY V nloc nci nco H W Wi ps lon_lo lat0 B Ho Wo as_out P nq HNW HV Hnl Hout Hin HBY HWi HP mid per nl rows Hper Hlen Hrows Hmid k1 (fun _ => Some AMax) (fun _ _ => False) _ xF xT rg sh st eq_refl eq_refl _ eq_refl _ _ _ _).
  - intros HN. unfold rsoftmax_kernel. cbn [k_shared]. destruct (Nat.eqb_spec BD 32); [lia|]. rewrite Nat.mul_comm, Nat.div_mul by lia. lia.
  - intros b ho wo act. unfold xF, gprog, rsoftmax_body. cbv zeta. rewrite !expand_app, expand_flat. unfold expand at 1 3. cbn [flat_map expand1 app]. reflexivity.
  - intros g b c Hg Ek Hb Hc. destruct (long_facts k1 arr 0 0 1 eq_refl eq_refl b c Hb Hc eq_refl ltac:(cbn; lia) eq_refl ltac:(cbn; lia)) as (F1 & F2 & F3 & F4 & F5 & F6 & F7 & _).
    eapply (xprog_good NW V nci H W B Ho Wo nq kf qf) with (mx := st); eauto; try (unfold rsoftmax_kernel; cbn [k_shared]; apply Nat.le_add_r). apply (array_reads arr 2); [cbn; lia|reflexivity].
  - intros b c s0 Hb Hc. destruct (long_facts k1 arr 0 0 1 eq_refl eq_refl b c Hb Hc eq_refl ltac:(cbn; lia) eq_refl ltac:(cbn; lia)) as (F1 & F2 & F3 & F4 & F5 & F6 & F7 & _).
    eapply (xprog_trace NW V nloc nci nco H W B Ho Wo as_out nq quad kf qf) with (mx := st); eauto; try (unfold rsoftmax_kernel; cbn [k_shared]; apply Nat.le_add_r). apply (array_reads arr 2); [cbn; lia|reflexivity].
  - intros a gt gt' _ Q. destruct Q.
Qed.
Lemma xval_fold : forall b c, xval b c = fold_left Rmax (map (es (b / per) (ho_of c) (wo_of c)) (flat_map (active (wo_of c)) (share per (b mod per) (nth (ho_of c) P [])))) (st (cell_of Ho Wo (b / per) (ho_of c) (wo_of c))).
Proof. intros b c. unfold xval, xmax. rewrite <- act_ents, map_map. rewrite <- (fold_map _ _ _ Rmax). reflexivity. Qed.
Lemma soft_value : forall b h w, b < B -> h < Ho -> w < Wo -> let o := upds (flat_map (at_key key xT) (seq 0 G)) st in let a := (b * Ho + h) * Wo + w in
  (In h (firstn nl rows) -> o a = fold_left Rmax (map (es b h w) (ents w h)) (st a)) /\ (~ In h (firstn nl rows) -> o a = st a).
Proof.
  intros b h w Hb Hh Hw o a. subst o.
  assert (Hx : forall u, In u (flat_map (at_key key xT) (seq 0 G)) <-> exists b' c', b' < B * per /\ c' < nl * Wo /\ u = (cell_of Ho Wo (b' / per) (ho_of c') (wo_of c'), UAtom AMax, xval b' c')).
  { intros u. rewrite (in_at_key _ G (B * per) (nl * Wo) key xT u KY). split; intros (b' & c' & H1 & H2 & H3); exists b', c'; (split; [exact H1|]; split; [exact H2|]); now apply xT_in. }
  split.
  - intros Hi. destruct (row_cell h w Hi Hw) as (c & Hc & Eh & Ew). rewrite upds_max by (intros u Hu _; apply Hx in Hu; destruct Hu as (b' & c' & _ & _ & ->); reflexivity).
    set (l := map snd _). destruct (fold_max l (st a)) as (F1 & F2 & F3). destruct (fold_max (map (es b h w) (ents w h)) (st a)) as (M1 & M2 & M3). set (M := fold_left Rmax (map (es b h w) (ents w h)) (st a)) in *.
    assert (Lin : forall v, In v l <-> exists s, s < per /\ v = fold_left Rmax (map (es b h w) (flat_map (active w) (share per s (nth h P [])))) (st a)).
    { intros v. unfold l. rewrite in_map_iff. split.
      - intros (u & <- & Hu). apply filter_In in Hu. destruct Hu as [Hu Ea]. apply Nat.eqb_eq in Ea. apply Hx in Hu. destruct Hu as (b' & c' & Hb' & Hc' & ->). cbn [fst snd] in *. unfold a in Ea. rewrite <- cell_of_eq, <- Eh, <- Ew in Ea. apply cells_inj6 in Ea; auto. destruct Ea as [<- ->]. exists (b' mod per). split; [apply Nat.mod_upper_bound; lia|]. rewrite xval_fold, Eh, Ew. unfold a. rewrite cell_of_eq. reflexivity.
      - intros (s & Hs & ->). destruct (split_div per b s Hs) as [S1 S2]. exists (cell_of Ho Wo b h w, UAtom AMax, xval (b * per + s) c). cbn [fst snd]. split.
        + rewrite xval_fold, S1, S2, Eh, Ew. unfold a. rewrite cell_of_eq. reflexivity.
        + apply filter_In. cbn [fst snd]. split; [|apply Nat.eqb_eq, cell_of_eq]. apply Hx. exists (b * per + s), c. rewrite S1, Eh, Ew. split; [nia|]. auto. }
    apply Rle_antisym.
    + assert (U : forall v, In v l -> (v <= M)%R). { intros v Hv. apply Lin in Hv. destruct Hv as (s & Hs & ->). destruct (fold_max (map (es b h w) (flat_map (active w) (share per s (nth h P [])))) (st a)) as (_ & _ & [Q|Q]); [rewrite Q; exact M1|]. apply M2. apply in_map_iff in Q. destruct Q as (e & Q & He). rewrite <- Q. apply in_map. rewrite <- Eh, <- Ew in *. apply in_share. eauto. }
      destruct F3 as [F3|F3]; [rewrite F3; exact M1|now apply U].
    + destruct M3 as [M3|M3]; [rewrite M3; exact F1|]. apply in_map_iff in M3. destruct M3 as (e & M3 & He). rewrite <- Eh, <- Ew in He. apply in_share in He. destruct He as (s & Hs & He). rewrite Eh, Ew in He.
      assert (Q := proj2 (Lin _) (ex_intro _ s (conj Hs eq_refl))). apply F2 in Q. destruct (fold_max (map (es b h w) (flat_map (active w) (share per s (nth h P [])))) (st a)) as (_ & Q2 & _). specialize (Q2 (es b h w e) (in_map _ _ _ He)). lra.
  - intros Nh. apply upds_out. intros u Hu Ea. apply Hx in Hu. destruct Hu as (b' & c' & Hb' & Hc' & ->). cbn [fst] in Ea. unfold a in Ea. rewrite <- cell_of_eq in Ea. destruct (gcell6 c' Hc') as (_ & D2 & D3 & _). apply cell_of_inj in Ea; auto. destruct Ea as (_ & E & _). apply Nh. rewrite <- E. now apply row_listed.
Qed.
End Softmax.

(** ** The sums *)
Section Final.
Variables (cur out : nat -> R).
Notation arr := [(B * H * W * Ck, kA); (B * H * W * Cv, vA); (cells * Ck, qA); (nq, quad); (cells, cur)].
Notation k3 := (rfinal_kernel BD BY V nloc nci nco H W Wi ps lon_lo lat0 B Ho Wo as_out (offsets 0 P) (columns P) nq kA vA qA quad mid per nl rows cur).
Definition zF (b ho wo : nat) (act : list (nat * entry)) : list fstep := gprog act cin (part arr 0) (kb V nci H W b) (zinit NW V nloc nci nco Ho Wo as_out b ho wo act (part arr 2) (part arr 3) (part arr 4)) (zfin NW V nloc nco B Ho Wo b ho wo) (zstep NW V nloc nci nco H W b (part arr 1)).
Definition zT (b c : nat) : list upd := flat_map (zFT NW V nloc nci nco B Ho Wo quad kf vf qf (b / per) (ho_of c) (wo_of c) (act_of b c) cur) (seq 0 BD).
Lemma final_settles0 : forall rg sh, settles k3 (start k3 rg sh out) (fun o => o = upds (flat_map (at_key key zT) (seq 0 G)) out).
Proof.
  intros rg sh. refine (row_settles NW BY V nloc nci nco H W Wi ps lon_lo lat0 B Ho Wo as_out P nq HNW HV Hnl Hout Hin HBY HWi HP mid per nl rows Hper Hlen Hrows Hmid k3 (fun _ => Some AAdd) (fun _ _ => False) _ zF zT rg sh out eq_refl eq_refl _ eq_refl _ _ _ _).
  - intros HN. unfold rfinal_kernel. cbn [k_shared]. destruct (Nat.eqb_spec BD 32); [lia|]. rewrite Nat.mul_comm, Nat.div_mul by lia. lia.
  - intros b ho wo act. unfold zF, gprog, rfinal_body. cbv zeta. rewrite !expand_app, expand_flat. unfold expand at 1 3. cbn [flat_map expand1 app]. f_equal. f_equal. f_equal. apply flat_map_ext. intros [i [l [hi p]]]. unfold gentry, rfinal_entry, score, zstep, dot_seg, kb, x_pt, the_sum. cbn [expand flat_map expand1 app fst snd]. rewrite <- ?app_assoc. reflexivity.
  - intros g b c Hg Ek Hb Hc. destruct (long_facts k3 arr 0 1 2 eq_refl eq_refl b c Hb Hc eq_refl ltac:(cbn; lia) eq_refl ltac:(cbn; lia)) as (F1 & F2 & F3 & F4 & F5 & F6 & F7 & F8). specialize (F8 eq_refl ltac:(cbn; lia)).
    eapply (zprog_good NW V nloc nci nco H W B Ho Wo as_out nq quad kf vf qf) with (mx := cur); eauto; try (unfold rfinal_kernel; cbn [k_shared]; apply Nat.le_add_r); [apply (array_reads arr 4)|apply (array_reads arr 3)]; first [reflexivity|cbn; lia].
  - intros b c s0 Hb Hc. destruct (long_facts k3 arr 0 1 2 eq_refl eq_refl b c Hb Hc eq_refl ltac:(cbn; lia) eq_refl ltac:(cbn; lia)) as (F1 & F2 & F3 & F4 & F5 & F6 & F7 & F8). specialize (F8 eq_refl ltac:(cbn; lia)).
    eapply (zprog_trace NW V nloc nci nco H W B Ho Wo as_out nq quad kf vf qf) with (mx := cur); eauto; try (unfold rfinal_kernel; cbn [k_shared]; apply Nat.le_add_r); [apply (array_reads arr 4)|apply (array_reads arr 3)]; first [reflexivity|cbn; lia].
  - intros a gt gt' _ Q. destruct Q.
Qed.
Definition alE (b h w : nat) (e : entry) : R := (exp (es b h w e - cur ((b * Ho + h) * Wo + w)%nat) * ew e)%R.
Lemma zT_sum : forall b c a, b < B * per -> c < nl * Wo -> a < cells -> hits a (zT b c) = (if cell_of Ho Wo (b / per) (ho_of c) (wo_of c) =? a then rlsum (alE (b / per) (ho_of c) (wo_of c)) (flat_map (active (wo_of c)) (share per (b mod per) (nth (ho_of c) P []))) else 0)%R.
Proof.
  intros b c a Hb Hc Ha. unfold zT. rewrite hits_flat, (lsum_seq RT). rewrite (bsum_ext BD _ (fun t => if (t =? 0)%nat then (if cell_of Ho Wo (b / per) (ho_of c) (wo_of c) =? a then zsum V nci Ho Wo quad kf qf (b / per) (ho_of c) (wo_of c) cur (listed (act_of b c)) else 0)%R else 0%R)).
  - rewrite (rsum_one BD 0 (fun _ => _)) by lia. destruct (_ =? a); [|reflexivity]. unfold zsum. rewrite <- act_ents, lsum_map. apply lsum_ext. intros x _. unfold al, alE, es, ew. rewrite cell_of_eq. reflexivity.
  - intros t Ht. unfold zFT. rewrite hits_app, hits_map. rewrite (lsum_ext _ _ (fun _ => 0%R)), (lsum_zero RT); [|intros x _; destruct (Nat.eqb_spec (cells + acc_at V nco Ho Wo (b / per) (ho_of c) (wo_of c) x) a); [lia|reflexivity]].
    rewrite Rplus_0_r. destruct (t =? 0); [|reflexivity]. unfold hits. cbn [lsum_ fold_right fst snd]. ring.
Qed.
Lemma zT_acc : forall b c u x, b < B * per -> c < nl * Wo -> u < cells -> x < Cv -> hits (cells + (u * Cv + x)) (zT b c) = (if cell_of Ho Wo (b / per) (ho_of c) (wo_of c) =? u then rlsum (fun e => alE (b / per) (ho_of c) (wo_of c) e * ev (b / per) e x)%R (flat_map (active (wo_of c)) (share per (b mod per) (nth (ho_of c) P []))) else 0)%R.
Proof.
  intros b c u x Hb Hc Hu Hx. destruct (gcell6 c Hc) as (_ & D2 & D3 & _). assert (Lc := cell_of_lt B Ho Wo (b / per) (ho_of c) (wo_of c) (batch_lt b Hb) D3 D2). unfold zT. rewrite hits_flat.
  set (v := zacc V nci Ho Wo quad kf vf qf (b / per) (ho_of c) (wo_of c) cur (listed (act_of b c))). set (u' := cell_of Ho Wo (b / per) (ho_of c) (wo_of c)) in *.
  transitivity (rlsum (fun t => rlsum (fun ch => if (ch =? x)%nat then (if (u' =? u)%nat then v ch else 0)%R else 0%R) (cout t)) (seq 0 BD)).
  - apply lsum_ext. intros t Ht. apply in_seq in Ht. unfold zFT. rewrite hits_app, hits_map. fold v. assert (E0 : hits (cells + (u * Cv + x)) (if t =? 0 then [(cell_of Ho Wo (b / per) (ho_of c) (wo_of c), UAtom AAdd, zsum V nci Ho Wo quad kf qf (b / per) (ho_of c) (wo_of c) cur (listed (act_of b c)))] else []) = 0%R).
    { destruct (t =? 0); [|reflexivity]. unfold hits. cbn [lsum_ fold_right fst snd]. fold u'. destruct (Nat.eqb_spec u' (cells + (u * Cv + x))); [lia|ring]. }
    rewrite E0, Rplus_0_l. apply lsum_ext. intros ch Hch. apply (rout_covers NW V nloc nco HV Hnl Hout t ltac:(lia)) in Hch. destruct Hch as [Hch _]. unfold acc_at. fold u'. destruct (split_div Cv u' ch Hch) as [A1 A2]. destruct (split_div Cv u x Hx) as [A3 A4].
    destruct (Nat.eqb_spec (cells + (u' * Cv + ch)) (cells + (u * Cv + x))) as [Q|Q].
    + assert (Q' : u' * Cv + ch = u * Cv + x) by lia. rewrite Q' in A1, A2. assert (E1 : ch = x) by congruence. assert (E2 : u' = u) by congruence. rewrite E1, E2, !Nat.eqb_refl. reflexivity.
    + destruct (Nat.eqb_spec ch x) as [->|]; [|reflexivity]. destruct (Nat.eqb_spec u' u) as [->|]; [lia|reflexivity].
  - rewrite (lanes_sum BD Cv (chan_own BD V) cout _ (rout_covers NW V nloc nco HV Hnl Hout)) by (intros; unfold chan_own; apply Nat.mod_upper_bound; lia). rewrite (rsum_one Cv x (fun ch => if (u' =? u)%nat then v ch else 0)%R) by exact Hx. destruct (u' =? u); [|reflexivity].
    unfold v, zacc. rewrite <- act_ents, lsum_map. apply lsum_ext. intros y _. unfold al, alE, es, ew, ev. rewrite cell_of_eq. reflexivity.
Qed.
(** all shares of a cell together *)
Lemma shares_total : forall (F : nat -> nat -> R) (g : entry -> R) b h w, b < B -> In h (firstn nl rows) -> h < Ho -> w < Wo ->
  (forall b' c', b' < B * per -> c' < nl * Wo -> F b' c' = if cell_of Ho Wo (b' / per) (ho_of c') (wo_of c') =? (b * Ho + h) * Wo + w then rlsum g (flat_map (active (wo_of c')) (share per (b' mod per) (nth (ho_of c') P []))) else 0%R) ->
  rsum (B * per) (fun b' => rsum (nl * Wo) (F b')) = rlsum g (ents w h).
Proof.
  intros F g b h w Hb Hi Hh Hw HF. destruct (row_cell h w Hi Hw) as (c & Hc & Eh & Ew). rewrite (bsum_mul_range RT). rewrite <- Eh, <- Ew, <- shares_sum, (lsum_seq RT).
  rewrite (bsum_ext B _ (fun i => if (i =? b)%nat then rsum per (fun s => rlsum g (flat_map (active (wo_of c)) (share per s (nth (ho_of c) P [])))) else 0%R)); [now apply (rsum_one B b (fun _ => _))|].
  intros i Hi'. assert (E : forall s, s < per -> rsum (nl * Wo) (F (i * per + s)) = if (i =? b)%nat then rlsum g (flat_map (active (wo_of c)) (share per s (nth (ho_of c) P []))) else 0%R).
  { intros s Hs. destruct (split_div per i s Hs) as [S1 S2]. rewrite (bsum_ext (nl * Wo) _ (fun c' => if (c' =? c)%nat then (if (i =? b)%nat then rlsum g (flat_map (active (wo_of c')) (share per s (nth (ho_of c') P []))) else 0)%R else 0%R)).
    - apply (rsum_one (nl * Wo) c (fun c' => if (i =? b)%nat then rlsum g (flat_map (active (wo_of c')) (share per s (nth (ho_of c') P []))) else 0)%R Hc).
    - intros c' Hc'. rewrite HF by (auto; nia). rewrite S1, S2. rewrite <- cell_of_eq, <- Eh, <- Ew. destruct (Nat.eqb_spec (cell_of Ho Wo i (ho_of c') (wo_of c')) (cell_of Ho Wo b (ho_of c) (wo_of c))) as [Q|Q].
      + apply cells_inj6 in Q; auto. destruct Q as [-> ->]. now rewrite !Nat.eqb_refl.
      + destruct (Nat.eqb_spec c' c) as [->|]; [|reflexivity]. destruct (Nat.eqb_spec i b) as [->|]; [contradiction|reflexivity]. }
  rewrite (bsum_ext per _ _ E). destruct (i =? b); [reflexivity|]. now apply rsum_0.
Qed.
Lemma final_sums : forall b h w, b < B -> h < Ho -> w < Wo -> let o := upds (flat_map (at_key key zT) (seq 0 G)) out in let a := (b * Ho + h) * Wo + w in
  (In h (firstn nl rows) -> o a = (out a + rlsum (alE b h w) (ents w h))%R /\ forall x, x < Cv -> o (cells + (a * Cv + x)) = (out (cells + (a * Cv + x)%nat) + rlsum (fun e => alE b h w e * ev b e x) (ents w h))%R) /\
  (~ In h (firstn nl rows) -> o a = out a /\ forall x, x < Cv -> o (cells + (a * Cv + x)) = out (cells + (a * Cv + x))).
Proof.
  intros b h w Hb Hh Hw o a. assert (La : a < cells) by (unfold a; rewrite <- cell_of_eq; now apply cell_of_lt).
  assert (Hz : forall u, In u (flat_map (at_key key zT) (seq 0 G)) -> snd (fst u) = UAtom AAdd /\ (fst (fst u) < cells -> exists b' c', b' < B * per /\ c' < nl * Wo /\ fst (fst u) = cell_of Ho Wo (b' / per) (ho_of c') (wo_of c')) /\
     (cells <= fst (fst u) -> exists b' c' x, b' < B * per /\ c' < nl * Wo /\ x < Cv /\ fst (fst u) = cells + (cell_of Ho Wo (b' / per) (ho_of c') (wo_of c') * Cv + x))).
  { intros u Hu. apply (in_at_key _ G (B * per) (nl * Wo) key zT u KY) in Hu. destruct Hu as (b' & c' & Hb' & Hc' & Hu). unfold zT in Hu. apply in_flat_map in Hu. destruct Hu as (t & Ht & Hu). apply in_seq in Ht. destruct (gcell6 c' Hc') as (_ & D2 & D3 & _). assert (Lc := cell_of_lt B Ho Wo (b' / per) (ho_of c') (wo_of c') (batch_lt b' Hb') D3 D2). unfold zFT in Hu. apply in_app_iff in Hu. destruct Hu as [Hu|Hu].
    - destruct (t =? 0); [|destruct Hu]. destruct Hu as [<-|[]]. cbn [fst snd]. split; [reflexivity|]. split; [intros _; eauto|lia].
    - apply in_map_iff in Hu. destruct Hu as (x & <- & Hx). apply (rout_covers NW V nloc nco HV Hnl Hout t ltac:(lia)) in Hx. cbn [fst snd]. split; [reflexivity|]. split; [lia|]. intros _. exists b', c', x. unfold acc_at. tauto. }
  assert (Ad : forall a', o a' = (out a' + hits a' (flat_map (at_key key zT) (seq 0 G)))%R) by (intros a'; apply upds_add; intros u Hu _; now apply Hz).
  split.
  - intros Hi. split; [|intros x Hx]; rewrite Ad; f_equal; unfold hits; rewrite (keyed_sum _ G (B * per) (nl * Wo) key zT _ KY).
    + apply (shares_total (fun b' c' => hits a (zT b' c')) (alE b h w) b h w Hb Hi Hh Hw). intros b' c' Hb' Hc'. rewrite zT_sum by auto. fold a. destruct (Nat.eqb_spec (cell_of Ho Wo (b' / per) (ho_of c') (wo_of c')) a) as [Q|Q]; [|reflexivity]. unfold a in Q. rewrite <- cell_of_eq in Q. destruct (gcell6 c' Hc') as (_ & D2 & D3 & _). apply cell_of_inj in Q; auto. destruct Q as (-> & -> & ->). reflexivity.
    + apply (shares_total (fun b' c' => hits (cells + (a * Cv + x)) (zT b' c')) (fun e => alE b h w e * ev b e x)%R b h w Hb Hi Hh Hw). intros b' c' Hb' Hc'. rewrite zT_acc by auto. fold a. destruct (Nat.eqb_spec (cell_of Ho Wo (b' / per) (ho_of c') (wo_of c')) a) as [Q|Q]; [|reflexivity]. unfold a in Q. rewrite <- cell_of_eq in Q. destruct (gcell6 c' Hc') as (_ & D2 & D3 & _). apply cell_of_inj in Q; auto. destruct Q as (-> & -> & ->). reflexivity.
  - intros Nh. split; [|intros x Hx]; apply upds_out; intros u Hu Ea; destruct (Hz u Hu) as (_ & Z1 & Z2).
    + destruct Z1 as (b' & c' & Hb' & Hc' & E); [lia|]. rewrite Ea in E. unfold a in E. rewrite <- cell_of_eq in E. destruct (gcell6 c' Hc') as (_ & D2 & D3 & _). apply cell_of_inj in E; auto. destruct E as (_ & E & _). apply Nh. rewrite E. now apply row_listed.
    + destruct Z2 as (b' & c' & x' & Hb' & Hc' & Hx' & E); [lia|]. rewrite Ea in E. assert (E' : a * Cv + x = cell_of Ho Wo (b' / per) (ho_of c') (wo_of c') * Cv + x') by lia. destruct (split_div Cv a x Hx) as [A1 _]. destruct (split_div Cv (cell_of Ho Wo (b' / per) (ho_of c') (wo_of c')) x' Hx') as [A3 _]. rewrite E', A3 in A1. unfold a in A1. rewrite <- cell_of_eq in A1. destruct (gcell6 c' Hc') as (_ & D2 & D3 & _). apply cell_of_inj in A1; auto. destruct A1 as (_ & A1 & _). apply Nh. rewrite <- A1. now apply row_listed.
Qed.
End Final.
End Ctx.
