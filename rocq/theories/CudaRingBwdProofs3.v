(** The backward ring kernels, pass 2. *)
From Coq Require Import List Arith Lia Bool ZArith Reals Lra Permutation FunctionalExtensionality.
From Verif Require Import TensorModel TensorProofs BigSum DiscoModel DiscoSortProofs DistAttnModel DistAttnBwdModel DistAttnProofs AttnModel AttnCoreProofs GpuModel GpuSpec GpuProofs GpuProofs2 WarpProofs CudaDiscoModel CudaWarpModel WarpSumProofs CudaFwdProofs CudaAttnModel CudaAttnProofs CudaAttnLaneProofs CudaAttnFwdProofs CudaAttnFwdProofs2 WarpKernelProofs CudaKeyProofs CudaLoopProofs CudaAttnUpModel CudaAttnBwdModel CudaAttnUpProofs2 CudaAttnUpProofs4 CudaRescaleModel GroupKernelProofs CudaRingUpSpec CudaRingModel CudaRingProofs CudaRingProofs2 CudaRingProofs6 CudaRingBwdModel CudaRingBwdProofs CudaRingBwdProofs2.
From Verif Require DistAttnBwdProofs.
From Verif Require Import AttnSpec.
Import ListNotations.
Local Open Scope nat_scope.
Notation upd := (nat * uop * R)%type (only parsing).
Notation entry := (nat * (nat * nat))%type (only parsing).
Notation item := (nat * (nat * (nat * (nat * nat))))%type (only parsing).

Section Ctx.
Variables (NW BY V nloc nci nco H W Wi ps lon_lo : nat) (lat0 : Z) (B Ho Wo : nat) (as_in old : bool) (P : pattern) (nq : nat) (kA vA qA dA quad : nat -> R) (kf vf qf df : fld).
Notation BD := (32 * NW). Notation Ck := (V * nci). Notation Cv := (V * nco). Notation cells := (B * Ho * Wo).
Hypotheses (HNW : 1 <= NW <= 32) (HV : 1 <= V) (Hnl : 1 <= nloc) (Hci : (nloc - 1) * BD <= nci <= nloc * BD) (Hco : as_in = true -> (nloc - 1) * BD <= nco <= nloc * BD).
Hypotheses (HBY : 1 <= BY) (HWi : 1 <= Wi) (HP : pattern_ok P Ho (nq * Wi)).
Hypotheses (Lk : lays B H W Ck kA kf) (Lv : lays B H W Cv vA vf) (Lq : lays B Ho Wo Ck qA qf) (Ld : lays B Ho Wo Cv dA df).
Notation cin := (bin_chans BD V nloc nci). Notation cout := (bout_chans BD V nloc nco as_in).
Notation act0 := (found BD H W Wi ps lon_lo lat0). Notation active := (active H W Wi ps lon_lo lat0).
Notation spl := (old && (V =? 4)).
Definition inside (c : nat) : Prop := (lat0 <= Z.of_nat (c / Wi) < lat0 + Z.of_nat H)%Z.
Lemma activez_in : forall wo c, inside c -> activez H W Wi ps lon_lo lat0 wo c = map inj (active wo c).
Proof.
  intros wo c [H1 H2]. unfold activez, CudaRingModel.active. cbv zeta. destruct ((lon_lo <=? _) && _); [|reflexivity]. rewrite (proj2 (Z.eqb_neq _ _)) by lia. rewrite (proj2 (Z.leb_le _ _)), (proj2 (Z.ltb_lt _ _)) by lia. cbn [andb map]. unfold inj. cbn [fst snd]. rewrite Z2Nat.id by lia. reflexivity.
Qed.
Lemma foundz_in : forall wo es, (forall c, In c es -> inside c) -> foundz BD H W Wi ps lon_lo lat0 wo es = injs (act0 wo es).
Proof.
  intros wo es. unfold foundz, found. set (D := BD). clearbody D. generalize 0 as s. induction es as [|c es IH]; intros s Hi; [reflexivity|]. cbn [length seq combine flat_map fst snd]. unfold injs. rewrite map_app. f_equal; [|apply IH; intros; apply Hi; now right]. rewrite activez_in by (apply Hi; now left). rewrite !map_map. reflexivity.
Qed.

(** ** One group *)
Section Cell.
Variables (b ho wo : nat) (act : list (nat * entry)) (pk pv pq pdy pw psum pmax pint : nat * nat) (sA mA iA : nat -> R).
Notation cell := (cell_of Ho Wo b ho wo).
Definition p2_pre (t : nat) : list instr := [get psum r_sum cell; get pmax r_max cell; get pint r_int cell; ISet r_inv (fun r => 1 / r r_sum)%R].
Definition p2_step (x : item) (t : nat) : list instr :=
  [ILoad r_w (bw_sh V nci nco (fst x)); ISet r_alpha (fun r => exp (r r_dot - r r_max) * r r_w)%R; ISet r_alpha (fun r => r r_alpha * r r_inv)%R;
      ISet r_ag (fun r => (r r_gd - r r_int) * r r_alpha)%R] ++
  flat_map (fun c => [ILoad r_t (Cv + c); add_out AAdd (o_dk V nci H W B) (k_at V nci H W b (x_pt x) + c) (fun r => r r_ag * r r_t)%R]) (p2_chans BD V old nci (cin t) t) ++
  flat_map (fun c => [ILoad r_t (0 + c); add_out AAdd (o_dv V nci nco H W B) (v_at V nco H W b (x_pt x) + c) (fun r => r r_alpha * r r_t)%R]) (p2_chans BD V old nco (cout t) t).
Definition p2_prog : list fstep := bprog V nci nco act cin cout pk pv pq pdy pw (q_at V nci Ho Wo b ho wo) (dy_at V nco Ho Wo b ho wo) (kk V nci H W b) (vv V nco H W b) p2_pre (fun _ => []) p2_step.
Lemma p2_expand : forall mid, expand BD (bscratch V nci nco mid) p2_prog = p2_body BD V nloc nci nco H W B Ho Wo as_in old mid pk pv pq pdy pw psum pmax pint b ho wo (injs act).
Proof.
  intros mid. unfold p2_prog, bprog, p2_body. cbv zeta. rewrite !expand_app, expand_flat. rewrite listedz_injs, flat_of_map. unfold expand at 1 3. cbn [flat_map expand1 app]. f_equal; [|f_equal; f_equal].
  - f_equal. apply functional_extensionality. intros t. rewrite stashz_injs. reflexivity.
  - apply flat_map_ext. intros [i [l [hi p]]]. unfold bentry, p2_entry, bring_sum, bdseg, p2_step, x_pt, inj. cbn [expand flat_map expand1 app fst snd]. rewrite kz_nat, vz_nat. f_equal.
    + f_equal. apply functional_extensionality. intros t. rewrite !dotz_nat. reflexivity.
    + unfold the_sum. f_equal. f_equal. f_equal. f_equal. apply functional_extensionality. intros t. do 4 f_equal. f_equal; apply flat_map_ext; intros c; rewrite <- Nat2Z.inj_add, add_outz_nat; reflexivity.
Qed.
Variables (k : kernel) (mid : nat).
Notation inp := (k_in k). Notation N := (k_insize k).
Hypotheses (Hb : b < B) (Hh : ho < Ho) (Hw : wo < Wo) (Hm : length act <= mid) (Hlane : forall x, In x (listed act) -> x_lane x < BD) (Hhi : forall x, In x (listed act) -> x_hi x < nq) (Hpt : forall x, In x (listed act) -> fst (x_pt x) < H /\ snd (x_pt x) < W).
Hypotheses (RK : forall x, In x (listed act) -> reads inp N pk (k_at V nci H W b (x_pt x)) Ck (kf b (fst (x_pt x)) (snd (x_pt x)))) (RV : forall x, In x (listed act) -> reads inp N pv (v_at V nco H W b (x_pt x)) Cv (vf b (fst (x_pt x)) (snd (x_pt x)))).
Hypotheses (RQ : reads inp N pq (q_at V nci Ho Wo b ho wo) Ck (qf b ho wo)) (RD : reads inp N pdy (dy_at V nco Ho Wo b ho wo) Cv (df b ho wo)) (RW : reads inp N pw 0 nq quad) (RS : reads inp N psum 0 cells sA) (RM : reads inp N pmax 0 cells mA) (RI : reads inp N pint 0 cells iA).
Hypothesis (Hsh : bscratch V nci nco mid <= k_shared k) (Hos : B * H * W * Ck + B * H * W * Cv <= k_outsize k).
Lemma kcell_lt : forall x c C, In x (listed act) -> c < C -> ((b * H + fst (x_pt x)) * W + snd (x_pt x)) * C + c < B * H * W * C.
Proof using Hb Hpt.
  intros x c C Hx Hc. destruct (Hpt x Hx) as [X1 X2]. clear - Hb Hc X1 X2. set (y := fst (x_pt x)) in *. set (z := snd (x_pt x)) in *. clearbody y z. assert (Q1 : (b * H + y + 1) * W <= B * H * W) by (apply Nat.mul_le_mono_r; nia). assert (Q2 : ((b * H + y) * W + z + 1) * C <= B * H * W * C) by (apply Nat.mul_le_mono_r; lia). lia.
Qed.
Definition pown (c : nat) : nat := if spl then c mod BD else chan_own BD V c.
Lemma p2_kcovers : covers BD Ck pown (fun t => p2_chans BD V old nci (cin t) t).
Proof using HNW HV Hnl Hci. unfold p2_chans, pown. destruct spl; [rewrite (Nat.mul_comm V nci); apply loop_covers; clear - HNW; lia|now apply bin_covers]. Qed.
Lemma p2_vcovers : covers BD Cv pown (fun t => p2_chans BD V old nco (cout t) t).
Proof using HNW HV Hnl Hco. unfold p2_chans, pown. destruct spl; [rewrite (Nat.mul_comm V nco); apply loop_covers; clear - HNW; lia|now apply bout_covers]. Qed.
Lemma pown_lt : forall c, pown c < BD.
Proof using HNW. clear - HNW. intros c. unfold pown. destruct spl; [apply Nat.mod_upper_bound; lia|apply chan_own_lt; lia]. Qed.
Lemma pown_sees : forall t c, pown c = t -> sees NW V spl t c.
Proof. intros t c. unfold pown, sees. destruct spl; auto. Qed.
Lemma p2_good : forall g, fgood k NW (bown NW V nci nco mid act) (bpub V nci nco spl act) (fun _ => Some AAdd) (fun _ _ => False) g false p2_prog.
Proof.
  intros g. assert (Lc := cell_of_lt B Ho Wo b ho wo Hb Hh Hw).
  apply (bgroup_good k NW V nci nco mid g (fun _ => Some AAdd) (fun _ _ => False) spl act HNW HV Hm cin cout pk pv pq pdy pw _ _ nq _ _ (Kf kf b) (Kf vf b) (qf b ho wo) (df b ho wo) quad (bin_covers NW V nloc nci HV Hnl Hci) (bout_covers NW V nloc nco as_in HNW HV Hnl Hco) RQ RD RW RK RV Hhi Hsh).
  - intros t Ht. unfold p2_pre. fl; try apply fine_set; eapply fine_get0; eauto.
  - intros x t Hx Ht. unfold p2_step. apply Forall_app. split; [fl; try apply fine_set; now apply bweight_fine|]. apply Forall_app. split; apply Forall_flat; intros c Hc.
    + apply (p2_kcovers t Ht) in Hc. destruct Hc as [Lc' Ec]. fl; [apply q_fine; auto; now apply pown_sees|]. rewrite k_at_eq. assert (Q := kcell_lt x c Ck Hx Lc'). apply fine_add; unfold o_dk; cbn [fst snd]; [exact Q|lia|reflexivity].
    + apply (p2_vcovers t Ht) in Hc. destruct Hc as [Lc' Ec]. fl; [apply d_fine; auto; now apply pown_sees|]. rewrite v_at_eq. assert (Q := kcell_lt x c Cv Hx Lc'). apply fine_add; unfold o_dv; cbn [fst snd]; [exact Q|lia|reflexivity].
  - intros t Ht. constructor.
Qed.
Definition p2al (x : item) : R := (exp (rsum Ck (fun c => qf b ho wo c * kf b (fst (x_pt x)) (snd (x_pt x)) c)%R - mA cell) * quad (x_hi x) * (1 / sA cell))%R.
Definition p2ag (x : item) : R := ((rsum Cv (fun c => df b ho wo c * vf b (fst (x_pt x)) (snd (x_pt x)) c)%R - iA cell) * p2al x)%R.
Definition p2_ET (x : item) (t : nat) : list upd :=
  map (fun c => (k_at V nci H W b (x_pt x) + c, UAtom AAdd, (p2ag x * qf b ho wo c)%R)) (p2_chans BD V old nci (cin t) t) ++
  map (fun c => (B * H * W * Ck + (v_at V nco H W b (x_pt x) + c), UAtom AAdd, (p2al x * df b ho wo c)%R)) (p2_chans BD V old nco (cout t) t).
Lemma p2_trace : forall st, ftrace inp BD (bown NW V nci nco mid act) (bpub V nci nco spl act) p2_prog st = flat_map (fun x => flat_map (p2_ET x) (seq 0 BD)) (listed act).
Proof.
  intros st. assert (Lc := cell_of_lt B Ho Wo b ho wo Hb Hh Hw).
  assert (T := bgroup_trace k NW V nci nco mid spl act HNW HV Hm Hlane cin cout pk pv pq pdy pw _ _ nq _ _ (Kf kf b) (Kf vf b) (qf b ho wo) (df b ho wo) quad (bin_covers NW V nloc nci HV Hnl Hci) (bout_covers NW V nloc nco as_in HNW HV Hnl Hco) RQ RD RW RK RV Hhi Hsh p2_pre (fun _ => []) p2_step
    (fun _ _ rg => rg r_max = mA cell /\ rg r_inv = (1 / sA cell)%R /\ rg r_int = iA cell) p2_ET (fun _ => [])).
  unfold p2_prog. rewrite T; clear T; [now rewrite flat_map_nil, app_nil_r| | | |reflexivity].
  - intros t d rg rg' E (A1 & A2 & A3). rewrite !E by (repeat split; discriminate). auto.
  - intros t [rg sh] Ht. unfold p2_pre. rewrite (get_0 inp N psum cells sA r_sum cell RS Lc), (get_0 inp N pmax cells mA r_max cell RM Lc), (get_0 inp N pint cells iA r_int cell RI Lc). lr. split; [reflexivity|].
    assert (Es := proj2 (proj2 (RS cell Lc))). assert (Em := proj2 (proj2 (RM cell Lc))). assert (Ei := proj2 (proj2 (RI cell Lc))). cbn [plus] in Es, Em, Ei. rewrite Es, Em, Ei. pe. auto.
  - intros d x r t rg sh E Ht (A1 & A2 & A3) Ed Eg Ew Hq Hd. assert (Hx : In x (listed act)) by (rewrite E; apply in_elt). unfold p2_step. rewrite !lrun_app. lr. rewrite Ew.
    set (rg1 := put r_ag _ _). assert (R1 : rg1 r_alpha = p2al x). { unfold rg1. pe. rewrite Ed, A1, A2. reflexivity. }
    assert (R2 : rg1 r_ag = p2ag x). { unfold rg1. pe. rewrite Ed, Eg, A1, A2, A3. reflexivity. }
    assert (R3 : forall r, r = r_max \/ r = r_inv \/ r = r_int -> rg1 r = rg r) by (intros r0 [ -> |[ -> | -> ]]; unfold rg1; pe; reflexivity). clearbody rg1.
    destruct (loop_atom inp AAdd r_ag (o_dk V nci H W B) (k_at V nci H W b (x_pt x)) Cv Ck (p2_chans BD V old nci (cin t) t) rg1 sh ltac:(discriminate) (fun c Hc => proj1 (proj1 (proj2 (p2_kcovers t Ht) c) Hc)) (fun c Hc => ltac:(rewrite k_at_eq; unfold o_dk; cbn [snd]; now apply kcell_lt))) as (B1 & B2 & B3). set (m1 := lrun inp _ (rg1, sh)) in *. rewrite (surjective_pairing (fst m1)).
    destruct (loop_atom inp AAdd r_alpha (o_dv V nci nco H W B) (v_at V nco H W b (x_pt x)) 0 Cv (p2_chans BD V old nco (cout t) t) (fst (fst m1)) (snd (fst m1)) ltac:(discriminate) (fun c Hc => proj1 (proj1 (proj2 (p2_vcovers t Ht) c) Hc)) (fun c Hc => ltac:(rewrite v_at_eq; unfold o_dv; cbn [snd]; now apply kcell_lt))) as (C1 & C2 & C3). set (m2 := lrun inp _ (fst (fst m1), snd (fst m1))) in *. rewrite B1, C1, C2, B2. split; [|split; [reflexivity|]].
    + rewrite B3 by discriminate. rewrite R1, R2. unfold p2_ET, o_dk, o_dv. cbn [fst plus]. f_equal; apply map_ext_in; intros c Hc; f_equal; f_equal.
      * apply (p2_kcovers t Ht) in Hc. apply Hq; [tauto|]. apply pown_sees. tauto.
      * apply (p2_vcovers t Ht) in Hc. apply (Hd c); [tauto|]. apply pown_sees. tauto.
    + rewrite !C3, !B3, !R3 by (auto; discriminate). auto.
Qed.
End Cell.

(** ** One launch *)
Section Launch.
Variables (mid per nl : nat) (rows : list nat) (sA mA iA : nat -> R).
Hypotheses (Hper : 1 <= per) (Hlen : nl <= length rows) (Hrows : forall h, h < nl -> nth h rows 0 < Ho).
Hypothesis (Hmid : forall h s wo, h < nl -> s < per -> length (act0 wo (share per s (nth (nth h rows 0) P []))) <= mid).
Hypothesis (Hins : forall h c, h < Ho -> In c (nth h P []) -> inside c).
Notation width := (long_width BY nl Wo). Notation key := (rkey BY Wo nl). Notation G := (B * per * width).
Notation act_of := (gact NW H W Wi ps lon_lo lat0 Wo P per rows). Notation ho_of := (gho Wo rows). Notation wo_of := (gwo Wo). Notation ents := (ents H W Wi ps lon_lo lat0 P).
Notation k := (p2_kernel BD BY V nloc nci nco H W Wi ps lon_lo lat0 B Ho Wo as_in old (offsets 0 P) (columns P) nq kA vA qA dA quad sA mA iA mid per nl rows).
Notation arr := [(B * H * W * Ck, kA); (B * H * W * Cv, vA); (cells * Ck, qA); (cells * Cv, dA); (nq, quad); (cells, sA); (cells, mA); (cells, iA)].
Lemma groupz_eq : forall pk pv pq pdy pw psum pmax pint g,
  row_groupz BD BY V nloc nci nco H W Wi ps lon_lo lat0 B Ho Wo as_in old (offsets 0 P) (columns P) mid pk pv pq pdy pw psum pmax pint per nl rows g =
  row_group BD BY H W Wi ps lon_lo lat0 Wo (offsets 0 P) (columns P) mid per nl rows (fun b ho wo act => p2_body BD V nloc nci nco H W B Ho Wo as_in old mid pk pv pq pdy pw psum pmax pint b ho wo (injs act)) g.
Proof.
  intros. unfold row_groupz, row_group. cbv zeta. destruct (Nat.leb_spec (nl * Wo) (g mod width)) as [L|L]; [reflexivity|].
  destruct (bcell NW BY V nloc nci nco Wi Ho Wo as_in HNW HV Hnl Hci Hco HBY HWi per nl rows Hper Hlen Hrows _ L) as (D & _ & Hh & _).
  assert (E : nth_error rows (g mod width / Wo) = Some (ho_of (g mod width))) by (unfold gho; apply nth_error_nth'; lia). rewrite E. rewrite (row_of_spec P Ho (nq * Wi)) by auto.
  rewrite foundz_in; [now rewrite injs_length|]. intros c Hc. apply (Hins (ho_of (g mod width))); [exact Hh|]. apply (share_in per (g / width mod per)); auto. apply Nat.mod_upper_bound. lia.
Qed.
Definition p2T (b c : nat) : list upd := flat_map (fun x => flat_map (p2_ET (b / per) (ho_of c) (wo_of c) sA mA iA x) (seq 0 BD)) (listed (act_of b c)).
Lemma p2_settles0 : forall rg sh out, settles k (start k rg sh out) (fun o => o = upds (flat_map (at_key key p2T) (seq 0 G)) out).
Proof.
  intros rg sh out.
  assert (Fx := bfacts NW BY V nloc nci nco H W Wi ps lon_lo lat0 B Ho Wo as_in P nq kA vA qA dA kf vf qf df HNW HV Hnl Hci Hco HBY HWi HP Lk Lv Lq Ld mid per nl rows Hper Hlen Hrows Hmid k arr (fun a _ => eq_refl) (le_n _) eq_refl eq_refl eq_refl eq_refl ltac:(cbn; lia)).
  assert (R0 := fun i n a => breads0 k arr (fun a _ => eq_refl) (le_n _) i n a).
  refine (brow_settles NW BY V nloc nci nco H W Wi ps lon_lo lat0 B Ho Wo as_in P nq HNW HV Hnl Hci Hco HBY HWi HP mid per nl rows Hper Hlen Hrows Hmid k spl (fun _ => Some AAdd) (fun _ _ => False) _ (fun b ho wo act => p2_prog b ho wo act (part arr 0) (part arr 1) (part arr 2) (part arr 3) (part arr 4) (part arr 5) (part arr 6) (part arr 7)) p2T rg sh out eq_refl eq_refl _ _ _ _ _ _).
  - intros HN. unfold p2_kernel. cbn [k_shared]. destruct (Nat.eqb_spec BD 32); [lia|]. rewrite (Nat.mul_comm 32 NW), Nat.div_mul by lia. lia.
  - intros g t Hg. unfold p2_kernel. cbn [k_code]. rewrite groupz_eq. reflexivity.
  - intros b ho wo act. apply p2_expand.
  - intros g b c Hg Ek Hb Hc. destruct (Fx b c Hb Hc) as ((F1 & F2 & F3 & F4) & F5 & F6 & F7 & F8 & F9 & F10 & F11).
    eapply (p2_good (b / per) (ho_of c) (wo_of c)) with (sA := sA) (mA := mA) (iA := iA); eauto; try (apply R0; [cbn; lia|reflexivity]); unfold p2_kernel; cbn [k_shared k_outsize]; lia.
  - intros b c s0 Hb Hc. destruct (Fx b c Hb Hc) as ((F1 & F2 & F3 & F4) & F5 & F6 & F7 & F8 & F9 & F10 & F11).
    eapply (p2_trace (b / per) (ho_of c) (wo_of c)) with (sA := sA) (mA := mA) (iA := iA); eauto; try (apply R0; [cbn; lia|reflexivity]); unfold p2_kernel; cbn [k_shared k_outsize]; lia.
  - intros a gt gt' _ Q. destruct Q.
Qed.
End Launch.
End Ctx.
