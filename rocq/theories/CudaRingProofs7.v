(** The ring steps of the gather direction on the GPU against the sequential ones. *)
From Coq Require Import List Arith Lia Bool ZArith Reals Lra Permutation FunctionalExtensionality.
From Verif Require Import TensorModel TensorProofs BigSum DiscoModel DiscoSortProofs DistAttnModel DistAttnProofs AttnModel AttnCoreProofs GpuModel GpuSpec GpuProofs GpuProofs2 GpuRwModel GpuRwSpec GpuRwSyncProofs WarpProofs CudaDiscoModel CudaWarpModel WarpSumProofs CudaFwdProofs CudaAttnModel CudaAttnSpec CudaAttnProofs CudaAttnLaneProofs CudaAttnFwdProofs CudaAttnFwdProofs2 CudaAttnLaunchProofs WarpKernelProofs CudaKeyProofs CudaLoopProofs CudaAttnUpProofs2 CudaAttnUpProofs3 CudaAttnUpProofs4 CudaRescaleModel CudaRescaleSpec CudaRescaleProofs4 CudaRescaleProofs5 GroupKernelProofs CudaRingUpSpec CudaRingSpec CudaRingModel CudaRingProofs CudaRingProofs2 CudaRingProofs3 CudaRingProofs4 CudaRingProofs5 CudaRingProofs6.
From Verif Require Import AttnSpec.
Import ListNotations.
Local Open Scope nat_scope.

Section Ctx.
Variables (NW BY V nloc nci nco H W Wi ps lon_lo : nat) (lat0 : Z) (B Ho Wo : nat) (as_out : bool) (ninf : R) (P : pattern) (nq : nat) (kA vA qA quad : nat -> R) (kf vf qf : fld).
Notation BD := (32 * NW). Notation Ck := (V * nci). Notation Cv := (V * nco). Notation cells := (B * Ho * Wo).
Hypotheses (HNW : 1 <= NW <= 32) (HV : 1 <= V) (Hnl : 1 <= nloc) (Hout : (nloc - 1) * BD <= nco <= nloc * BD) (Hin : as_out = true -> (nloc - 1) * BD <= nci <= nloc * BD).
Hypotheses (HBY : 1 <= BY) (HWi : 1 <= Wi) (HP : pattern_ok P Ho (nq * Wi)).
Hypotheses (Lk : lays B H W Ck kA kf) (Lv : lays B H W Cv vA vf) (Lq : lays B Ho Wo Ck qA qf) (HS : scores_above ninf B H W Ho Wo Ck kf qf).
Notation visits b h w := (fold_left (ring_visit Ck quad H W lon_lo lat0 kf vf qf Wi ps b h w) (nth h P [])).
Notation ents := (ents H W Wi ps lon_lo lat0 P). Notation es := (es V nci kf qf). Notation ew := (ew quad). Notation ev := (ev vf).
Lemma visits_run : forall b h w st, visits b h w st = erun (es b h w) ew (ev b) (ents w h) st.
Proof. exact (visits_erun NW BY V nloc nci nco H W Wi ps lon_lo lat0 as_out P quad kf vf qf HNW HV Hnl Hout Hin HBY HWi). Qed.
Lemma ents_in : forall w h e, In e (ents w h) -> fst (snd e) < H /\ snd (snd e) < W.
Proof.
  clear - HWi. intros w h e He. unfold CudaRingProofs6.ents in He. apply in_flat_map in He. destruct He as (c & _ & He). unfold active in He.
  cbv zeta in He. destruct (_ && _) eqn:E1 in He; [|destruct He]. destruct (_ && _) eqn:E2 in He; [|destruct He]. destruct He as [<-|[]]. cbn [fst snd].
  apply andb_true_iff in E1, E2. rewrite Nat.leb_le, Nat.ltb_lt in E1. rewrite Z.leb_le, Z.ltb_lt in E2. lia.
Qed.
Lemma ents_above : forall b h w e, b < B -> h < Ho -> w < Wo -> In e (ents w h) -> (ninf < es b h w e)%R.
Proof. intros b h w e Hb Hh Hw He. destruct (ents_in w h e He). unfold CudaRingProofs6.es. now apply HS. Qed.
Lemma run_above : forall b h w st m, b < B -> h < Ho -> w < Wo -> (forall x, smax st = Some x -> (ninf < x)%R) -> smax (visits b h w st) = Some m -> (ninf < m)%R.
Proof.
  intros b h w st m Hb Hh Hw HA E. rewrite visits_run in E. assert (M := erun_max ninf (es b h w) ew (ev b) (ents w h) st (fun e He => ents_above b h w e Hb Hh Hw He)). rewrite E in M. cbn [as_num] in M.
  destruct (fold_max (map (es b h w) (ents w h)) (as_num ninf (smax st))) as (F1 & F2 & F3). rewrite <- M in *. destruct F3 as [F3|F3].
  - destruct (smax st) as [x|] eqn:Ex; cbn [as_num] in *; [rewrite F3; auto|]. destruct (ents w h) as [|e d] eqn:Ed; [cbn in E; congruence|]. assert (A := ents_above b h w e Hb Hh Hw ltac:(rewrite Ed; now left)). specialize (F2 _ (in_map (es b h w) (e :: d) e (or_introl eq_refl))). lra.
  - apply in_map_iff in F3. destruct F3 as (e & <- & He). now apply ents_above.
Qed.
(** ** Long rows *)
Section Long.
Variables (mid per nl : nat) (rows : list nat).
Hypotheses (Hper : 1 <= per) (Hlen : nl <= length rows) (ND : NoDup rows) (Hrows : forall r, In r rows -> r < Ho).
Hypothesis (Hmid : forall h s wo, h < nl -> s < per -> length (found BD H W Wi ps lon_lo lat0 wo (share per s (nth (nth h rows 0) P []))) <= mid).
Notation k1 := (rsoftmax_kernel BD BY V nci H W Wi ps lon_lo lat0 B Ho Wo (offsets 0 P) (columns P) kA qA mid per nl rows).
Notation k3 := (rfinal_kernel BD BY V nloc nci nco H W Wi ps lon_lo lat0 B Ho Wo as_out (offsets 0 P) (columns P) nq kA vA qA quad mid per nl rows).
Variable k2 : (nat -> R) -> kernel.
Variable ws : nat.
Hypothesis Hk2 : forall cur out rg sh, lsettles ws cells (k2 cur) (start (k2 cur) rg sh out) (rescaled cells Cv 1 1 ninf (row_cells B Ho Wo (firstn nl rows)) (fun _ => True) cur out).
Lemma rows_at : forall h, h < nl -> nth h rows 0 < Ho.
Proof. intros h Hh. apply Hrows, nth_In. lia. Qed.
Lemma long_settles : forall out buf, maxima_above B Ho Wo ninf buf -> all_hold B Ho Wo Cv ninf out buf ->
  long_ends ws cells (k1, k2, k3) out (fun o => forall b h w, b < B -> h < Ho -> w < Wo ->
    (In h (firstn nl rows) -> holds cells Cv 1 ninf o ((b * Ho + h) * Wo + w) (visits b h w (buf b h w))) /\
    (~ In h (firstn nl rows) -> holds cells Cv 1 ninf o ((b * Ho + h) * Wo + w) (buf b h w))).
Proof.
  intros out buf HA HO rg1 sh1. eapply settles_impl; [exact (soft_settles0 NW BY V nloc nci nco H W Wi ps lon_lo lat0 B Ho Wo as_out P nq kA vA qA quad kf vf qf HNW HV Hnl Hout Hin HBY HWi HP Lk Lv Lq mid per nl rows Hper Hlen rows_at Hmid out rg1 sh1)|].
  cbv beta. intros m Em rg2 sh2.
  assert (Vm : forall b h w, b < B -> h < Ho -> w < Wo -> (In h (firstn nl rows) -> m ((b * Ho + h) * Wo + w) = as_num ninf (smax (visits b h w (buf b h w)))) /\ (~ In h (firstn nl rows) -> m ((b * Ho + h) * Wo + w) = out ((b * Ho + h) * Wo + w))).
  { intros b h w Hb Hh Hw. rewrite Em. destruct (soft_value NW BY V nloc nci nco H W Wi ps lon_lo lat0 B Ho Wo as_out P kf qf HNW HV Hnl Hout Hin HBY HWi per nl rows Hper Hlen ND rows_at out b h w Hb Hh Hw) as [V1 V2]. cbv zeta in *. split; [|exact V2]. intros Hi. rewrite (V1 Hi), visits_run. rewrite (erun_max ninf) by (intros e He; now apply ents_above). destruct (HO b h w Hb Hh Hw) as (O1 & _). unfold the_max in O1. now rewrite O1. }
  clear Em. eapply lsettles_mono; [|apply Hk2]. cbv beta. intros s Hs rg3 sh3. eapply settles_impl; [exact (final_settles0 NW BY V nloc nci nco H W Wi ps lon_lo lat0 B Ho Wo as_out P nq kA vA qA quad kf vf qf HNW HV Hnl Hout Hin HBY HWi HP Lk Lv Lq mid per nl rows Hper Hlen rows_at Hmid m (fun a => s (cells + a)) rg3 sh3)|].
  cbv beta. intros o Eo b h w Hb Hh Hw. destruct (Vm b h w Hb Hh Hw) as [M1 M2]. assert (HO' := HO b h w Hb Hh Hw).
  assert (La : (b * Ho + h) * Wo + w < cells) by (rewrite <- (cell_of_eq Ho Wo b h w); now apply cell_of_lt).
  destruct (final_sums NW BY V nloc nci nco H W Wi ps lon_lo lat0 B Ho Wo as_out P quad kf vf qf HNW HV Hnl Hout Hin HBY HWi per nl rows Hper Hlen ND rows_at m (fun a => s (cells + a)) b h w Hb Hh Hw) as [F1 F2]. cbv zeta in F1, F2. rewrite <- Eo in F1, F2. clear Eo. cbn beta in F1, F2.
  set (a := (b * Ho + h) * Wo + w) in *.
  assert (Hsplit : forall st, (s a = as_num ninf (smax st)) -> o a = ssum st -> (forall x, x < Cv -> o (cells + (a * Cv + x)) = sacc st x) -> holds cells Cv 1 ninf (fun i => if i <? cells then s i else o (i - cells)) a st).
  { intros st E1 E2 E3. split; [|split].
    - unfold the_max. now rewrite (proj2 (Nat.ltb_lt _ _) La).
    - unfold CudaRescaleSpec.the_sum. replace (cells + 0 * cells + a) with (cells + a) by lia. rewrite (proj2 (Nat.ltb_ge _ _)) by lia. now replace (cells + a - cells) with a by lia.
    - intros ch Hc. unfold the_acc. replace (cells + 1 * cells + (0 * cells + a) * Cv + ch) with (cells + (cells + (a * Cv + ch))) by lia. rewrite (proj2 (Nat.ltb_ge _ _)) by lia. replace (cells + (cells + (a * Cv + ch)) - cells) with (cells + (a * Cv + ch)) by lia. now apply E3. }
  split.
  - intros Hi. destruct (F1 Hi) as [G1 G2]. specialize (M1 Hi). clear F1 F2 M2. set (fin := visits b h w (buf b h w)) in *.
    assert (Hr : holds cells Cv 1 ninf s a (rescale (smax fin) (buf b h w))).
    { apply (rescaled_holds cells Cv ninf (row_cells B Ho Wo (firstn nl rows)) m out s a (buf b h w) (smax fin) Hs); auto.
      - exists b, h, w. auto.
      - intros x Ex. specialize (HA b h w x Hb Hh Hw Ex). lra.
      - intros x Ex. assert (Q := run_above b h w (buf b h w) x Hb Hh Hw (fun y => HA b h w y Hb Hh Hw) Ex). lra.
      - intros En. unfold fin in En. rewrite visits_run in En. now apply erun_some in En. }
    assert (Hr' := Hr). destruct Hr' as (R1 & R2 & R3). unfold the_max, CudaRescaleSpec.the_sum, the_acc in R1, R2, R3. replace (cells + 0 * cells + a) with (cells + a) in R2 by lia.
    destruct (smax fin) as [M|] eqn:EM.
    + assert (EM' := EM). unfold fin in EM'. rewrite visits_run in EM'. apply erun_closed in EM'. rewrite <- visits_run in EM'. fold fin in EM'. destruct EM' as [C1 C2]. cbn [as_num] in M1. apply Hsplit.
      * rewrite EM. rewrite (re_max _ _ _ _ _ _ _ _ _ _ Hs) by (exists b, h, w; auto). exact M1.
      * rewrite G1, C1, R2. f_equal. apply lsum_ext. intros e _. unfold alE. fold a. now rewrite M1.
      * intros x Hx. rewrite (G2 x Hx), C2. specialize (R3 x Hx). replace (cells + 1 * cells + (0 * cells + a) * Cv + x) with (cells + (cells + (a * Cv + x))) in R3 by lia. rewrite R3. f_equal. apply lsum_ext. intros e _. unfold alE. fold a. now rewrite M1.
    + assert (EM' := EM). unfold fin in EM'. rewrite visits_run in EM'. apply erun_some in EM'. destruct EM' as [Ed Eb]. assert (Ef : fin = buf b h w) by (unfold fin; rewrite visits_run, Ed; reflexivity). rewrite Ef. cbn [rescale] in *. rewrite Ed in G1, G2. cbn [lsum_ fold_right] in G1, G2. apply Hsplit; [exact R1|rewrite G1, R2; ring|]. intros x Hx. rewrite (G2 x Hx). specialize (R3 x Hx). replace (cells + 1 * cells + (0 * cells + a) * Cv + x) with (cells + (cells + (a * Cv + x))) in R3 by lia. rewrite R3. ring.
  - intros Nh. destruct (F2 Nh) as [G1 G2]. assert (Nc : ~ row_cells B Ho Wo (firstn nl rows) a). { intros (b' & h' & w' & Hb' & Hi' & Hw' & E). apply Nh. assert (h' < Ho) by (apply Hrows; rewrite <- (firstn_skipn nl rows); apply in_or_app; now left). unfold a in E. rewrite <- !(cell_of_eq Ho Wo) in E. apply cell_of_inj in E; auto. destruct E as (_ & -> & _). exact Hi'. }
    destruct (re_off _ _ _ _ _ _ _ _ _ _ Hs a La Nc) as (Q1 & Q2 & Q3). specialize (Q2 0 ltac:(lia)). destruct HO' as (O1 & O2 & O3). unfold the_max, CudaRescaleSpec.the_sum, the_acc in *. replace (cells + 0 * cells + a) with (cells + a) in * by lia. apply Hsplit; [congruence|congruence|]. intros x Hx. rewrite (G2 x Hx). specialize (Q3 0 x ltac:(lia) Hx). specialize (O3 x Hx). replace (cells + 1 * cells + (0 * cells + a) * Cv + x) with (cells + (cells + (a * Cv + x))) in * by lia. congruence.
Qed.
End Long.
End Ctx.
