(** The backward ring kernels, pass 2: the sums. *)
From Coq Require Import List Arith Lia Bool ZArith Reals Lra Permutation FunctionalExtensionality.
From Verif Require Import TensorModel TensorProofs BigSum DiscoModel DiscoSortProofs DistAttnModel DistAttnBwdModel DistAttnProofs AttnModel AttnCoreProofs GpuModel GpuSpec GpuProofs GpuProofs2 WarpProofs CudaDiscoModel CudaWarpModel WarpSumProofs CudaFwdProofs CudaAttnModel CudaAttnProofs CudaAttnLaneProofs CudaAttnFwdProofs CudaAttnFwdProofs2 CudaAttnLaunchProofs WarpKernelProofs CudaKeyProofs CudaLoopProofs CudaAttnUpModel CudaAttnBwdModel CudaAttnUpProofs2 CudaAttnUpProofs3 CudaAttnUpProofs4 CudaRescaleModel GroupKernelProofs CudaRingUpSpec CudaRingModel CudaRingProofs CudaRingProofs2 CudaRingProofs6 CudaRingBwdModel CudaRingBwdProofs CudaRingBwdProofs2 CudaRingBwdProofs3.
From Verif Require DistAttnBwdProofs.
From Verif Require Import AttnSpec.
Import ListNotations.
Local Open Scope nat_scope.

Lemma cell_eqb : forall H W b h w b' h' w', h < H -> w < W -> h' < H -> w' < W -> ((b' * H + h') * W + w' =? (b * H + h) * W + w) = (b' =? b) && ((h =? h') && (w =? w')).
Proof.
  intros H W b h w b' h' w' Hh Hw Hh' Hw'. destruct (Nat.eqb_spec ((b' * H + h') * W + w') ((b * H + h) * W + w)) as [E|E].
  - destruct (split_div W (b' * H + h') w' Hw') as [A1 A2]. destruct (split_div W (b * H + h) w Hw) as [A3 A4]. rewrite E in A1, A2. assert (E1 : b' * H + h' = b * H + h) by congruence. assert (E2 : w' = w) by congruence.
    destruct (split_div H b' h' Hh') as [B1 B2]. destruct (split_div H b h Hh) as [B3 B4]. rewrite E1 in B1, B2. assert (E3 : b' = b) by congruence. assert (E4 : h' = h) by congruence. rewrite E2, E3, E4, !Nat.eqb_refl. reflexivity.
  - destruct (Nat.eqb_spec b' b) as [->|]; [|reflexivity]. destruct (Nat.eqb_spec h h') as [->|]; [|reflexivity]. destruct (Nat.eqb_spec w w') as [->|]; [congruence|reflexivity].
Qed.
Lemma rows_sum : forall (F : nat -> R) nl rows, nl <= length rows -> rsum nl (fun i => F (nth i rows 0)) = rlsum F (firstn nl rows).
Proof.
  intros F nl rows L. rewrite <- (lsum_seq RT). rewrite <- (DistAttnBwdProofs.map_nth_seq (firstn nl rows)), lsum_map, firstn_length_le by exact L. apply lsum_ext. intros i Hi. apply in_seq in Hi. f_equal. rewrite <- (firstn_skipn nl rows) at 1. apply app_nth1. rewrite firstn_length. lia.
Qed.
Lemma hits_ents : forall H W Wi ps lon_lo lat0 P (f : nat -> nat -> nat -> R) wo ho h w, 1 <= Wi ->
  rlsum (DistAttnBwdProofs.hits H W lon_lo lat0 Wi ps f wo h w) (nth ho P []) = rlsum (fun e : entry => if (h =? fst (snd e)) && (w =? snd (snd e)) then f (fst e) (fst (snd e)) (snd (snd e)) else 0%R) (ents H W Wi ps lon_lo lat0 P wo ho).
Proof.
  intros H W Wi ps lon_lo lat0 P f wo ho h w HWi. unfold ents. rewrite (lsum_flat_map RT). apply lsum_ext. intros c _. unfold DistAttnBwdProofs.hits, chunk_hit, active. cbv zeta.
  assert (Q : forall x, x - x / Wi * Wi = x mod Wi) by (intros x; rewrite (Nat.mod_eq x Wi) by lia; rewrite (Nat.mul_comm Wi); reflexivity). rewrite !Q. set (wip := (c mod Wi + ps * wo) mod Wi). set (hl := (Z.of_nat (c / Wi) - lat0)%Z).
  destruct (Nat.ltb_spec wip lon_lo), (Nat.leb_spec (lon_lo + W) wip); cbn [orb].
  - rewrite (proj2 (Nat.leb_gt _ _)) by lia. reflexivity.
  - rewrite (proj2 (Nat.leb_gt _ _)) by lia. reflexivity.
  - rewrite (proj2 (Nat.ltb_ge _ _)) by lia. rewrite andb_false_r. reflexivity.
  - rewrite (proj2 (Nat.leb_le _ _)), (proj2 (Nat.ltb_lt _ _)) by lia. cbn [andb]. destruct (Z.ltb_spec hl 0), (Z.leb_spec (Z.of_nat H) hl); cbn [orb].
    + rewrite (proj2 (Z.leb_gt _ _)) by lia. reflexivity.
    + rewrite (proj2 (Z.leb_gt _ _)) by lia. reflexivity.
    + rewrite (proj2 (Z.ltb_ge _ _)) by lia. rewrite andb_false_r. reflexivity.
    + rewrite (proj2 (Z.leb_le _ _)), (proj2 (Z.ltb_lt _ _)) by lia. cbn [andb lsum_ fold_right fst snd]. ring.
Qed.

Section Ctx.
Variables (NW BY V nloc nci nco H W Wi ps lon_lo : nat) (lat0 : Z) (B Ho Wo : nat) (as_in old : bool) (P : pattern) (nq : nat) (kA vA qA dA quad : nat -> R) (kf vf qf df : fld).
Notation BD := (32 * NW). Notation Ck := (V * nci). Notation Cv := (V * nco). Notation cells := (B * Ho * Wo).
Hypotheses (HNW : 1 <= NW <= 32) (HV : 1 <= V) (Hnl : 1 <= nloc) (Hci : (nloc - 1) * BD <= nci <= nloc * BD) (Hco : as_in = true -> (nloc - 1) * BD <= nco <= nloc * BD).
Hypotheses (HBY : 1 <= BY) (HWi : 1 <= Wi) (HP : pattern_ok P Ho (nq * Wi)).
Hypotheses (Lk : lays B H W Ck kA kf) (Lv : lays B H W Cv vA vf) (Lq : lays B Ho Wo Ck qA qf) (Ld : lays B Ho Wo Cv dA df).
Variables (mid per nl : nat) (rows : list nat) (sA mA iA : nat -> R).
Hypotheses (Hper : 1 <= per) (Hlen : nl <= length rows) (Hrows : forall h, h < nl -> nth h rows 0 < Ho).
Notation cin := (bin_chans BD V nloc nci). Notation cout := (bout_chans BD V nloc nco as_in).
Notation key := (rkey BY Wo nl). Notation G := (B * per * long_width BY nl Wo).
Notation act_of := (gact NW H W Wi ps lon_lo lat0 Wo P per rows). Notation ho_of := (gho Wo rows). Notation wo_of := (gwo Wo). Notation ents := (ents H W Wi ps lon_lo lat0 P). Notation active := (active H W Wi ps lon_lo lat0).
Notation ET := (p2_ET NW V nloc nci nco H W B Ho Wo as_in old quad kf vf qf df). Notation T := (p2T NW V nloc nci nco H W Wi ps lon_lo lat0 B Ho Wo as_in old P quad kf vf qf df per rows sA mA iA).
Notation KY := (bkeyed NW BY V nloc nci nco Wi B Wo as_in HNW HV Hnl Hci Hco HBY HWi per nl rows Hper Hlen).
Notation kaddr b h w c := (((b * H + h) * W + w) * Ck + c). Notation vaddr b h w c := (B * H * W * Ck + (((b * H + h) * W + w) * Cv + c)).
Notation ag := (p2ag V nci nco Ho Wo quad kf vf qf df). Notation al := (p2al V nci Ho Wo quad kf qf).
Lemma addr_lt : forall b h w c C, b < B -> h < H -> w < W -> c < C -> ((b * H + h) * W + w) * C + c < B * H * W * C.
Proof using. clear. intros b h w c C Hb Hh Hw Hc. assert (Q1 : (b * H + h + 1) * W <= B * H * W) by (apply Nat.mul_le_mono_r; nia). assert (Q2 : ((b * H + h) * W + w + 1) * C <= B * H * W * C) by (apply Nat.mul_le_mono_r; lia). lia. Qed.
Lemma k_hits : forall b h w ch b0 ho wo x, b < B -> h < H -> w < W -> ch < Ck -> fst (x_pt x) < H -> snd (x_pt x) < W ->
  hits (kaddr b h w ch) (flat_map (ET b0 ho wo sA mA iA x) (seq 0 BD)) = if (b0 =? b) && ((h =? fst (x_pt x)) && (w =? snd (x_pt x))) then (ag b0 ho wo sA mA iA x * qf b0 ho wo ch)%R else 0%R.
Proof.
  intros b h w ch b0 ho wo x Hb Hh Hw Hc X1 X2. assert (La := addr_lt b h w ch Ck Hb Hh Hw Hc). rewrite <- (cell_eqb H W b h w b0 _ _ Hh Hw X1 X2). rewrite <- (pick_chan Ck _ _ ch (fun c => ag b0 ho wo sA mA iA x * qf b0 ho wo c)%R Hc).
  rewrite <- (lanes_sum BD Ck (pown NW V old) _ _ (p2_kcovers NW V nloc nci old HNW HV Hnl Hci)) by (intros; now apply pown_lt).
  rewrite hits_flat. apply lsum_ext. intros t Ht. unfold p2_ET. rewrite hits_app, !hits_map. rewrite (rlsum_zero _ _ (p2_chans BD V old nco (cout t) t)), Rplus_0_r.
  - apply lsum_ext. intros c _. rewrite k_at_eq. reflexivity.
  - intros c _. rewrite (proj2 (Nat.eqb_neq _ _)) by lia. reflexivity.
Qed.
Lemma v_hits : forall b h w ch b0 ho wo x, b < B -> b0 < B -> h < H -> w < W -> ch < Cv -> fst (x_pt x) < H -> snd (x_pt x) < W ->
  hits (vaddr b h w ch) (flat_map (ET b0 ho wo sA mA iA x) (seq 0 BD)) = if (b0 =? b) && ((h =? fst (x_pt x)) && (w =? snd (x_pt x))) then (al b0 ho wo sA mA x * df b0 ho wo ch)%R else 0%R.
Proof.
  intros b h w ch b0 ho wo x Hb Hb0 Hh Hw Hc X1 X2. rewrite <- (cell_eqb H W b h w b0 _ _ Hh Hw X1 X2). rewrite <- (pick_chan Cv _ _ ch (fun c => al b0 ho wo sA mA x * df b0 ho wo c)%R Hc).
  rewrite <- (lanes_sum BD Cv (pown NW V old) _ _ (p2_vcovers NW V nloc nco as_in old HNW HV Hnl Hco)) by (intros; now apply pown_lt).
  rewrite hits_flat. apply lsum_ext. intros t Ht. apply in_seq in Ht. unfold p2_ET. rewrite hits_app, !hits_map. rewrite (rlsum_zero _ _ (p2_chans BD V old nci (cin t) t)), Rplus_0_l.
  - apply lsum_ext. intros c _. rewrite v_at_eq. set (q := _ * Cv + c). set (q' := _ * Cv + ch). destruct (Nat.eqb_spec (B * H * W * Ck + q) (B * H * W * Ck + q')), (Nat.eqb_spec q q'); auto; lia.
  - intros c Hcc. apply (p2_kcovers NW V nloc nci old HNW HV Hnl Hci t) in Hcc; [|lia]. assert (L := addr_lt b0 _ _ c Ck Hb0 X1 X2 (proj1 Hcc)). rewrite k_at_eq. rewrite (proj2 (Nat.eqb_neq _ _)) by lia. reflexivity.
Qed.
(** all groups together *)
Lemma launch_sum : forall (F : nat -> nat -> R) (g : nat -> nat -> entry -> R) b, b < B ->
  (forall b' c, b' < B * per -> c < nl * Wo -> F b' c = rlsum (fun x : item => if b' / per =? b then g (ho_of c) (wo_of c) (snd (snd x)) else 0%R) (listed (act_of b' c))) ->
  rsum (B * per) (fun b' => rsum (nl * Wo) (F b')) = rlsum (fun ho => rlsum (fun wo => rlsum (g ho wo) (ents wo ho)) (seq 0 Wo)) (firstn nl rows).
Proof.
  intros F g b Hb HF. rewrite (bsum_mul_range RT).
  rewrite (bsum_ext B _ (fun i => if (i =? b)%nat then rsum per (fun s => rsum (nl * Wo) (fun c => rlsum (g (ho_of c) (wo_of c)) (flat_map (active (wo_of c)) (share per s (nth (ho_of c) P []))))) else 0%R)).
  - rewrite (rsum_one B b (fun _ => _) Hb). rewrite (bsum_swap RT), (bsum_mul_range RT). rewrite <- (rows_sum _ nl rows Hlen). apply bsum_ext. intros i Hi. rewrite (lsum_seq RT). apply bsum_ext. intros wo Hwo.
    rewrite <- (lsum_seq RT per). rewrite shares_sum by exact Hper. destruct (split_div Wo i wo Hwo) as [S1 S2]. unfold gho, gwo. rewrite S1. replace (i * Wo + wo - i * Wo) with wo by lia. reflexivity.
  - intros i Hi. destruct (Nat.eqb_spec i b) as [->|Ne].
    + apply bsum_ext. intros s Hs. apply bsum_ext. intros c Hc. destruct (split_div per b s Hs) as [S1 S2]. rewrite HF by (auto; nia). rewrite S1, Nat.eqb_refl. assert (A := act_ents NW H W Wi ps lon_lo lat0 Wo P per rows (b * per + s) c). rewrite S2 in A. rewrite <- A, lsum_map. reflexivity.
    + apply rsum_0. intros s Hs. apply rsum_0. intros c Hc. destruct (split_div per i s Hs) as [S1 S2]. rewrite HF by (auto; nia). rewrite S1. apply rlsum_zero. intros x _. rewrite (proj2 (Nat.eqb_neq _ _)) by exact Ne. reflexivity.
Qed.
(** what the arrays of the state mean *)
Variables (sums : nat -> nat -> nat -> R) (maxs : nat -> nat -> nat -> option R) (inorm : nat -> nat -> nat -> R).
Hypotheses (HsA : lays1 B Ho Wo sA sums) (HmA : forall b h w, b < B -> h < Ho -> w < Wo -> maxs b h w = Some (mA ((b * Ho + h) * Wo + w))) (HiA : lays1 B Ho Wo iA inorm).
Notation scale_at := (DistAttnBwdProofs.scale_at Ck Cv quad kf vf qf df sums maxs inorm). Notation alpha_at := (DistAttnBwdProofs.alpha_at Ck quad kf qf sums maxs).
Lemma al_eq : forall b ho wo x, b < B -> ho < Ho -> wo < Wo -> al b ho wo sA mA x = alpha_at b ho wo (x_hi x) (fst (x_pt x)) (snd (x_pt x)).
Proof using HsA HmA. intros b ho wo x Hb Hh Hw. unfold p2al, DistAttnBwdProofs.alpha_at. rewrite (HmA b ho wo Hb Hh Hw), cell_of_eq, (HsA b ho wo Hb Hh Hw). reflexivity. Qed.
Lemma ag_eq : forall b ho wo x, b < B -> ho < Ho -> wo < Wo -> ag b ho wo sA mA iA x = scale_at b ho wo (x_hi x) (fst (x_pt x)) (snd (x_pt x)).
Proof using HsA HmA HiA. intros b ho wo x Hb Hh Hw. unfold p2ag, DistAttnBwdProofs.scale_at. rewrite al_eq by auto. rewrite cell_of_eq, (HiA b ho wo Hb Hh Hw). reflexivity. Qed.
Notation hit_sum f b h w rs := (rlsum (fun ho => rlsum (fun wo => rlsum (DistAttnBwdProofs.hits H W lon_lo lat0 Wi ps (f b ho wo) wo h w) (nth ho P [])) (seq 0 Wo)) rs).
Lemma p2_sums : forall out b h w, b < B -> h < H -> w < W -> let o := upds (flat_map (at_key key T) (seq 0 G)) out in
  (forall ch, ch < Ck -> o (kaddr b h w ch) = (out (kaddr b h w ch) + hit_sum (fun b ho wo hg hl wl => scale_at b ho wo hg hl wl * qf b ho wo ch) b h w (firstn nl rows))%R) /\
  (forall ch, ch < Cv -> o (vaddr b h w ch) = (out (vaddr b h w ch) + hit_sum (fun b ho wo hg hl wl => alpha_at b ho wo hg hl wl * df b ho wo ch) b h w (firstn nl rows))%R).
Proof.
  intros out b h w Hb Hh Hw o.
  assert (Ad : forall a, o a = (out a + rsum (B * per) (fun b' => rsum (nl * Wo) (fun c => hits a (T b' c))))%R).
  { intros a. unfold o. rewrite upds_add; [f_equal; unfold hits at 1; rewrite (keyed_sum _ G (B * per) (nl * Wo) key T _ KY); reflexivity|].
    intros u Hu _. apply (in_at_key _ G (B * per) (nl * Wo) key T u KY) in Hu. destruct Hu as (b' & c & _ & _ & Hu). unfold p2T in Hu. apply in_flat_map in Hu. destruct Hu as (x & _ & Hu). apply in_flat_map in Hu. destruct Hu as (t & _ & Hu). unfold p2_ET in Hu. apply in_app_iff in Hu. destruct Hu as [Hu|Hu]; apply in_map_iff in Hu; destruct Hu as (c' & <- & _); reflexivity. }
  assert (OK := fun b' c x => bact_ok NW BY V nloc nci nco H W Wi ps lon_lo lat0 Ho Wo as_in P nq HNW HV Hnl Hci Hco HBY HWi HP per nl rows Hper Hlen Hrows b' c x).
  assert (BL := bbatch_lt NW BY V nloc nci nco Wi B as_in HNW HV Hnl Hci Hco HBY HWi per nl rows Hper Hlen). assert (CL := bcell NW BY V nloc nci nco Wi Ho Wo as_in HNW HV Hnl Hci Hco HBY HWi per nl rows Hper Hlen Hrows).
  split; intros ch Hch; rewrite Ad; f_equal.
  - rewrite (launch_sum (fun b' c => hits (kaddr b h w ch) (T b' c)) (fun ho wo e => if (h =? fst (snd e)) && (w =? snd (snd e)) then (if (ho <? Ho) && (wo <? Wo) then scale_at b ho wo (fst e) (fst (snd e)) (snd (snd e)) * qf b ho wo ch else 0)%R else 0%R) b Hb).
    + apply lsum_ext. intros ho Hho. apply lsum_ext. intros wo Hwo. rewrite hits_ents by exact HWi. apply lsum_ext. intros e _. apply in_seq in Hwo. apply (In_nth _ _ 0) in Hho. destruct Hho as (i & Li & <-). rewrite firstn_length in Li.
      assert (En : nth i (firstn nl rows) 0 = nth i rows 0) by (rewrite <- (firstn_skipn nl rows) at 2; symmetry; apply app_nth1; rewrite firstn_length; lia). rewrite En. rewrite (proj2 (Nat.ltb_lt _ _) (Hrows i ltac:(lia))), (proj2 (Nat.ltb_lt wo Wo)) by lia. reflexivity.
    + intros b' c Hb' Hc. unfold p2T. rewrite hits_flat. apply lsum_ext. intros x Hx. destruct (OK b' c x Hc Hx) as (_ & _ & X1 & X2). destruct (CL c Hc) as (_ & D2 & D3 & _). rewrite k_hits by auto. rewrite (proj2 (Nat.ltb_lt _ _) D2), (proj2 (Nat.ltb_lt _ _) D3). cbn [andb]. destruct (Nat.eqb_spec (b' / per) b) as [<-|]; [|reflexivity]. cbn [andb]. rewrite ag_eq by auto. reflexivity.
  - rewrite (launch_sum (fun b' c => hits (vaddr b h w ch) (T b' c)) (fun ho wo e => if (h =? fst (snd e)) && (w =? snd (snd e)) then (if (ho <? Ho) && (wo <? Wo) then alpha_at b ho wo (fst e) (fst (snd e)) (snd (snd e)) * df b ho wo ch else 0)%R else 0%R) b Hb).
    + apply lsum_ext. intros ho Hho. apply lsum_ext. intros wo Hwo. rewrite hits_ents by exact HWi. apply lsum_ext. intros e _. apply in_seq in Hwo. apply (In_nth _ _ 0) in Hho. destruct Hho as (i & Li & <-). rewrite firstn_length in Li.
      assert (En : nth i (firstn nl rows) 0 = nth i rows 0) by (rewrite <- (firstn_skipn nl rows) at 2; symmetry; apply app_nth1; rewrite firstn_length; lia). rewrite En. rewrite (proj2 (Nat.ltb_lt _ _) (Hrows i ltac:(lia))), (proj2 (Nat.ltb_lt wo Wo)) by lia. reflexivity.
    + intros b' c Hb' Hc. unfold p2T. rewrite hits_flat. apply lsum_ext. intros x Hx. destruct (OK b' c x Hc Hx) as (_ & _ & X1 & X2). destruct (CL c Hc) as (_ & D2 & D3 & _). rewrite v_hits by auto. rewrite (proj2 (Nat.ltb_lt _ _) D2), (proj2 (Nat.ltb_lt _ _) D3). cbn [andb]. destruct (Nat.eqb_spec (b' / per) b) as [<-|]; [|reflexivity]. cbn [andb]. rewrite al_eq by auto. reflexivity.
Qed.
End Ctx.
