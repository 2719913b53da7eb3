(** The CUDA kernels of a ring step in the upsampling direction: what the buffers hold. *)
From Coq Require Import List Arith Lia Bool ZArith Reals Lra Permutation FunctionalExtensionality.
From Verif Require Import TensorModel TensorProofs BigSum DiscoModel DiscoSortProofs DistAttnModel DistAttnBwdModel AttnModel AttnCoreProofs AttnGradProofs GpuModel GpuSpec GpuProofs GpuProofs2 WarpProofs CudaDiscoModel CudaWarpModel WarpSumProofs CudaFwdProofs CudaAttnModel CudaAttnUpModel CudaAttnProofs CudaAttnLaneProofs CudaAttnFwdProofs CudaAttnFwdProofs2 WarpKernelProofs CudaKeyProofs CudaLoopProofs CudaAttnUpProofs CudaAttnUpProofs2 CudaAttnUpProofs3 CudaAttnUpBwdProofs CudaAttnUpBwdProofs2 CudaRescaleModel CudaRescaleSpec CudaRingUpModel CudaRingUpProofs.
From Verif Require Import AttnSpec.
Import ListNotations.
Local Open Scope nat_scope.
Notation upd := (nat * uop * R)%type (only parsing).
Notation trip := ((nat * nat) * (nat * nat))%type (only parsing).

Lemma rl_nil : forall X (f : X -> R), rlsum f [] = 0%R.
Proof. reflexivity. Qed.
Lemma rl_cons : forall X (f : X -> R) x l, rlsum f (x :: l) = (f x + rlsum f l)%R.
Proof. reflexivity. Qed.
Section Values.
Variables (B H W Ho Wo WoG ps lon_lo : nat) (P : pattern).
Hypotheses (HW : 1 <= W) (HP : pattern_ok P H (Ho * WoG)).
Notation cells := (B * Ho * Wo).
Notation bc b p := (bcell Ho Wo b (out_at Wo p)).
Notation tg := (tgt Wo WoG ps lon_lo P).
Notation trips := (chunk_trips (offsets 0 P) (columns P) H W lon_lo Wo WoG ps).
Notation trace T := (flat_map (at_key (up_key (H * W)) (per_tgt W Wo WoG ps lon_lo P T)) (seq 0 (B * up_gw (H * W)))).
Definition at_hw (h w : nat) (t : trip) : bool := (h =? fst (snd t)) && (w =? snd (snd t)).
Lemma trips_eq : trips = flat_map (fun hi => flat_map (fun wi => map (fun p => ((hi, wi), p)) (tg hi wi)) (seq 0 W)) (seq 0 H).
Proof.
  unfold chunk_trips. apply flat_map_in_ext. intros hi Hh. apply in_seq in Hh. apply flat_map_ext. intros wi. rewrite csr_row_spec by (destruct HP; lia). unfold tgt. induction (nth hi P []) as [|c l IH]; [reflexivity|]. cbn [flat_map]. rewrite map_app, IH. f_equal.
  unfold target. replace (c - c / WoG * WoG) with (c mod WoG) by (destruct WoG; [cbn; lia|rewrite sub_mod by lia; reflexivity]). destruct (up_local_wo _ _ _ _ _); reflexivity.
Qed.
Lemma trips_in : forall t, In t trips <-> fst (fst t) < H /\ snd (fst t) < W /\ In (snd t) (tg (fst (fst t)) (snd (fst t))).
Proof.
  intros t. rewrite trips_eq, in_flat_map. split.
  - intros (hi & Hh & Ht). apply in_seq in Hh. apply in_flat_map in Ht. destruct Ht as (wi & Hw & Ht). apply in_seq in Hw. apply in_map_iff in Ht. destruct Ht as (p & <- & Hp). cbn [fst snd]. split; [lia|]. split; [lia|exact Hp].
  - intros (Hh & Hw & Hp). destruct t as [[hi wi] p]. cbn [fst snd] in *. exists hi. split; [apply in_seq; lia|]. apply in_flat_map. exists wi. split; [apply in_seq; lia|]. apply in_map_iff. exists p. auto.
Qed.
Lemma trips_ok : forall t, In t trips -> fst (snd t) < Ho /\ snd (snd t) < Wo.
Proof. intros t Ht. apply trips_in in Ht. destruct Ht as (Hh & Hw & Hp). eapply tgt_ok; [exact HW|exact HP|exact Hh|exact Hp]. Qed.
Lemma bc_eqb : forall bh b hi wi p h w, hi < H -> In p (tg hi wi) -> h < Ho -> w < Wo -> (bc bh p =? bcell Ho Wo b (h * Wo + w)) = (bh =? b) && at_hw h w ((hi, wi), p).
Proof.
  intros bh b hi wi p h w Hh Hp Hho Hwo. destruct (tgt_ok H W Ho Wo WoG ps lon_lo P HW HP hi wi p Hh Hp) as [L1 L2]. unfold at_hw, out_at. cbn [fst snd]. destruct p as [ho wo]. cbn [fst snd] in *.
  destruct (Nat.eqb_spec (bcell Ho Wo bh (ho * Wo + wo)) (bcell Ho Wo b (h * Wo + w))) as [E|E].
  - apply bcell_inj in E; [|now apply cell_lt|now apply cell_lt]. destruct E as [-> E]. destruct (split_div Wo ho wo L2) as [D1 D2]. destruct (split_div Wo h w Hwo) as [D3 D4]. rewrite E in D1, D2. replace ho with h by congruence. replace wo with w by congruence. now rewrite !Nat.eqb_refl.
  - symmetry. apply Bool.not_true_iff_false. rewrite !andb_true_iff, !Nat.eqb_eq. intros (-> & -> & ->). now apply E.
Qed.
(** the sum of what all entries add at one address *)
Lemma ring_hits : forall T a (v : nat -> trip -> R) b h w, b < B -> h < Ho -> w < Wo ->
  (forall bh hi wi p, bh < B -> hi < H -> wi < W -> In p (tg hi wi) -> hits a (T bh hi wi p) = (if (bc bh p =? bcell Ho Wo b (h * Wo + w))%nat then v bh ((hi, wi), p) else 0)%R) ->
  hits a (trace T) = rlsum (fun t => if at_hw h w t then v b t else 0)%R trips.
Proof.
  intros T a v b h w Hb Hh Hw HT. unfold hits. rewrite (keyed_sum _ _ B (H * W)) by apply up_keyed. rewrite trips_eq, (lsum_flat_map RT), (lsum_seq RT).
  transitivity (rsum B (fun bh => if (bh =? b)%nat then rsum (H * W) (fun cl => rlsum (fun p => if at_hw h w ((cl / W, cl - cl / W * W)%nat, p) then v b ((cl / W, cl - cl / W * W)%nat, p) else 0)%R (tg (cl / W) (cl - cl / W * W))) else 0)%R).
  - apply bsum_ext. intros bh Hbh. assert (Sp : forall cl, cl < H * W -> cl / W < H /\ cl - cl / W * W < W).
    { intros c Hc. rewrite sub_mod by lia. split; [apply Nat.div_lt_upper_bound; [lia|rewrite Nat.mul_comm; exact Hc]|]. apply Nat.mod_upper_bound. lia. }
    assert (Q : forall cl, cl < H * W -> rlsum (fun u => if (fst (fst u) =? a)%nat then snd u else 0)%R (per_tgt W Wo WoG ps lon_lo P T bh cl) = rlsum (fun p => if (bh =? b) && at_hw h w ((cl / W, cl - cl / W * W)%nat, p) then v bh ((cl / W, cl - cl / W * W)%nat, p) else 0)%R (tg (cl / W) (cl - cl / W * W))).
    { intros cl Hcl. destruct (Sp cl Hcl). unfold per_tgt. fold (hits a (flat_map (T bh (cl / W) (cl - cl / W * W)) (tg (cl / W) (cl - cl / W * W)))). rewrite hits_flat. apply lsum_ext. intros p Hp. rewrite HT by auto. rewrite (bc_eqb bh b (cl / W) (cl - cl / W * W)) by auto. reflexivity. }
    destruct (Nat.eqb_spec bh b) as [->|Ne].
    + apply bsum_ext. intros cl Hcl. rewrite (Q cl Hcl). apply lsum_ext. intros p _. cbn [andb]. reflexivity.
    + apply rsum_0. intros cl Hcl. rewrite (Q cl Hcl). apply rlsum_zero. intros p _. reflexivity.
  - rewrite (rsum_one B b (fun _ => _) Hb). rewrite (bsum_mul_range RT). apply bsum_ext. intros hi _. rewrite (lsum_flat_map RT), (lsum_seq RT). apply bsum_ext. intros wi Hwi. destruct (split_div W hi wi Hwi) as [D1 D2]. rewrite D1. replace (hi * W + wi - hi * W) with wi by lia. rewrite lsum_map. reflexivity.
Qed.
Lemma ring_in : forall T u, In u (trace T) <-> exists b t, b < B /\ In t trips /\ In u (T b (fst (fst t)) (snd (fst t)) (snd t)).
Proof.
  intros T u. rewrite (in_at_key _ _ B (H * W)) by apply up_keyed. split.
  - intros (b & cl & Hb & Hc & Hu). unfold per_tgt in Hu. apply in_flat_map in Hu. destruct Hu as (p & Hp & Hu). exists b, ((cl / W, cl - cl / W * W), p). split; [exact Hb|]. split; [|exact Hu]. apply trips_in. cbn [fst snd]. split; [apply Nat.div_lt_upper_bound; [lia|rewrite Nat.mul_comm; exact Hc]|]. split; [rewrite sub_mod by lia; apply Nat.mod_upper_bound; lia|exact Hp].
  - intros (b & t & Hb & Ht & Hu). apply trips_in in Ht. destruct Ht as (Hh & Hw & Hp). destruct t as [[hi wi] p]. cbn [fst snd] in *. exists b, (hi * W + wi). split; [exact Hb|]. split; [now apply cell_lt|]. destruct (cell_split W hi wi Hw) as [S1 S2]. unfold per_tgt. rewrite S2, S1. apply in_flat_map. exists p. auto.
Qed.

(** ** The sequential folds, cell by cell *)
Variables (nci nco : nat) (Kf Qf Vf Df : nat -> nat -> nat -> nat -> R) (lat0 : Z) (quad mx : nat -> R).
Notation sco := (trip_score nci Kf Qf).
Notation qd t := (quad (Z.to_nat (lat0 + Z.of_nat (fst (fst t))))).
Lemma rscr_score : forall b hi wi p, rscr nci Kf Qf b hi wi p = sco b ((hi, wi), p).
Proof. intros. unfold rscr, trip_score, dot. apply bsum_ext. intros x _. cbn [fst snd]. ring. Qed.
Lemma rgdv_trip : forall b hi wi p, rgdv nco Vf Df b hi wi p = trip_gdotv nco Vf Df b ((hi, wi), p).
Proof. intros. unfold rgdv, trip_gdotv, dot. apply bsum_ext. intros x _. cbn [fst snd]. ring. Qed.
(** the maximum *)
Lemma omax_fold : forall ninf b h w l m, (forall t, In t l -> (ninf < sco b t)%R) -> (forall x, m = Some x -> (ninf < x)%R) ->
  let m' := fold_left (fun m t => if at_hw h w t then omax m (sco b t) else m) l m in
  (forall x, m' = Some x -> (ninf < x)%R) /\ (m' = None -> m = None /\ forall t, In t l -> at_hw h w t = false) /\
  (as_num ninf m <= as_num ninf m')%R /\ (forall t, In t l -> at_hw h w t = true -> (sco b t <= as_num ninf m')%R) /\ (as_num ninf m' = as_num ninf m \/ exists t, In t l /\ at_hw h w t = true /\ as_num ninf m' = sco b t).
Proof.
  intros ninf b h w. induction l as [|t l IH]; intros m HS Hm; cbn [fold_left In].
  - split; [exact Hm|]. split; [intros ->; split; [reflexivity|intros ? []]|]. split; [lra|]. split; [intros ? []|now left].
  - set (m1 := if at_hw h w t then omax m (sco b t) else m).
    assert (H1 : forall x, m1 = Some x -> (ninf < x)%R). { unfold m1. intros x. destruct (at_hw h w t); [|apply Hm]. unfold omax. assert (S := HS t (or_introl eq_refl)). destruct m as [y|]; intros [= <-]; [assert (Q := Rmax_r y (sco b t)); lra|exact S]. }
    destruct (IH m1 (fun t' Ht' => HS t' (or_intror Ht')) H1) as (A1 & A2 & A3 & A4 & A5). cbv zeta in *. set (m' := fold_left _ l m1) in *.
    assert (S := HS t (or_introl eq_refl)).
    assert (G : (as_num ninf m <= as_num ninf m1)%R /\ (at_hw h w t = true -> (sco b t <= as_num ninf m1)%R) /\ (as_num ninf m1 = as_num ninf m \/ at_hw h w t = true /\ as_num ninf m1 = sco b t)).
    { unfold m1. destruct (at_hw h w t); [|split; [lra|split; [discriminate|now left]]]. unfold omax. destruct m as [y|]; cbn [as_num].
      - assert (Q1 := Rmax_l y (sco b t)). assert (Q2 := Rmax_r y (sco b t)). split; [exact Q1|]. split; [intros _; exact Q2|]. unfold Rmax. destruct (Rle_dec y (sco b t)); [now right|now left].
      - split; [lra|]. split; [lra|now right]. }
    destruct G as (G1 & G2 & G3). split; [exact A1|]. split; [|split; [lra|split]].
    + intros E. destruct (A2 E) as [E1 E2]. unfold m1 in E1. destruct (at_hw h w t) eqn:Et; [unfold omax in E1; destruct m; discriminate|]. split; [exact E1|]. intros t' [<-|Ht']; [exact Et|now apply E2].
    + intros t' [<-|Ht'] Ea; [specialize (G2 Ea); lra|now apply A4].
    + destruct A5 as [A5|(t' & Ht' & Ea & Ev)]; [|right; exists t'; auto]. rewrite A5. destruct G3 as [G3|[G3 G4]]; [now left|right]. exists t. auto.
Qed.
Lemma step_max_at : forall b m h w, step_max nci (offsets 0 P) (columns P) H W lon_lo Wo Kf Qf WoG ps b m h w = fold_left (fun m t => if at_hw h w t then omax m (sco b t) else m) trips (m h w).
Proof. intros b m h w. unfold step_max. revert m. induction trips as [|t l IH]; intros m; [reflexivity|]. cbn [fold_left]. rewrite IH. reflexivity. Qed.
Lemma max_value : forall ninf b h w out m, b < B -> h < Ho -> w < Wo -> (forall t, In t trips -> (ninf < sco b t)%R) -> (forall x, m h w = Some x -> (ninf < x)%R) -> out (bcell Ho Wo b (h * Wo + w)) = as_num ninf (m h w) ->
  let m' := step_max nci (offsets 0 P) (columns P) H W lon_lo Wo Kf Qf WoG ps b m h w in
  upds (trace (rmaxT nci Ho Wo Kf Qf)) out (bcell Ho Wo b (h * Wo + w)) = as_num ninf m' /\ (forall x, m' = Some x -> (ninf < x)%R) /\ (m' = None -> m h w = None) /\ (forall t, In t trips -> at_hw h w t = true -> m' <> None).
Proof.
  intros ninf b h w out m Hb Hh Hw HS Hm Eo m'. subst m'. rewrite step_max_at. destruct (omax_fold ninf b h w trips (m h w) HS Hm) as (A1 & A2 & A3 & A4 & A5). cbv zeta in *. set (m' := fold_left _ trips (m h w)) in *.
  split; [|split; [exact A1|split; [intros E; now apply A2|intros t Ht Ea E; rewrite (proj2 (A2 E) t Ht) in Ea; discriminate]]].
  rewrite upds_max; [|intros u Hu _; apply ring_in in Hu; destruct Hu as (b' & t & _ & _ & [<-|[]]); reflexivity]. set (a := bcell Ho Wo b (h * Wo + w)) in *. rewrite Eo.
  set (l := map snd _). destruct (fold_max l (as_num ninf (m h w))) as (F1 & F2 & F3).
  assert (Iff : forall x, In x l <-> exists t, In t trips /\ at_hw h w t = true /\ x = sco b t).
  { intros x. unfold l. rewrite in_map_iff. split.
    - intros (u & <- & Hu). apply filter_In in Hu. destruct Hu as [Hu Ea]. apply ring_in in Hu. destruct Hu as (b' & t & Hb' & Ht & [<-|[]]). cbn [fst snd] in *. assert (Ht' := Ht). apply trips_in in Ht'. destruct Ht' as (L1 & L2 & L3). unfold a in Ea. rewrite (bc_eqb b' b (fst (fst t)) (snd (fst t))) in Ea by auto. apply andb_true_iff in Ea. destruct Ea as [E1 E2]. apply Nat.eqb_eq in E1. subst b'. destruct t as [[hi wi] p]. cbn [fst snd] in *. exists ((hi, wi), p). split; [exact Ht|]. split; [exact E2|]. apply rscr_score.
    - intros (t & Ht & Ea & ->). destruct t as [[hi wi] p]. exists (a, UAtom AMax, sco b ((hi, wi), p)). split; [reflexivity|]. apply filter_In. split; [|apply Nat.eqb_refl]. apply ring_in. exists b, ((hi, wi), p). split; [exact Hb|]. split; [exact Ht|]. left. cbn [fst snd]. rewrite rscr_score. f_equal. f_equal. unfold a. apply trips_in in Ht. cbn [fst snd] in Ht. apply Nat.eqb_eq. rewrite (bc_eqb b b hi wi) by tauto. rewrite Nat.eqb_refl. exact Ea. }
  apply Rle_antisym.
  - destruct F3 as [->|F3]; [exact A3|]. apply Iff in F3. destruct F3 as (t & Ht & Ea & ->). now apply A4.
  - destruct A5 as [->|(t & Ht & Ea & ->)]; [exact F1|]. apply F2. apply Iff. eauto.
Qed.
(** the accumulation *)
Definition salpha (m : option R) (b : nat) (t : trip) : R := (match m with None => 0 | Some m => exp (sco b t - m) end * qd t)%R.
Lemma step_acc_at : forall b buf h w, let st := step_acc nci quad (offsets 0 P) (columns P) H W lon_lo lat0 Wo Kf Vf Qf WoG ps b buf h w in let st0 := buf h w in
  DistAttnModel.r_max st = DistAttnModel.r_max st0 /\ DistAttnModel.r_sum st = (DistAttnModel.r_sum st0 + rlsum (fun t => if at_hw h w t then salpha (DistAttnModel.r_max st0) b t else 0) trips)%R /\
  forall c, DistAttnModel.r_acc st c = (DistAttnModel.r_acc st0 c + rlsum (fun t => if at_hw h w t then salpha (DistAttnModel.r_max st0) b t * Vf b (fst (fst t)) (snd (fst t)) c else 0) trips)%R.
Proof.
  intros b buf h w. cbv zeta. unfold step_acc. revert buf. induction trips as [|t l IH]; intros buf; cbn [fold_left]; [rewrite !rl_nil; split; [reflexivity|]; split; [ring|intros; rewrite rl_nil; ring]|].
  destruct (IH (fun h w => if (h =? fst (snd t)) && (w =? snd (snd t)) then mkR (DistAttnModel.r_sum (buf h w) + salpha (DistAttnModel.r_max (buf h w)) b t) (DistAttnModel.r_max (buf h w)) (fun c => (DistAttnModel.r_acc (buf h w) c + salpha (DistAttnModel.r_max (buf h w)) b t * Vf b (fst (fst t)) (snd (fst t)) c)%R) else buf h w)) as (I1 & I2 & I3).
  change ((h =? fst (snd t)) && (w =? snd (snd t))) with (at_hw h w t) in I1, I2, I3. rewrite rl_cons. destruct (at_hw h w t) eqn:Ea; cbn [DistAttnModel.r_max DistAttnModel.r_sum DistAttnModel.r_acc] in I1, I2, I3.
  - split; [exact I1|]. split; [etransitivity; [exact I2|]; ring|]. intros c. etransitivity; [exact (I3 c)|]. rewrite rl_cons, Ea. ring.
  - split; [exact I1|]. split; [etransitivity; [exact I2|]; ring|]. intros c. etransitivity; [exact (I3 c)|]. rewrite rl_cons, Ea. ring.
Qed.
Notation rT := (raccT B nci nco Ho Wo lat0 Kf Qf Vf quad mx).
Notation ral := (ralp nci Ho Wo lat0 Kf Qf quad mx).
Lemma racc_hits : forall b hi wi p a, hits a (rT b hi wi p) = ((if (bc b p =? a)%nat then ral b hi wi p else 0) + rsum nco (fun x => if (cells + (bc b p * nco + x) =? a)%nat then ral b hi wi p * Vf b hi wi x else 0))%R.
Proof. intros. unfold raccT, racc_l. rewrite (hits_warp a [(bc b p, UAtom AAdd, ral b hi wi p)]). rewrite hits_one. f_equal. rewrite hits_chans. apply bsum_ext. intros x _. rewrite chan0_bcell. reflexivity. Qed.
Lemma racc_adds : forall u, In u (trace rT) -> snd (fst u) = UAtom AAdd.
Proof.
  intros u Hu. apply ring_in in Hu. destruct Hu as (b & t & _ & _ & Hu). unfold raccT in Hu. apply in_flat_map in Hu. destruct Hu as (l & _ & Hu). unfold racc_l in Hu. apply in_app_iff in Hu. destruct Hu as [Hu|Hu].
  - destruct (l =? 0); [|destruct Hu]. destruct Hu as [<-|[]]. reflexivity.
  - apply in_map_iff in Hu. destruct Hu as (x & <- & _). reflexivity.
Qed.
Notation mu b t := (mx (bcell Ho Wo b (fst (snd t) * Wo + snd (snd t)))).
Notation alm b t := (exp (sco b t - mu b t) * qd t)%R.
Lemma ral_eq : forall b hi wi p, ral b hi wi p = alm b ((hi, wi), p).
Proof. intros. unfold ralp. rewrite rscr_score. reflexivity. Qed.
Lemma racc_sum : forall out b h w, b < B -> h < Ho -> w < Wo -> upds (trace rT) out (bcell Ho Wo b (h * Wo + w)) = (out (bcell Ho Wo b (h * Wo + w)) + rlsum (fun t => if at_hw h w t then alm b t else 0) trips)%R.
Proof.
  intros out b h w Hb Hh Hw. rewrite upds_add by (intros; now apply racc_adds). f_equal. fold (hits (bcell Ho Wo b (h * Wo + w)) (trace rT)).
  apply (ring_hits _ _ (fun b t => alm b t) b h w Hb Hh Hw). intros bh hi wi p Hbh Hhi Hwi Hp. rewrite racc_hits, <- ral_eq. rewrite (off_0 nco); [ring|]. intros x Hx. assert (L := bcell_lt B Ho Wo b (h * Wo + w) Hb (cell_lt Ho Wo h w Hh Hw)). lia.
Qed.
Lemma racc_num : forall out b h w c, b < B -> h < Ho -> w < Wo -> c < nco ->
  upds (trace rT) out (cells + (bcell Ho Wo b (h * Wo + w) * nco + c)) = (out (cells + (bcell Ho Wo b (h * Wo + w) * nco + c))%nat + rlsum (fun t => if at_hw h w t then alm b t * Vf b (fst (fst t)) (snd (fst t)) c else 0) trips)%R.
Proof.
  intros out b h w c Hb Hh Hw Hc. rewrite upds_add by (intros; now apply racc_adds). f_equal. match goal with |- rlsum _ ?l = _ => fold (hits (cells + (bcell Ho Wo b (h * Wo + w) * nco + c)) l) end.
  apply (ring_hits _ _ (fun b t => alm b t * Vf b (fst (fst t)) (snd (fst t)) c)%R b h w Hb Hh Hw). intros bh hi wi p Hbh Hhi Hwi Hp. rewrite racc_hits, <- ral_eq.
  assert (L := rbc_lt B H W Ho Wo WoG ps lon_lo P HW HP bh hi wi p Hbh Hhi Hp). rewrite (proj2 (Nat.eqb_neq (bc bh p) _)) by lia. rewrite Rplus_0_l. cbn [fst snd].
  rewrite <- (pick_chan nco (bc bh p) (bcell Ho Wo b (h * Wo + w)) c (fun x => ral bh hi wi p * Vf bh hi wi x)%R Hc). apply bsum_ext. intros x _.
  destruct (Nat.eqb_spec (cells + (bc bh p * nco + x)) (cells + (bcell Ho Wo b (h * Wo + w) * nco + c))), (Nat.eqb_spec (bc bh p * nco + x) (bcell Ho Wo b (h * Wo + w) * nco + c)); try reflexivity; lia.
Qed.

(** ** The statistics of the backward pass *)
Notation sT := (rstT B nci nco Ho Wo lat0 Kf Qf Vf Df quad mx).
Notation gv b t := (trip_gdotv nco Vf Df b t).
Lemma rst_hits : forall b hi wi p a, hits a (sT b hi wi p) = ((if (bc b p =? a)%nat then alm b ((hi, wi), p) * gv b ((hi, wi), p) else 0) + (rsum nci (fun x => if (cells + (bc b p * nci + x) =? a)%nat then alm b ((hi, wi), p) * Kf b hi wi x else 0) + rsum nci (fun x => if (cells + cells * nci + (bc b p * nci + x) =? a)%nat then alm b ((hi, wi), p) * gv b ((hi, wi), p) * Kf b hi wi x else 0)))%R.
Proof.
  intros. rewrite <- ral_eq, <- rgdv_trip. unfold rstT, rst_l. rewrite (hits_warp a [(bc b p, UAtom AAdd, (ral b hi wi p * rgdv nco Vf Df b hi wi p)%R)]). rewrite hits_one. f_equal. rewrite hits_chans2. f_equal; apply bsum_ext; intros x _; rewrite chan0_bcell; reflexivity.
Qed.
Lemma rst_adds : forall u, In u (trace sT) -> snd (fst u) = UAtom AAdd.
Proof.
  intros u Hu. apply ring_in in Hu. destruct Hu as (b & t & _ & _ & Hu). unfold rstT in Hu. apply in_flat_map in Hu. destruct Hu as (l & _ & Hu). unfold rst_l in Hu. apply in_app_iff in Hu. destruct Hu as [Hu|Hu].
  - destruct (l =? 0); [|destruct Hu]. destruct Hu as [<-|[]]. reflexivity.
  - apply in_flat_map in Hu. destruct Hu as (x & _ & [<-|[<-|[]]]); reflexivity.
Qed.
Lemma rst_values : forall out b h w, b < B -> h < Ho -> w < Wo -> let a := bcell Ho Wo b (h * Wo + w) in
  upds (trace sT) out a = (out a + rlsum (fun t => if at_hw h w t then alm b t * gv b t else 0) trips)%R /\
  (forall c, c < nci -> upds (trace sT) out (cells + (a * nci + c)) = (out (cells + (a * nci + c))%nat + rlsum (fun t => if at_hw h w t then alm b t * Kf b (fst (fst t)) (snd (fst t)) c else 0) trips)%R) /\
  (forall c, c < nci -> upds (trace sT) out (cells + cells * nci + (a * nci + c)) = (out (cells + cells * nci + (a * nci + c))%nat + rlsum (fun t => if at_hw h w t then alm b t * gv b t * Kf b (fst (fst t)) (snd (fst t)) c else 0) trips)%R).
Proof.
  intros out b h w Hb Hh Hw a. assert (La := bcell_lt B Ho Wo b (h * Wo + w) Hb (cell_lt Ho Wo h w Hh Hw)). fold a in La. assert (Ln := fun c (Hc : c < nci) => bcelln_lt B Ho Wo nci b (h * Wo + w) c Hb (cell_lt Ho Wo h w Hh Hw) Hc). fold a in Ln.
  split; [|split]; intros; (rewrite upds_add by (intros; now apply rst_adds)); f_equal; match goal with |- rlsum (fun u => if fst (fst u) =? ?x then _ else _) ?l = _ => fold (hits x l) end.
  - apply (ring_hits _ _ (fun b t => alm b t * gv b t)%R b h w Hb Hh Hw). intros bh hi wi p Hbh Hhi Hwi Hp. rewrite rst_hits. fold a. rewrite !(off_0 nci); [ring| |]; intros x Hx; lia.
  - apply (ring_hits _ _ (fun b t => alm b t * Kf b (fst (fst t)) (snd (fst t)) c)%R b h w Hb Hh Hw). intros bh hi wi p Hbh Hhi Hwi Hp. rewrite rst_hits.
    assert (L := rbc_lt B H W Ho Wo WoG ps lon_lo P HW HP bh hi wi p Hbh Hhi Hp). specialize (Ln c ltac:(assumption)). rewrite (proj2 (Nat.eqb_neq (bc bh p) _)) by lia. fold a. rewrite (off_0 nci (fun x => cells + cells * nci + (bc bh p * nci + x))) by (intros; lia). rewrite Rplus_0_l, Rplus_0_r. cbn [fst snd].
    etransitivity; [|apply (pick_chan nci (bc bh p) a c (fun x => alm bh ((hi, wi), p) * Kf bh hi wi x)%R); assumption]. apply bsum_ext. intros x _. cbn [fst snd].
    destruct (Nat.eqb_spec (cells + (bc bh p * nci + x)) (cells + (a * nci + c))), (Nat.eqb_spec (bc bh p * nci + x) (a * nci + c)); try reflexivity; lia.
  - apply (ring_hits _ _ (fun b t => alm b t * gv b t * Kf b (fst (fst t)) (snd (fst t)) c)%R b h w Hb Hh Hw). intros bh hi wi p Hbh Hhi Hwi Hp. rewrite rst_hits.
    assert (L := rbc_lt B H W Ho Wo WoG ps lon_lo P HW HP bh hi wi p Hbh Hhi Hp). rewrite (proj2 (Nat.eqb_neq (bc bh p) _)) by lia. fold a.
    rewrite (off_0 nci (fun x => cells + (bc bh p * nci + x))). 2:{ intros x Hx. assert (Hn := rbcn_lt B H W Ho Wo WoG ps lon_lo P HW HP nci bh hi wi p x Hbh Hhi Hp Hx). rewrite chan0_bcell in Hn. lia. }
    rewrite Rplus_0_l, Rplus_0_l. cbn [fst snd]. etransitivity; [|apply (pick_chan nci (bc bh p) a c (fun x => alm bh ((hi, wi), p) * gv bh ((hi, wi), p) * Kf bh hi wi x)%R); assumption]. apply bsum_ext. intros x _. cbn [fst snd].
    destruct (Nat.eqb_spec (cells + cells * nci + (bc bh p * nci + x)) (cells + cells * nci + (a * nci + c))), (Nat.eqb_spec (bc bh p * nci + x) (a * nci + c)); try reflexivity; lia.
Qed.
Lemma bstep_at : forall maxs buf b h w, b < B -> let st := bring_step_up nci nco quad (offsets 0 P) (columns P) H W lon_lo lat0 Wo Kf Vf Qf Df WoG ps maxs B buf b h w in let st0 := buf b h w in
  let al t := trip_alpha nci quad lat0 Kf Qf maxs b t in
  b_sum st = b_sum st0 /\ b_max st = b_max st0 /\ b_int st = (b_int st0 + rlsum (fun t => if at_hw h w t then al t * gv b t else 0) trips)%R /\
  (forall c, b_k st c = (b_k st0 c + rlsum (fun t => if at_hw h w t then al t * Kf b (fst (fst t)) (snd (fst t)) c else 0) trips)%R) /\ (forall c, b_kvw st c = (b_kvw st0 c + rlsum (fun t => if at_hw h w t then al t * gv b t * Kf b (fst (fst t)) (snd (fst t)) c else 0) trips)%R).
Proof.
  intros maxs buf b h w Hb. cbv zeta. unfold bring_step_up. rewrite (proj2 (Nat.ltb_lt _ _) Hb). generalize (buf b). clear buf. intros buf. revert buf.
  induction trips as [|t l IH]; intros buf; cbn [fold_left]; [rewrite !rl_nil; repeat split; intros; rewrite ?rl_nil; ring|].
  set (al := trip_alpha nci quad lat0 Kf Qf maxs b) in *.
  destruct (IH (fun h w => if (h =? fst (snd t)) && (w =? snd (snd t)) then mkB (b_sum (buf h w)) (b_max (buf h w)) (b_int (buf h w) + al t * gv b t) (fun c => (b_k (buf h w) c + al t * Kf b (fst (fst t)) (snd (fst t)) c)%R) (fun c => (b_kvw (buf h w) c + al t * gv b t * Kf b (fst (fst t)) (snd (fst t)) c)%R) else buf h w)) as (I1 & I2 & I3 & I4 & I5).
  change ((h =? fst (snd t)) && (w =? snd (snd t))) with (at_hw h w t) in I1, I2, I3, I4, I5. rewrite rl_cons. destruct (at_hw h w t) eqn:Ea; cbn [b_sum b_max b_int b_k b_kvw] in I1, I2, I3, I4, I5;
  (split; [exact I1|]; split; [exact I2|]; split; [etransitivity; [exact I3|]; ring|]; split; intros c; [etransitivity; [exact (I4 c)|]|etransitivity; [exact (I5 c)|]]; rewrite rl_cons, Ea; ring).
Qed.
(** ** The gradients of one chunk cell *)
Lemma dkv_at : forall sums maxs inorm b hi wi, hi < H -> let al t := trip_alpha nci quad lat0 Kf Qf maxs b t in
  let g := dkv_cell_up nci nco quad (offsets 0 P) (columns P) lon_lo lat0 Wo Kf Vf Qf Df WoG ps sums maxs inorm b hi wi in
  (forall c, fst g c = rlsum (fun p => (gv b ((hi, wi), p) - inorm b (fst p) (snd p)) * (al ((hi, wi), p) / sums b (fst p) (snd p)) * Qf b (fst p) (snd p) c)%R (tg hi wi)) /\
  (forall c, snd g c = rlsum (fun p => al ((hi, wi), p) / sums b (fst p) (snd p) * Df b (fst p) (snd p) c)%R (tg hi wi)).
Proof.
  intros sums maxs inorm b hi wi Hh. cbv zeta. set (al := trip_alpha nci quad lat0 Kf Qf maxs b) in *. unfold dkv_cell_up. rewrite csr_row_spec by (destruct HP; lia). unfold tgt.
  assert (G : forall l acc, let g := fold_left (fun acc c => match up_local_wo Wo WoG ps (c mod WoG) (lon_lo + wi) with | None => acc | Some wo => (fun ch => fst acc ch + (gv b ((hi, wi), ((c / WoG)%nat, wo)) - inorm b (c / WoG)%nat wo) * (al ((hi, wi), ((c / WoG)%nat, wo)) / sums b (c / WoG)%nat wo) * Qf b (c / WoG)%nat wo ch, fun ch => snd acc ch + al ((hi, wi), ((c / WoG)%nat, wo)) / sums b (c / WoG)%nat wo * Df b (c / WoG)%nat wo ch)%R end) l acc in
    (forall c, fst g c = (fst acc c + rlsum (fun p => (gv b ((hi, wi), p) - inorm b (fst p) (snd p)) * (al ((hi, wi), p) / sums b (fst p) (snd p)) * Qf b (fst p) (snd p) c) (flat_map (target Wo WoG ps lon_lo wi) l))%R) /\
    (forall c, snd g c = (snd acc c + rlsum (fun p => al ((hi, wi), p) / sums b (fst p) (snd p) * Df b (fst p) (snd p) c) (flat_map (target Wo WoG ps lon_lo wi) l))%R)).
  { induction l as [|c l IH]; intros acc; cbv zeta in *; cbn [fold_left flat_map]; [split; intros; rewrite rl_nil; ring|]. destruct (IH (match up_local_wo Wo WoG ps (c mod WoG) (lon_lo + wi) with | None => acc | Some wo => (fun ch => fst acc ch + (gv b ((hi, wi), ((c / WoG)%nat, wo)) - inorm b (c / WoG)%nat wo) * (al ((hi, wi), ((c / WoG)%nat, wo)) / sums b (c / WoG)%nat wo) * Qf b (c / WoG)%nat wo ch, fun ch => snd acc ch + al ((hi, wi), ((c / WoG)%nat, wo)) / sums b (c / WoG)%nat wo * Df b (c / WoG)%nat wo ch)%R end)) as [I1 I2].
    unfold target at 1 3. replace (c - c / WoG * WoG) with (c mod WoG) by (destruct WoG; [cbn; lia|rewrite sub_mod by lia; reflexivity]).
    split; intros ch; [rewrite I1|rewrite I2]; rewrite (lsum_app RT); destruct (up_local_wo _ _ _ _ _); cbn [fst snd]; rewrite ?rl_cons, ?rl_nil; cbn [fst snd]; ring. }
  destruct (G (nth hi P []) (fun _ => 0%R, fun _ => 0%R)) as [G1 G2]. cbv zeta in *. split; intros c; [etransitivity; [apply G1|]|etransitivity; [apply G2|]]; cbn [fst snd]; ring.
Qed.
End Values.
