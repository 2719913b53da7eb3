(** The CUDA kernels of the upsampling direction: what the buffers hold. *)
From Coq Require Import List Arith Lia Bool Reals Lra Permutation FunctionalExtensionality.
From Verif Require Import TensorModel TensorProofs BigSum DiscoModel DiscoSortProofs AttnModel AttnCoreProofs AttnUpProofs AttnGradProofs AttnCpuBwdProofs GpuModel GpuSpec GpuProofs GpuProofs2 WarpProofs CudaDiscoModel CudaWarpModel WarpSumProofs CudaAttnModel CudaAttnUpModel CudaAttnProofs CudaAttnLaneProofs CudaAttnFwdProofs2 WarpKernelProofs CudaKeyProofs CudaLoopProofs CudaAttnUpProofs CudaAttnUpProofs2.
From Verif Require Import AttnSpec.
Import ListNotations.
Local Open Scope nat_scope.
Notation upd := (nat * uop * R)%type (only parsing).

(** updates of one warp: some by lane 0, the others one per channel *)
Lemma hits_nil : forall a, hits a [] = 0%R.
Proof. reflexivity. Qed.
Lemma hits_one : forall a x o v, hits a [(x, o, v)] = (if (x =? a)%nat then v else 0)%R.
Proof. intros. unfold hits. cbn [lsum_ fold_right fst snd]. ring. Qed.
Lemma hits_warp : forall a (L : list upd) (M : nat -> list upd), hits a (flat_map (fun t => (if t =? 0 then L else []) ++ M t) (seq 0 32)) = (hits a L + rlsum (fun t => hits a (M t)) (seq 0 32))%R.
Proof.
  intros a L M. rewrite hits_flat.
  assert (E : forall l, rlsum (fun t => hits a ((if t =? 0 then L else []) ++ M t)) l = (rlsum (fun t => if (t =? 0)%nat then hits a L else 0)%R l + rlsum (fun t => hits a (M t)) l)%R).
  { intros l. rewrite <- rlsum_plus. apply lsum_ext. intros t _. rewrite hits_app. destruct (t =? 0); reflexivity. }
  rewrite E. f_equal. rewrite (lsum_seq RT). apply (rsum_one 32 0 (fun _ => hits a L)). lia.
Qed.
Lemma hits_chans : forall a n (ad : nat -> nat) o (v : nat -> R), rlsum (fun t => hits a (map (fun x => (ad x, o, v x)) (loop_chans 32 n t))) (seq 0 32) = rsum n (fun x => if (ad x =? a)%nat then v x else 0)%R.
Proof. intros. rewrite <- (warp_lanes n). apply lsum_ext. intros t _. apply hits_map. Qed.
Lemma pick_chan : forall n base a y (v : nat -> R), y < n -> rsum n (fun x => if (base * n + x =? a * n + y)%nat then v x else 0)%R = (if (base =? a)%nat then v y else 0)%R.
Proof.
  intros n base a y v Hy. destruct (Nat.eqb_spec base a) as [->|Ne].
  - rewrite <- (rsum_one n y v Hy). apply bsum_ext. intros x Hx. destruct (Nat.eqb_spec (a * n + x) (a * n + y)), (Nat.eqb_spec x y); auto; lia.
  - apply rsum_0. intros x Hx. destruct (Nat.eqb_spec (base * n + x) (a * n + y)) as [E|]; [|reflexivity]. exfalso. apply Ne. destruct (split_div n base x Hx) as [D1 _]. destruct (split_div n a y Hy) as [D2 _]. rewrite E in D1. congruence.
Qed.

Section Values.
Variables (B nh Hi Wi Ho Wo : nat) (P : pattern).
Hypotheses (HWi : 1 <= Wi) (HWo : 1 <= Wo) (Hdiv : Wo mod Wi = 0) (HP : pattern_ok P Hi (Ho * Wo)).
Notation BH := (B * nh).
Notation bc bh wi c := (bcell Ho Wo bh (out_cell Wi Wo wi c)).
Notation N := (nbrs_scatter P Hi Wi Wo).
Lemma bcell_inj : forall b c b' c', c < Ho * Wo -> c' < Ho * Wo -> bcell Ho Wo b c = bcell Ho Wo b' c' -> b = b' /\ c = c'.
Proof.
  intros b c b' c' Hc Hc' E. unfold bcell in E. rewrite <- (Nat.mul_assoc b), <- (Nat.mul_assoc b') in E. destruct (split_div (Ho * Wo) b c Hc) as [D1 D2]. destruct (split_div (Ho * Wo) b' c' Hc') as [D3 D4]. rewrite E in D1, D2. split; congruence.
Qed.
Lemma entries_hit : forall (G : nat -> nat -> nat -> nat -> nat -> R) b ho wo, b < BH -> ho < Ho -> wo < Wo ->
  rsum BH (fun bh => rsum (Hi * Wi) (fun cl => rlsum (fun c => if (bc bh (cl - cl / Wi * Wi)%nat c =? bcell Ho Wo b (ho * Wo + wo))%nat then G bh (cl / Wi)%nat (cl - cl / Wi * Wi)%nat (to_ho Wo c) (to_wo Wi Wo (cl - cl / Wi * Wi)%nat c) else 0)%R (nth (cl / Wi) P []))) =
  rlsum (fun p => G b (fst p) (snd p) ho wo) (N ho wo).
Proof.
  intros G b ho wo Hb Hho Hwo. rewrite scatter_sum, (lsum_seq RT).
  transitivity (rsum BH (fun bh => if (bh =? b)%nat then rsum (Hi * Wi) (fun cl => rlsum (fun c => if pt_eqb (ho, wo) (to_ho Wo c, to_wo Wi Wo (cl - cl / Wi * Wi)%nat c) then G b (cl / Wi)%nat (cl - cl / Wi * Wi)%nat ho wo else 0)%R (nth (cl / Wi) P [])) else 0)%R).
  - apply bsum_ext. intros bh Hbh. assert (Sp : forall cl, cl < Hi * Wi -> cl / Wi < Hi /\ cl - cl / Wi * Wi < Wi).
    { intros c Hc. rewrite sub_mod by lia. split; [apply Nat.div_lt_upper_bound; [lia|rewrite Nat.mul_comm; exact Hc]|]. apply Nat.mod_upper_bound. lia. }
    assert (Q : forall cl c, cl < Hi * Wi -> In c (nth (cl / Wi) P []) -> (bc bh (cl - cl / Wi * Wi) c =? bcell Ho Wo b (ho * Wo + wo)) = ((bh =? b) && pt_eqb (ho, wo) (to_ho Wo c, to_wo Wi Wo (cl - cl / Wi * Wi) c))%bool).
    { intros cl c Hcl Hc. destruct (Sp cl Hcl) as [S1 S2]. rewrite (out_cell_eq Wi Wo HWi HWo Hdiv _ c S2). destruct (to_ok Hi Wi Ho Wo P HWi HWo Hdiv HP _ (cl - cl / Wi * Wi) c S1 Hc) as [L1 L2].
      set (h := to_ho Wo c) in *. set (w := to_wo Wi Wo (cl - cl / Wi * Wi) c) in *. clearbody h w. unfold pt_eqb. cbn [fst snd].
      destruct (Nat.eqb_spec (bcell Ho Wo bh (h * Wo + w)) (bcell Ho Wo b (ho * Wo + wo))) as [E|E].
      - apply bcell_inj in E; [|now apply cell_lt|now apply cell_lt]. destruct E as [-> E]. destruct (split_div Wo h w L2) as [D1 D2]. destruct (split_div Wo ho wo Hwo) as [D3 D4]. rewrite E in D1, D2. replace h with ho by congruence. replace w with wo by congruence. now rewrite !Nat.eqb_refl.
      - symmetry. apply Bool.not_true_iff_false. rewrite !andb_true_iff, !Nat.eqb_eq. intros (-> & -> & ->). now apply E. }
    destruct (Nat.eqb_spec bh b) as [->|Ne].
    + apply bsum_ext. intros cl Hcl. apply lsum_ext. intros c Hc. rewrite (Q cl c Hcl Hc). rewrite ?Nat.eqb_refl. cbn [andb]. destruct (pt_eqb (ho, wo) _) eqn:E; [|reflexivity]. apply pt_eqb_iff in E. injection E as <- <-. reflexivity.
    + apply rsum_0. intros cl Hcl. apply rlsum_zero. intros c Hc. rewrite (Q cl c Hcl Hc). rewrite ?(proj2 (Nat.eqb_neq _ _) Ne). reflexivity.
  - rewrite (rsum_one BH b (fun _ => _) Hb). rewrite (bsum_mul_range RT). apply bsum_ext. intros hi _. rewrite (lsum_seq RT). apply bsum_ext. intros wi Hwi. destruct (split_div Wi hi wi Hwi) as [D1 D2]. rewrite D1. replace (hi * Wi + wi - hi * Wi) with wi by lia. reflexivity.
Qed.

(** ** The denominators and the numerators *)
Variables (nci nco : nat) (Kf Qf Vf : nat -> nat -> nat -> nat -> R) (quad mx : nat -> R).
Notation accT' := (accT B nh Wi Ho Wo nci Kf Qf nco Vf quad mx).
Notation alp' := (alp Wi Ho Wo nci Kf Qf quad mx).
Notation trace T := (flat_map (at_key (up_key (Hi * Wi)) (per_entry Wi P T)) (seq 0 (BH * up_gw (Hi * Wi)))).
Lemma coarse : forall cl, cl < Hi * Wi -> cl / Wi < Hi /\ cl - cl / Wi * Wi < Wi.
Proof. intros c Hc. rewrite sub_mod by lia. split; [apply Nat.div_lt_upper_bound; [lia|rewrite Nat.mul_comm; exact Hc]|]. apply Nat.mod_upper_bound. lia. Qed.
(** the sum of what all entries add at one address *)
Lemma trace_hits : forall T a (v : nat -> nat -> nat -> nat -> nat -> R) b ho wo, b < BH -> ho < Ho -> wo < Wo ->
  (forall bh hi wi c, bh < BH -> hi < Hi -> wi < Wi -> In c (nth hi P []) -> hits a (T bh hi wi c) = (if (bc bh wi c =? bcell Ho Wo b (ho * Wo + wo))%nat then v bh hi wi (to_ho Wo c) (to_wo Wi Wo wi c) else 0)%R) ->
  hits a (trace T) = rlsum (fun p => v b (fst p) (snd p) ho wo) (N ho wo).
Proof.
  intros T a v b ho wo Hb Hh Hw HT. unfold hits. rewrite (keyed_sum _ _ BH (Hi * Wi)) by apply up_keyed. rewrite <- entries_hit by auto. apply bsum_ext. intros bh Hbh. apply bsum_ext. intros cl Hcl. destruct (coarse cl Hcl) as [S1 S2].
  unfold per_entry. change (hits a (flat_map (T bh (cl / Wi) (cl - cl / Wi * Wi)) (nth (cl / Wi) P [])) = rlsum (fun c => if (bc bh (cl - cl / Wi * Wi)%nat c =? bcell Ho Wo b (ho * Wo + wo))%nat then v bh (cl / Wi)%nat (cl - cl / Wi * Wi)%nat (to_ho Wo c) (to_wo Wi Wo (cl - cl / Wi * Wi)%nat c) else 0)%R (nth (cl / Wi) P [])).
  rewrite hits_flat. apply lsum_ext. intros c Hc. now apply HT.
Qed.
Lemma trace_in : forall T u, In u (trace T) -> exists bh hi wi c, bh < BH /\ hi < Hi /\ wi < Wi /\ In c (nth hi P []) /\ In u (T bh hi wi c).
Proof.
  intros T u Hu. apply (in_at_key _ _ BH (Hi * Wi)) in Hu; [|apply up_keyed]. destruct Hu as (bh & cl & Hb & Hcl & Hu). unfold per_entry in Hu. apply in_flat_map in Hu. destruct Hu as (c & Hc & Hu). destruct (coarse cl Hcl). eauto 10.
Qed.
Definition sca (bh hi wi ho wo : nat) : R := score nci (Kf bh) (Qf bh) ho wo (hi, wi).
Lemma scr_score : forall bh hi wi c, scr Wi Wo nci Kf Qf bh hi wi c = sca bh hi wi (to_ho Wo c) (to_wo Wi Wo wi c).
Proof. intros. unfold scr, sca, score. apply bsum_ext. intros x _. cbn [fst snd]. ring. Qed.
Lemma bc_eq : forall bh hi wi c, hi < Hi -> wi < Wi -> In c (nth hi P []) -> bc bh wi c = bcell Ho Wo bh (to_ho Wo c * Wo + to_wo Wi Wo wi c).
Proof. intros. now rewrite out_cell_eq. Qed.
Lemma alp_alm : forall bh hi wi c, hi < Hi -> wi < Wi -> In c (nth hi P []) -> alp' bh hi wi c = alm nci quad Kf Qf bh (to_ho Wo c) (to_wo Wi Wo wi c) (mx (bcell Ho Wo bh (to_ho Wo c * Wo + to_wo Wi Wo wi c))) (hi, wi).
Proof. intros. unfold alp, alm. rewrite scr_score. rewrite (bc_eq bh hi) by auto. reflexivity. Qed.
Notation mu b ho wo := (mx (bcell Ho Wo b (ho * Wo + wo))).
Notation al b ho wo := (alm nci quad Kf Qf b ho wo (mu b ho wo)).
Lemma acc_hits : forall bh hi wi c a, hits a (accT' bh hi wi c) = ((if (BH * Ho * Wo * nco + bc bh wi c =? a)%nat then alp' bh hi wi c else 0) + rsum nco (fun x => if (bc bh wi c * nco + x =? a)%nat then alp' bh hi wi c * Vf bh hi wi x else 0))%R.
Proof.
  intros. unfold accT, acc_l. rewrite (hits_warp a [(BH * Ho * Wo * nco + bc bh wi c, UAtom AAdd, alp' bh hi wi c)]). rewrite hits_one. f_equal. rewrite hits_chans. apply bsum_ext. intros x _. unfold bcell. rewrite Nat.mul_add_distr_r. reflexivity.
Qed.
Lemma acc_adds : forall u, In u (trace accT') -> snd (fst u) = UAtom AAdd.
Proof.
  intros u Hu. apply trace_in in Hu. destruct Hu as (bh & hi & wi & c & _ & _ & _ & _ & Hu). unfold accT in Hu. apply in_flat_map in Hu. destruct Hu as (t & _ & Hu). unfold acc_l in Hu. apply in_app_iff in Hu. destruct Hu as [Hu|Hu].
  - destruct (t =? 0); [|destruct Hu]. destruct Hu as [<-|[]]. reflexivity.
  - apply in_map_iff in Hu. destruct Hu as (x & <- & _). reflexivity.
Qed.
Lemma acc_den : forall b ho wo, b < BH -> ho < Ho -> wo < Wo -> upds (trace accT') (fun _ => 0%R) (BH * Ho * Wo * nco + bcell Ho Wo b (ho * Wo + wo)) = rlsum (al b ho wo) (N ho wo).
Proof.
  intros b ho wo Hb Hh Hw. rewrite upds_add by (intros; now apply acc_adds). rewrite Rplus_0_l. fold (hits (BH * Ho * Wo * nco + bcell Ho Wo b (ho * Wo + wo)) (trace accT')).
  rewrite (trace_hits _ _ (fun bh hi wi h w => alm nci quad Kf Qf bh h w (mu bh h w) (hi, wi)) b ho wo Hb Hh Hw); [apply lsum_ext; intros [? ?] _; reflexivity|].
  intros bh hi wi c Hbh Hhi Hwi Hc. rewrite acc_hits. rewrite (rsum_0 nco); [|intros x Hx; destruct (Nat.eqb_spec (bc bh wi c * nco + x) (BH * Ho * Wo * nco + bcell Ho Wo b (ho * Wo + wo))) as [E|]; [exfalso|reflexivity]].
  - rewrite <- alp_alm by auto. destruct (Nat.eqb_spec (BH * Ho * Wo * nco + bc bh wi c) (BH * Ho * Wo * nco + bcell Ho Wo b (ho * Wo + wo))), (Nat.eqb_spec (bc bh wi c) (bcell Ho Wo b (ho * Wo + wo))); try lia; ring.
  - assert (L := bc_lt B nh Hi Wi Ho Wo P HWi HWo Hdiv HP bh hi wi c Hbh Hhi Hwi Hc). assert ((bc bh wi c + 1) * nco <= BH * Ho * Wo * nco) by (apply Nat.mul_le_mono_r; lia). lia.
Qed.
Lemma acc_num : forall b ho wo y, b < BH -> ho < Ho -> wo < Wo -> y < nco -> upds (trace accT') (fun _ => 0%R) (bcell Ho Wo b (ho * Wo + wo) * nco + y) = rlsum (fun p => al b ho wo p * Vf b (fst p) (snd p) y)%R (N ho wo).
Proof.
  intros b ho wo y Hb Hh Hw Hy. rewrite upds_add by (intros; now apply acc_adds). rewrite Rplus_0_l. fold (hits (bcell Ho Wo b (ho * Wo + wo) * nco + y) (trace accT')).
  rewrite (trace_hits _ _ (fun bh hi wi h w => alm nci quad Kf Qf bh h w (mu bh h w) (hi, wi) * Vf bh hi wi y)%R b ho wo Hb Hh Hw); [apply lsum_ext; intros [? ?] _; reflexivity|].
  intros bh hi wi c Hbh Hhi Hwi Hc. rewrite acc_hits. rewrite (pick_chan nco _ _ y (fun x => alp' bh hi wi c * Vf bh hi wi x)%R Hy). rewrite <- alp_alm by auto. destruct (Nat.eqb_spec (BH * Ho * Wo * nco + bc bh wi c) (bcell Ho Wo b (ho * Wo + wo) * nco + y)) as [E|_]; [exfalso|ring].
  assert (L := bcelln_lt BH Ho Wo nco b (ho * Wo + wo) y Hb (cell_lt Ho Wo ho wo Hh Hw) Hy). lia.
Qed.

(** ** The maximum *)
Lemma fold_max : forall l x, (x <= fold_left Rmax l x)%R /\ (forall y, In y l -> (y <= fold_left Rmax l x)%R) /\ (fold_left Rmax l x = x \/ In (fold_left Rmax l x) l).
Proof.
  induction l as [|z l IH]; intros x; cbn [fold_left In].
  - split; [lra|]. split; [intros y []|now left].
  - destruct (IH (Rmax x z)) as (H1 & H2 & H3). assert (Q1 := Rmax_l x z). assert (Q2 := Rmax_r x z). split; [lra|]. split; [intros y [->|Hy]; [lra|now apply H2]|].
    destruct H3 as [H3|H3]; [|now right; right]. rewrite H3. unfold Rmax. destruct (Rle_dec x z); [now right; left|now left].
Qed.
Lemma max_spec : forall fmin b ho wo, b < BH -> ho < Ho -> wo < Wo -> let m := upds (trace (maxT Wi Ho Wo nci Kf Qf)) (fun _ => fmin) (bcell Ho Wo b (ho * Wo + wo)) in
  (fmin <= m)%R /\ (forall p, In p (N ho wo) -> (score nci (Kf b) (Qf b) ho wo p <= m)%R) /\ (m = fmin \/ exists p, In p (N ho wo) /\ m = score nci (Kf b) (Qf b) ho wo p).
Proof.
  intros fmin b ho wo Hb Hh Hw m. subst m. rewrite upds_max.
  2:{ intros u Hu _. apply trace_in in Hu. destruct Hu as (bh & hi & wi & c & _ & _ & _ & _ & [<-|[]]). reflexivity. }
  set (a := bcell Ho Wo b (ho * Wo + wo)). destruct (fold_max (map snd (filter (fun u => fst (fst u) =? a) (trace (maxT Wi Ho Wo nci Kf Qf)))) fmin) as (F1 & F2 & F3).
  assert (Iff : forall x, In x (map snd (filter (fun u => fst (fst u) =? a) (trace (maxT Wi Ho Wo nci Kf Qf)))) <-> exists p, In p (N ho wo) /\ x = score nci (Kf b) (Qf b) ho wo p).
  { intros x. rewrite in_map_iff. split.
    - intros (u & <- & Hu). apply filter_In in Hu. destruct Hu as [Hu Ea]. apply Nat.eqb_eq in Ea. apply trace_in in Hu. destruct Hu as (bh & hi & wi & c & Hbh & Hhi & Hwi & Hc & [<-|[]]). cbn [fst snd] in *. rewrite (bc_eq bh hi) in Ea by auto.
      destruct (to_ok Hi Wi Ho Wo P HWi HWo Hdiv HP hi wi c Hhi Hc) as [L1 L2]. apply bcell_inj in Ea; [|now apply cell_lt|now apply cell_lt]. destruct Ea as [-> Ea]. destruct (split_div Wo (to_ho Wo c) (to_wo Wi Wo wi c) L2) as [D1 D2]. destruct (split_div Wo ho wo Hw) as [D3 D4]. rewrite Ea in D1, D2.
      exists (hi, wi). split; [|rewrite scr_score; unfold sca; congruence]. unfold nbrs_scatter. apply in_flat_map. exists hi. split; [apply in_seq; lia|]. apply in_flat_map. exists wi. split; [apply in_seq; lia|]. apply in_map_iff. exists (ho, wo). split; [reflexivity|]. apply filter_In. split; [|now apply pt_eqb_iff].
      unfold rotated. apply in_map_iff. exists c. split; [|exact Hc]. fold (to_ho Wo c). fold (to_wo Wi Wo wi c). congruence.
    - intros (p & Hp & ->). unfold nbrs_scatter in Hp. apply in_flat_map in Hp. destruct Hp as (hi & Hhi & Hp). apply in_seq in Hhi. apply in_flat_map in Hp. destruct Hp as (wi & Hwi & Hp). apply in_seq in Hwi. apply in_map_iff in Hp. destruct Hp as (q & <- & Hq). apply filter_In in Hq. destruct Hq as [Hq Eq]. apply pt_eqb_iff in Eq. subst q.
      unfold rotated in Hq. apply in_map_iff in Hq. destruct Hq as (c & Ec & Hc). fold (to_ho Wo c) in Ec. fold (to_wo Wi Wo wi c) in Ec. injection Ec as E1 E2.
      exists (a, UAtom AMax, score nci (Kf b) (Qf b) ho wo (hi, wi)). split; [reflexivity|]. apply filter_In. split; [|apply Nat.eqb_refl]. apply (in_at_key _ _ BH (Hi * Wi)); [apply up_keyed|]. exists b, (hi * Wi + wi). split; [exact Hb|]. split; [nia|].
      unfold per_entry. apply in_flat_map. exists c. destruct (split_div Wi hi wi ltac:(lia)) as [D1 D2]. rewrite D1. replace (hi * Wi + wi - hi * Wi) with wi by lia. split; [exact Hc|]. left. rewrite scr_score. unfold sca. rewrite (bc_eq b hi) by (auto; lia). rewrite E1, E2. reflexivity. }
  split; [exact F1|]. split.
  - intros p Hp. apply F2. apply Iff. eauto.
  - destruct F3 as [F3|F3]; [now left|]. apply Iff in F3. now right.
Qed.
End Values.
