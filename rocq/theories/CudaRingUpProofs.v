(** The CUDA kernels of a ring step in the upsampling direction: what every schedule of a
    launch leaves behind, as a list of updates. *)
From Coq Require Import List Arith Lia Bool ZArith Reals Lra Permutation FunctionalExtensionality.
From Verif Require Import TensorModel TensorProofs BigSum DiscoModel DiscoSortProofs DistAttnModel AttnModel AttnCoreProofs GpuModel GpuSpec GpuProofs GpuProofs2 WarpProofs CudaDiscoModel CudaWarpModel WarpSumProofs CudaFwdProofs CudaAttnModel CudaAttnUpModel CudaAttnProofs CudaAttnLaneProofs CudaAttnFwdProofs CudaAttnFwdProofs2 WarpKernelProofs CudaKeyProofs CudaLoopProofs CudaAttnUpProofs CudaAttnUpProofs2 CudaAttnUpProofs3 CudaAttnUpBwdProofs CudaAttnUpBwdProofs2 CudaRescaleModel CudaRingUpModel.
From Verif Require Import AttnSpec.
Import ListNotations.
Local Open Scope nat_scope.
Notation upd := (nat * uop * R)%type (only parsing).
Notation lanes := (nat -> (nat -> R) * (nat -> R)) (only parsing).
Notation priv := (fun _ : nat => false).

Lemma chan0_bcell : forall nc h w b c x, chan0 nc h w b c + x = bcell h w b c * nc + x.
Proof. intros. unfold chan0, bcell. lia. Qed.

Section Ring.
Variables (B nci nco H W Ho Wo WoG ps lon_lo : nat) (lat0 : Z) (P : pattern).
Hypotheses (HW : 1 <= W) (HP : pattern_ok P H (Ho * WoG)).
Notation roff := (offsets 0 P). Notation col := (columns P).
Notation cells := (B * Ho * Wo).
Notation bc b p := (bcell Ho Wo b (out_at Wo p)).
(** the output cells of this rank on the row of chunk cell (hi, wi) *)
Definition tgt (hi wi : nat) : list (nat * nat) := flat_map (target Wo WoG ps lon_lo wi) (nth hi P []).
Definition live (hi : nat) : Prop := nth hi P [] <> [].
Lemma tgt_ok : forall hi wi p, hi < H -> In p (tgt hi wi) -> fst p < Ho /\ snd p < Wo.
Proof.
  intros hi wi p Hh Hp. unfold tgt in Hp. apply in_flat_map in Hp. destruct Hp as (c & Hc & Hp). unfold target, up_local_wo in Hp.
  assert (L : c < Ho * WoG) by (apply (proj2 HP (nth hi P [])); [apply nth_In; destruct HP; lia|exact Hc]).
  destruct (_ <? Wo) eqn:E; [|destruct Hp]. destruct Hp as [<-|[]]. apply Nat.ltb_lt in E. cbn [fst snd]. split; [apply Nat.div_lt_upper_bound; [lia|rewrite Nat.mul_comm; exact L]|exact E].
Qed.
Lemma tgt_live : forall hi wi p, In p (tgt hi wi) -> live hi.
Proof. intros hi wi p Hp E. unfold tgt in Hp. rewrite E in Hp. destruct Hp. Qed.
Definition cells_at (inp : nat -> R) (N : nat) (p : nat * nat) (nc h w : nat) (F : nat -> nat -> nat -> nat -> R) : Prop :=
  forall b y x, b < B -> y < h -> x < w -> reads inp N p (chan0 nc h w b (y * w + x)) nc (F b y x).
Lemma at_tgt : forall inp N p nc F b hi wi q, cells_at inp N p nc Ho Wo F -> b < B -> hi < H -> In q (tgt hi wi) ->
  reads inp N p (chan0 nc Ho Wo b (out_at Wo q)) nc (F b (fst q) (snd q)).
Proof. intros inp N p nc F b hi wi q HR Hb Hh Hq. destruct (tgt_ok hi wi q Hh Hq). now apply HR. Qed.
Lemma rbc_lt : forall b hi wi q, b < B -> hi < H -> In q (tgt hi wi) -> bc b q < cells.
Proof. intros b hi wi q Hb Hh Hq. destruct (tgt_ok hi wi q Hh Hq). apply bcell_lt; [exact Hb|]. now apply cell_lt. Qed.
Lemma rbcn_lt : forall n b hi wi q x, b < B -> hi < H -> In q (tgt hi wi) -> x < n -> chan0 n Ho Wo b (out_at Wo q) + x < cells * n.
Proof. intros n b hi wi q x Hb Hh Hq Hx. rewrite chan0_bcell. destruct (tgt_ok hi wi q Hh Hq). apply bcelln_lt; auto. now apply cell_lt. Qed.
(** a launch with one group per chunk cell; a group whose row is empty does nothing *)
Definition when {X} (hi : nat) (l : list X) : list X := match nth hi P [] with [] => [] | _ => l end.
Lemma when_live : forall X hi (l : list X), live hi -> when hi l = l.
Proof. intros X hi l L. unfold when, live in *. destruct (nth hi P []); congruence. Qed.
Lemma ring_settles : forall k own kind holds body (F : nat -> nat -> nat -> list (nat * nat) -> list fstep) (T : nat -> nat -> nat -> list upd) rg sh out,
  k_groups k = B * up_gw (H * W) -> k_threads k = 32 -> (forall a, k_shared k <= a -> 32 <= own a) -> k_code k = (fun g => code_of (ring_group H W Wo WoG ps lon_lo roff col body g)) ->
  (forall b hi wi l, expand 32 (k_shared k) (F b hi wi l) = body b hi wi l) ->
  (forall g b hi wi, g < k_groups k -> up_key (H * W) g = Some (b, hi * W + wi) -> b < B -> hi < H -> wi < W -> live hi -> fgood k 1 own priv kind holds g false (F b hi wi (tgt hi wi))) ->
  (forall b hi wi st, b < B -> hi < H -> wi < W -> live hi -> ftrace (k_in k) 32 own priv (F b hi wi (tgt hi wi)) st = T b hi wi) ->
  (forall a gt gt', gt <> gt' -> holds a gt -> holds a gt' -> False) ->
  settles k (start k rg sh out) (fun o => o = upds (flat_map (at_key (up_key (H * W)) (fun b cl => when (cl / W) (T b (cl / W) (cl - cl / W * W)))) (seq 0 (k_groups k))) out).
Proof.
  intros k own kind holds body F T rg sh out Eg Et Hown Ec Ex Hf Ht Hh.
  assert (Sp : forall c, c < H * W -> c / W < H /\ c - c / W * W < W /\ c / W * W + (c - c / W * W) = c).
  { intros c Hc. rewrite sub_mod by lia. assert (Dm := Nat.div_mod c W ltac:(lia)). assert (Md := Nat.mod_upper_bound c W ltac:(lia)). split; [apply Nat.div_lt_upper_bound; [lia|rewrite Nat.mul_comm; exact Hc]|]. split; [exact Md|lia]. }
  apply (key_settles k B (H * W) (up_key (H * W)) own kind holds (fun b cl => when (cl / W) (F b (cl / W) (cl - cl / W * W) (tgt (cl / W) (cl - cl / W * W))))); auto.
  - rewrite Eg. apply up_keyed.
  - intros g t Hg Ht'. rewrite Ec. f_equal. unfold ring_group, at_key, up_key, up_gw. destruct (Nat.leb_spec (H * W) (g mod (div_up (H * W) 2 * 2))) as [L|L]; [reflexivity|]. cbv zeta.
    rewrite (row_of_spec P H (Ho * WoG)); [|exact HP|now apply Sp]. unfold when, tgt. destruct (nth _ P []) eqn:E; [reflexivity|]. rewrite <- E. symmetry. apply Ex.
  - intros g b c Hg Ek Hb Hc. destruct (Sp c Hc) as (S1 & S2 & S3). unfold when. destruct (nth (c / W) P []) eqn:E; [exact I|]. apply Hf; auto; [now rewrite S3|]. unfold live. rewrite E. discriminate.
  - intros b c st Hb Hc. destruct (Sp c Hc) as (S1 & S2 & S3). unfold when. destruct (nth (c / W) P []) eqn:E; [reflexivity|]. apply Ht; auto. unfold live. rewrite E. discriminate.
Qed.
(** the updates when every target makes its own *)
Definition per_tgt (T : nat -> nat -> nat -> nat * nat -> list upd) (b cl : nat) : list upd := flat_map (T b (cl / W) (cl - cl / W * W)) (tgt (cl / W) (cl - cl / W * W)).
Lemma per_tgt_when : forall T, per_tgt T = fun b cl => when (cl / W) (flat_map (T b (cl / W) (cl - cl / W * W)) (tgt (cl / W) (cl - cl / W * W))).
Proof. intros T. apply functional_extensionality. intros b. apply functional_extensionality. intros cl. unfold per_tgt, when, tgt. destruct (nth (cl / W) P []); reflexivity. Qed.

Variables (Kf Qf Vf Df : nat -> nat -> nat -> nat -> R).
Definition rscr (b hi wi : nat) (p : nat * nat) : R := rsum nci (fun x => Kf b hi wi x * Qf b (fst p) (snd p) x)%R.
Definition rgdv (b hi wi : nat) (p : nat * nat) : R := rsum nco (fun x => Vf b hi wi x * Df b (fst p) (snd p) x)%R.

(** ** The maximum *)
Section Max.
Variables (k : kernel) (pk pq : nat * nat).
Hypotheses (Eg : k_groups k = B * up_gw (H * W)) (Et : k_threads k = 32) (Es : k_shared k = nci) (Eo : k_outsize k = cells).
Hypothesis Ec : k_code k = (fun g => code_of (ring_group H W Wo WoG ps lon_lo roff col (rmax_body B nci H W Ho Wo pk pq) g)).
Hypotheses (HK : cells_at (k_in k) (k_insize k) pk nci H W Kf) (HQ : cells_at (k_in k) (k_insize k) pq nci Ho Wo Qf).
Definition rmax_fe (b : nat) (p : nat * nat) : list fstep :=
  one_dot r_dot 0 pq (chan0 nci Ho Wo b (out_at Wo p)) nci ++ [FSeg (fun t => if t =? 0 then [add_out AMax (0, cells) (bc b p) (fun r => r r_dot)] else [])].
Definition rmax_f (b hi wi : nat) (l : list (nat * nat)) : list fstep := [FSeg (up_copy 0 pk (chan0 nci H W b (in_at W hi wi)) nci)] ++ flat_map (rmax_fe b) l.
Definition rmaxT (b hi wi : nat) (p : nat * nat) : list upd := [(bc b p, UAtom AMax, rscr b hi wi p)].
Theorem rmax_settles : forall rg sh out, settles k (start k rg sh out) (fun o => o = upds (flat_map (at_key (up_key (H * W)) (per_tgt rmaxT)) (seq 0 (k_groups k))) out).
Proof.
  intros rg sh out. rewrite per_tgt_when.
  apply (ring_settles k (own_segs [nci]) (fun _ => Some AMax) (fun _ _ => False) (rmax_body B nci H W Ho Wo pk pq) rmax_f (fun b hi wi => flat_map (rmaxT b hi wi) (tgt hi wi))); auto.
  - intros a Ha. rewrite own_segs_out; [lia|]. cbn. lia.
  - intros b hi wi l. unfold rmax_f, rmax_body. rewrite expand_app. f_equal. rewrite expand_flat. reflexivity.
  - intros g b hi wi Hg _ Hb Hh Hw _. assert (Ow : forall c, c < nci -> own_segs [nci] (0 + c) = c mod 32) by (intros; now apply (own_segs_at [] nci [])). unfold rmax_f. cbn [app fgood]. split.
    + intros t Ht. eapply fine_up_copy; [lia|apply HK; assumption|lia|exact Ow].
    + apply fgood_flat. intros p Hp. split; [intros y [<-|[<-|[<-|[]]]]; discriminate|]. cbn [rmax_fe one_dot app fgood]. split; [|split; [|exact I]].
      * intros t Ht. eapply fine_up_dot; [lia|eapply at_tgt; eassumption|lia|exact Ow].
      * intros t Ht. assert (L := rbc_lt b hi wi p Hb Hh Hp). destruct (t =? 0); fi. apply fine_add; cbn [fst snd plus]; [exact L|rewrite Eo; exact L|reflexivity].
  - intros b hi wi st Hb Hh Hw _. unfold rmax_f. cbn [app ftrace ftrace1]. rewrite (quiet (k_in k) 32); [|intros t Ht; apply (up_copy_lane (k_in k) (k_insize k)) with (F := Kf b hi wi); [exact Ht|now apply HK]]. cbn [app fstate].
    refine (proj2 (floop (k_in k) 32 (own_segs [nci]) priv _ (rmax_fe b) (rmaxT b hi wi) (fun _ st => keeps 0 nci (Kf b hi wi) st) _ _ _ _)).
    + apply keeps_of. intros t Ht c Hc. rewrite after_in by exact Ht. apply (up_copy_lane (k_in k) (k_insize k) 0 pk _ nci (Kf b hi wi)); [exact Ht|now apply HK|exact Hc].
    + intros d p r st' Er Ks. assert (Hp : In p (tgt hi wi)) by (rewrite Er; apply in_elt). unfold rmax_fe.
      destruct (one_dot_run (k_in k) (k_insize k) (own_segs [nci]) priv r_dot 0 pq _ nci _ _ st' ltac:(discriminate) ltac:(discriminate) Ks (at_tgt _ _ _ _ _ b hi wi p HQ Hb Hh Hp)) as (D1 & D2).
      rewrite fend_app, ftrace_app, D1. set (st1 := fend (k_in k) 32 _ priv (one_dot _ _ _ _ _) st') in *.
      assert (L : forall t, t < 32 -> lrun (k_in k) (if t =? 0 then [add_out AMax (0, cells) (bc b p) (fun r => r r_dot)] else []) (st1 t) = (st1 t, if t =? 0 then rmaxT b hi wi p else [])).
      { intros t Ht. destruct (t =? 0); [|reflexivity]. rewrite add_in by (now apply (rbc_lt b hi wi)). rewrite (surjective_pairing (st1 t)). lr. rewrite (proj1 (proj2 (D2 t Ht))). reflexivity. }
      cbn [fend fold_left fstate ftrace ftrace1 app]. rewrite app_nil_r. split.
      * apply (keeps_eq _ _ _ st'); [exact Ks|]. intros t Ht. rewrite after_in by exact Ht. rewrite L by exact Ht. cbn [fst]. apply (D2 t Ht).
      * rewrite (flat_map_in_ext _ _ _ (fun t => if t =? 0 then rmaxT b hi wi p else []) (seq 0 32)); [reflexivity|]. intros t Ht. apply in_seq in Ht. rewrite L by lia. reflexivity.
Qed.
End Max.

(** ** The weight of a chunk row *)
Variables (nq : nat) (quad mx : nat -> R).
Notation gi hi := (Z.to_nat (lat0 + Z.of_nat hi)).
Definition quad_ok : Prop := forall hi, hi < H -> live hi -> (0 <= lat0 + Z.of_nat hi)%Z /\ gi hi < nq.
Hypothesis Hq : quad_ok.
Lemma get_w_eq : forall pw hi, hi < H -> live hi -> get_w lat0 pw hi = get pw r_w (gi hi).
Proof. intros pw hi Hh L. destruct (Hq hi Hh L) as [L1 _]. unfold get_w. cbv zeta. now rewrite (proj2 (Z.ltb_ge _ _) L1). Qed.
Definition rready (b hi wi : nat) (st : lanes) : Prop := keeps 0 nci (Kf b hi wi) st /\ keeps nci nco (Vf b hi wi) st /\ forall t, t < 32 -> fst (st t) r_w = quad (gi hi).
Definition ralp (b hi wi : nat) (p : nat * nat) : R := (exp (rscr b hi wi p - mx (bc b p)) * quad (gi hi))%R.
Lemma copies_w : forall inp N pk pv pw b hi wi kb vb st t, t < 32 -> reads inp N pk kb nci (Kf b hi wi) -> reads inp N pv vb nco (Vf b hi wi) -> reads inp N pw 0 nq quad -> hi < H -> live hi ->
  let m := lrun inp (up_copy 0 pk kb nci t ++ up_copy nci pv vb nco t ++ [get_w lat0 pw hi]) (st t) in
  snd m = [] /\ fst (fst m) r_w = quad (gi hi) /\ (forall c, In c (loop_chans 32 nci t) -> snd (fst m) (0 + c) = Kf b hi wi c) /\ (forall c, In c (loop_chans 32 nco t) -> snd (fst m) (nci + c) = Vf b hi wi c).
Proof.
  intros inp N pk pv pw b hi wi kb vb st t Ht RK RV RW Hh L. rewrite get_w_eq by assumption.
  exact (two_copies nq 1 1 nci (fun _ _ _ => Kf b hi wi) (le_n 1) (le_n 1) eq_refl nco (fun _ _ _ => Vf b hi wi) quad inp N pk pv pw kb vb (gi hi) 0 0 st t Ht RK RV RW (proj2 (Hq hi Hh L))).
Qed.
Lemma fine_w : forall k own kind holds g t pw hi, reads (k_in k) (k_insize k) pw 0 nq quad -> hi < H -> live hi -> fine k own priv kind holds false g t (get_w lat0 pw hi).
Proof. intros k own kind holds g t pw hi RW Hh L. rewrite get_w_eq by assumption. eapply fine_get0; [exact RW|]. now apply Hq. Qed.

(** ** The accumulation *)
Section Acc.
Variables (k : kernel) (pk pv pq pw pm : nat * nat).
Hypotheses (Eg : k_groups k = B * up_gw (H * W)) (Et : k_threads k = 32) (Es : k_shared k = nci + nco) (Eo : k_outsize k = cells + cells * nco).
Hypothesis Ec : k_code k = (fun g => code_of (ring_group H W Wo WoG ps lon_lo roff col (racc_body B nci nco H W Ho Wo lat0 pk pv pq pw pm) g)).
Notation inp := (k_in k). Notation N := (k_insize k).
Hypotheses (HK : cells_at inp N pk nci H W Kf) (HQ : cells_at inp N pq nci Ho Wo Qf) (HV : cells_at inp N pv nco H W Vf) (HQW : reads inp N pw 0 nq quad) (HM : reads inp N pm 0 cells mx).
Notation own := (own_segs [nci; nco]).
Definition racc_tail (b : nat) (p : nat * nat) (t : nat) : list instr := [get pm r_max (bc b p); ISet r_alpha (fun r => exp (r r_dot - r r_max) * r r_w)%R] ++
  (if t =? 0 then [add_out AAdd (p_rsum B Ho Wo) (bc b p) (fun r => r r_alpha)] else []) ++
  flat_map (fun c => [ILoad r_t (nci + c); add_out AAdd (p_racc B nco Ho Wo) (chan0 nco Ho Wo b (out_at Wo p) + c) (fun r => r r_alpha * r r_t)%R]) (loop_chans 32 nco t).
Definition racc_fe (b : nat) (p : nat * nat) : list fstep := one_dot r_dot 0 pq (chan0 nci Ho Wo b (out_at Wo p)) nci ++ [FSeg (racc_tail b p)].
Definition racc_f (b hi wi : nat) (l : list (nat * nat)) : list fstep :=
  [FSeg (fun t => up_copy 0 pk (chan0 nci H W b (in_at W hi wi)) nci t ++ up_copy nci pv (chan0 nco H W b (in_at W hi wi)) nco t ++ [get_w lat0 pw hi])] ++ flat_map (racc_fe b) l.
Definition racc_l (b hi wi : nat) (p : nat * nat) (t : nat) : list upd := (if t =? 0 then [(bc b p, UAtom AAdd, ralp b hi wi p)] else []) ++
  map (fun x => (cells + (chan0 nco Ho Wo b (out_at Wo p) + x), UAtom AAdd, (ralp b hi wi p * Vf b hi wi x)%R)) (loop_chans 32 nco t).
Definition raccT (b hi wi : nat) (p : nat * nat) : list upd := flat_map (racc_l b hi wi p) (seq 0 32).
Lemma racc_tail_run : forall b hi wi p t (m : (nat -> R) * (nat -> R)), b < B -> hi < H -> In p (tgt hi wi) -> t < 32 -> fst m r_dot = rscr b hi wi p -> fst m r_w = quad (gi hi) ->
  (forall x, x < nco -> x mod 32 = t -> snd m (nci + x) = Vf b hi wi x) ->
  let m' := lrun inp (racc_tail b p t) m in snd m' = racc_l b hi wi p t /\ snd (fst m') = snd m /\ fst (fst m') r_w = quad (gi hi).
Proof.
  intros b hi wi p t [rg sh] Hb Hh Hp Ht Ed Ew Ev m'. subst m'. cbn [fst snd] in *. assert (L := rbc_lt b hi wi p Hb Hh Hp). unfold racc_tail.
  rewrite (get_0 inp N pm _ mx r_max _ HM L). destruct (HM _ L) as (_ & _ & Em). cbn [plus] in Em.
  rewrite !lrun_app. lr. rewrite Em. set (rg1 := put r_alpha _ _).
  assert (E1 : rg1 r_alpha = ralp b hi wi p). { unfold rg1. pe. rewrite Ed, Ew. reflexivity. }
  assert (E2 : rg1 r_w = quad (gi hi)). { unfold rg1. pe. exact Ew. } clearbody rg1.
  assert (L1 : lrun inp (if t =? 0 then [add_out AAdd (p_rsum B Ho Wo) (bc b p) (fun r => r r_alpha)] else []) (rg1, sh) = ((rg1, sh), if t =? 0 then [(bc b p, UAtom AAdd, ralp b hi wi p)] else [])).
  { destruct (t =? 0); [|reflexivity]. rewrite add_in by exact L. lr. rewrite E1. reflexivity. }
  rewrite L1. cbn [fst snd].
  destruct (loop_atom inp AAdd r_alpha (p_racc B nco Ho Wo) (chan0 nco Ho Wo b (out_at Wo p)) nci nco (loop_chans 32 nco t) rg1 sh ltac:(discriminate)) as (A1 & A2 & A3).
  { intros x Hx. apply my_chans in Hx; tauto. }
  { intros x Hx. now apply (rbcn_lt nco b hi wi). }
  rewrite A1, A2, A3 by discriminate. split; [|split; [reflexivity|exact E2]]. unfold racc_l. f_equal. apply map_ext_in. intros x Hx. apply my_chans in Hx; [|exact Ht]. rewrite E1, Ev by tauto. reflexivity.
Qed.
Theorem racc_settles : forall rg sh out, settles k (start k rg sh out) (fun o => o = upds (flat_map (at_key (up_key (H * W)) (per_tgt raccT)) (seq 0 (k_groups k))) out).
Proof.
  intros rg sh out. rewrite per_tgt_when.
  apply (ring_settles k own (fun _ => Some AAdd) (fun _ _ => False) (racc_body B nci nco H W Ho Wo lat0 pk pv pq pw pm) racc_f (fun b hi wi => flat_map (raccT b hi wi) (tgt hi wi))); auto.
  - intros a Ha. rewrite own_segs_out; [lia|]. cbn. lia.
  - intros b hi wi l. unfold racc_f, racc_body. rewrite expand_app. f_equal. rewrite expand_flat. reflexivity.
  - intros g b hi wi Hg _ Hb Hh Hw Lv. assert (O1 : forall c, c < nci -> own (0 + c) = c mod 32) by (intros; now apply (own_segs_at [] nci [nco])).
    assert (O2 : forall c, c < nco -> own (nci + c) = c mod 32) by (intros c Hc; rewrite <- (own_segs_at [nci] nco [] c Hc); f_equal; cbn; lia). unfold racc_f. cbn [app fgood]. split.
    + intros t Ht. apply Forall_app. split; [eapply fine_up_copy; [lia|apply HK; assumption|lia|exact O1]|]. apply Forall_app. split; [eapply fine_up_copy; [lia|apply HV; assumption|lia|exact O2]|]. fi. now apply fine_w.
    + apply fgood_flat. intros p Hp. split; [intros y [<-|[<-|[<-|[]]]]; discriminate|]. assert (L := rbc_lt b hi wi p Hb Hh Hp). cbn [racc_fe one_dot app fgood]. split; [|split; [|exact I]].
      * intros t Ht. eapply fine_up_dot; [lia|eapply at_tgt; eassumption|lia|exact O1].
      * intros t Ht. unfold racc_tail. fi; [eapply fine_get0; [exact HM|exact L]| |].
        -- destruct (t =? 0); fi. apply fine_add; cbn [p_rsum fst snd plus]; [exact L|rewrite Eo; lia|reflexivity].
        -- intros x Hx. apply my_chans in Hx; [|lia]. assert (L2 := rbcn_lt nco b hi wi p x Hb Hh Hp ltac:(tauto)). fi; [apply fine_load; [lia|left; rewrite O2; tauto]|apply fine_add; cbn [p_racc fst snd]; [exact L2|rewrite Eo; lia|reflexivity]].
  - intros b hi wi st Hb Hh Hw Lv. unfold racc_f. cbn [app ftrace ftrace1].
    assert (I0 := fun t Ht => copies_w inp N pk pv pw b hi wi _ _ st t Ht (HK b hi wi Hb Hh Hw) (HV b hi wi Hb Hh Hw) HQW Hh Lv).
    rewrite (quiet inp 32); [|intros t Ht; apply (I0 t Ht)]. cbn [app fstate].
    refine (proj2 (floop inp 32 own priv _ (racc_fe b) (raccT b hi wi) (fun _ st => rready b hi wi st) _ _ _ _)).
    + split; [|split]; [apply keeps_of|apply keeps_of|]; intros t Ht; rewrite after_in by exact Ht; apply (I0 t Ht).
    + intros d p r st' Er (K1 & K2 & K3). assert (Hp : In p (tgt hi wi)) by (rewrite Er; apply in_elt). unfold racc_fe.
      destruct (one_dot_run inp N own priv r_dot 0 pq _ nci _ _ st' ltac:(discriminate) ltac:(discriminate) K1 (at_tgt _ _ _ _ _ b hi wi p HQ Hb Hh Hp)) as (D1 & D2).
      rewrite fend_app, ftrace_app, D1. set (st1 := fend inp 32 _ priv (one_dot _ _ _ _ _) st') in *.
      assert (L : forall t, t < 32 -> let m' := lrun inp (racc_tail b p t) (st1 t) in snd m' = racc_l b hi wi p t /\ snd (fst m') = snd (st1 t) /\ fst (fst m') r_w = quad (gi hi)).
      { intros t Ht. destruct (D2 t Ht) as (S1 & S2 & S3). apply racc_tail_run; auto; [rewrite S3 by discriminate; now apply K3|]. intros x Hx Hm. rewrite S1. now apply K2. }
      assert (Sh : forall t, t < 32 -> snd (after inp 32 (racc_tail b p) st1 t) = snd (st' t)). { intros t Ht. rewrite after_in by exact Ht. rewrite (proj1 (proj2 (L t Ht))). apply (D2 t Ht). }
      cbn [fend fold_left fstate ftrace ftrace1 app]. rewrite app_nil_r. split; [split; [|split]|].
      * now apply (keeps_eq _ _ _ st').
      * now apply (keeps_eq _ _ _ st').
      * intros t Ht. rewrite after_in by exact Ht. apply (L t Ht).
      * apply flat_map_in_ext. intros t Ht. apply in_seq in Ht. apply L. lia.
Qed.
End Acc.

(** ** The statistics of the backward pass *)
Section Stats.
Variables (k : kernel) (pk pv pq pdy pw pm : nat * nat).
Hypotheses (Eg : k_groups k = B * up_gw (H * W)) (Et : k_threads k = 32) (Es : k_shared k = nci + nco) (Eo : k_outsize k = cells + 2 * (cells * nci)).
Hypothesis Ec : k_code k = (fun g => code_of (ring_group H W Wo WoG ps lon_lo roff col (rstats_body B nci nco H W Ho Wo lat0 pk pv pq pdy pw pm) g)).
Notation inp := (k_in k). Notation N := (k_insize k).
Hypotheses (HK : cells_at inp N pk nci H W Kf) (HQ : cells_at inp N pq nci Ho Wo Qf) (HV : cells_at inp N pv nco H W Vf) (HD : cells_at inp N pdy nco Ho Wo Df) (HQW : reads inp N pw 0 nq quad) (HM : reads inp N pm 0 cells mx).
Notation own := (own_segs [nci; nco]).
Notation qb b p := (chan0 nci Ho Wo b (out_at Wo p)).
Definition rst_tail (b : nat) (p : nat * nat) (t : nat) : list instr :=
  [get pm r_max (bc b p); ISet r_alpha (fun r => exp (r r_dot - r r_max) * r r_w)%R; ISet r_ag (fun r => r r_alpha * r r_gd)%R] ++
  (if t =? 0 then [add_out AAdd (p_rint B Ho Wo) (bc b p) (fun r => r r_ag)] else []) ++
  flat_map (fun c => [ILoad r_t c; add_out AAdd (p_rk B nci Ho Wo) (qb b p + c) (fun r => r r_alpha * r r_t)%R; ILoad r_t c; add_out AAdd (p_rkvw B nci Ho Wo) (qb b p + c) (fun r => r r_ag * r r_t)%R]) (loop_chans 32 nci t).
Definition rst_fe (b : nat) (p : nat * nat) : list fstep := two_dots r_dot 0 pq (qb b p) nci r_gd nci pdy (chan0 nco Ho Wo b (out_at Wo p)) nco ++ [FSeg (rst_tail b p)].
Definition rst_f (b hi wi : nat) (l : list (nat * nat)) : list fstep :=
  [FSeg (fun t => up_copy 0 pk (chan0 nci H W b (in_at W hi wi)) nci t ++ up_copy nci pv (chan0 nco H W b (in_at W hi wi)) nco t ++ [get_w lat0 pw hi])] ++ flat_map (rst_fe b) l.
Definition rst_l (b hi wi : nat) (p : nat * nat) (t : nat) : list upd := (if t =? 0 then [(bc b p, UAtom AAdd, (ralp b hi wi p * rgdv b hi wi p)%R)] else []) ++
  flat_map (fun x => [(cells + (qb b p + x), UAtom AAdd, (ralp b hi wi p * Kf b hi wi x)%R); (cells + cells * nci + (qb b p + x), UAtom AAdd, (ralp b hi wi p * rgdv b hi wi p * Kf b hi wi x)%R)]) (loop_chans 32 nci t).
Definition rstT (b hi wi : nat) (p : nat * nat) : list upd := flat_map (rst_l b hi wi p) (seq 0 32).
Lemma rst_tail_run : forall b hi wi p t (m : (nat -> R) * (nat -> R)), b < B -> hi < H -> In p (tgt hi wi) -> t < 32 -> fst m r_dot = rscr b hi wi p -> fst m r_gd = rgdv b hi wi p -> fst m r_w = quad (gi hi) ->
  (forall x, x < nci -> x mod 32 = t -> snd m x = Kf b hi wi x) ->
  let m' := lrun inp (rst_tail b p t) m in snd m' = rst_l b hi wi p t /\ snd (fst m') = snd m /\ fst (fst m') r_w = quad (gi hi).
Proof.
  intros b hi wi p t [rg sh] Hb Hh Hp Ht Ed Eg' Ew Ek m'. subst m'. cbn [fst snd] in *. assert (L := rbc_lt b hi wi p Hb Hh Hp). unfold rst_tail.
  rewrite (get_0 inp N pm _ mx r_max _ HM L). destruct (HM _ L) as (_ & _ & Em). cbn [plus] in Em.
  rewrite !lrun_app. lr. rewrite Em. set (rg1 := put r_ag _ _).
  assert (E1 : rg1 r_alpha = ralp b hi wi p). { unfold rg1. pe. rewrite Ed, Ew. reflexivity. }
  assert (E3 : rg1 r_ag = (ralp b hi wi p * rgdv b hi wi p)%R). { unfold rg1. pe. rewrite Ed, Ew, Eg'. reflexivity. }
  assert (E2 : rg1 r_w = quad (gi hi)). { unfold rg1. pe. exact Ew. } clearbody rg1.
  assert (L1 : lrun inp (if t =? 0 then [add_out AAdd (p_rint B Ho Wo) (bc b p) (fun r => r r_ag)] else []) (rg1, sh) = ((rg1, sh), if t =? 0 then [(bc b p, UAtom AAdd, (ralp b hi wi p * rgdv b hi wi p)%R)] else [])).
  { destruct (t =? 0); [|reflexivity]. rewrite add_in by exact L. lr. rewrite E3. reflexivity. }
  rewrite L1. cbn [fst snd].
  destruct (loop_atom2 inp r_alpha r_ag (p_rk B nci Ho Wo) (p_rkvw B nci Ho Wo) (qb b p) nci (loop_chans 32 nci t) rg1 sh ltac:(discriminate) ltac:(discriminate)) as (A1 & A2 & A3).
  { intros x Hx. apply my_chans in Hx; tauto. }
  { intros x Hx. now apply (rbcn_lt nci b hi wi). }
  { intros x Hx. now apply (rbcn_lt nci b hi wi). }
  rewrite A1, A2, A3 by discriminate. split; [|split; [reflexivity|exact E2]]. unfold rst_l. f_equal. apply flat_map_in_ext. intros x Hx. apply my_chans in Hx; [|exact Ht]. rewrite E1, E3, Ek by tauto. reflexivity.
Qed.
Theorem rstats_settles : forall rg sh out, settles k (start k rg sh out) (fun o => o = upds (flat_map (at_key (up_key (H * W)) (per_tgt rstT)) (seq 0 (k_groups k))) out).
Proof.
  intros rg sh out. rewrite per_tgt_when.
  apply (ring_settles k own (fun _ => Some AAdd) (fun _ _ => False) (rstats_body B nci nco H W Ho Wo lat0 pk pv pq pdy pw pm) rst_f (fun b hi wi => flat_map (rstT b hi wi) (tgt hi wi))); auto.
  - intros a Ha. rewrite own_segs_out; [lia|]. cbn. lia.
  - intros b hi wi l. unfold rst_f, rstats_body. rewrite expand_app. f_equal. rewrite expand_flat. reflexivity.
  - intros g b hi wi Hg _ Hb Hh Hw Lv. assert (O1 : forall c, c < nci -> own (0 + c) = c mod 32) by (intros; now apply (own_segs_at [] nci [nco])).
    assert (O2 : forall c, c < nco -> own (nci + c) = c mod 32) by (intros c Hc; rewrite <- (own_segs_at [nci] nco [] c Hc); f_equal; cbn; lia). unfold rst_f. cbn [app fgood]. split.
    + intros t Ht. apply Forall_app. split; [eapply fine_up_copy; [lia|apply HK; assumption|lia|exact O1]|]. apply Forall_app. split; [eapply fine_up_copy; [lia|apply HV; assumption|lia|exact O2]|]. fi. now apply fine_w.
    + apply fgood_flat. intros p Hp. split; [intros y [<-|[<-|[<-|[<-|[]]]]]; discriminate|]. assert (L := rbc_lt b hi wi p Hb Hh Hp). cbn [rst_fe two_dots app fgood]. split; [|split; [|exact I]].
      * intros t Ht. apply Forall_app. split; eapply fine_up_dot; [lia|eapply at_tgt; eassumption|lia|exact O1|lia|eapply at_tgt; eassumption|lia|exact O2].
      * intros t Ht. unfold rst_tail. fi; [eapply fine_get0; [exact HM|exact L]| |].
        -- destruct (t =? 0); fi; apply fine_add; cbn [p_rint fst snd plus]; rewrite ?Eo; try exact L; try reflexivity; lia.
        -- intros x Hx. apply my_chans in Hx; [|lia]. assert (L2 := rbcn_lt nci b hi wi p x Hb Hh Hp ltac:(tauto)).
           assert (Ox : own x = t) by (rewrite <- (proj2 Hx); now apply O1). fi; try (apply fine_load; [lia|left; exact Ox]); apply fine_add; cbn [p_rk p_rkvw fst snd]; rewrite ?Eo; try exact L2; try reflexivity; lia.
  - intros b hi wi st Hb Hh Hw Lv. unfold rst_f. cbn [app ftrace ftrace1].
    assert (I0 := fun t Ht => copies_w inp N pk pv pw b hi wi _ _ st t Ht (HK b hi wi Hb Hh Hw) (HV b hi wi Hb Hh Hw) HQW Hh Lv).
    rewrite (quiet inp 32); [|intros t Ht; apply (I0 t Ht)]. cbn [app fstate].
    refine (proj2 (floop inp 32 own priv _ (rst_fe b) (rstT b hi wi) (fun _ st => rready b hi wi st) _ _ _ _)).
    + split; [|split]; [apply keeps_of|apply keeps_of|]; intros t Ht; rewrite after_in by exact Ht; apply (I0 t Ht).
    + intros d p r st' Er (K1 & K2 & K3). assert (Hp : In p (tgt hi wi)) by (rewrite Er; apply in_elt). unfold rst_fe.
      destruct (two_dots_run inp N own priv r_dot 0 pq _ nci _ _ r_gd nci pdy _ nco _ _ st' ltac:(discriminate) ltac:(discriminate) ltac:(discriminate) ltac:(discriminate) ltac:(discriminate) K1 K2
        (at_tgt _ _ _ _ _ b hi wi p HQ Hb Hh Hp) (at_tgt _ _ _ _ _ b hi wi p HD Hb Hh Hp)) as (D1 & D2).
      rewrite fend_app, ftrace_app, D1. set (st1 := fend inp 32 _ priv (two_dots _ _ _ _ _ _ _ _ _ _) st') in *.
      assert (L : forall t, t < 32 -> let m' := lrun inp (rst_tail b p t) (st1 t) in snd m' = rst_l b hi wi p t /\ snd (fst m') = snd (st1 t) /\ fst (fst m') r_w = quad (gi hi)).
      { intros t Ht. destruct (D2 t Ht) as (S1 & S2 & S3 & S4). apply rst_tail_run; auto; [rewrite S4 by discriminate; now apply K3|]. intros x Hx Hm. rewrite S1. exact (K1 t x Ht Hx Hm). }
      assert (Sh : forall t, t < 32 -> snd (after inp 32 (rst_tail b p) st1 t) = snd (st' t)). { intros t Ht. rewrite after_in by exact Ht. rewrite (proj1 (proj2 (L t Ht))). apply (D2 t Ht). }
      cbn [fend fold_left fstate ftrace ftrace1 app]. rewrite app_nil_r. split; [split; [|split]|].
      * now apply (keeps_eq _ _ _ st').
      * now apply (keeps_eq _ _ _ st').
      * intros t Ht. rewrite after_in by exact Ht. apply (L t Ht).
      * apply flat_map_in_ext. intros t Ht. apply in_seq in Ht. apply L. lia.
Qed.
End Stats.

(** ** The gradients of the keys and of the values *)
Section Dkv.
Variables (fs fi' : nat -> R) (k : kernel) (pk pv pq pdy pw ps' pm pi : nat * nat).
Definition rprc (b hi wi : nat) (p : nat * nat) : R := (ralp b hi wi p / fs (bc b p))%R.
Definition rwtc (b hi wi : nat) (p : nat * nat) : R := ((rgdv b hi wi p - fi' (bc b p)) * rprc b hi wi p)%R.
Definition rdk (b hi wi : nat) (d : list (nat * nat)) (x : nat) : R := rlsum (fun p => rwtc b hi wi p * Qf b (fst p) (snd p) x)%R d.
Definition rdv (b hi wi : nat) (d : list (nat * nat)) (x : nat) : R := rlsum (fun p => rprc b hi wi p * Df b (fst p) (snd p) x)%R d.
Notation ksize := (B * H * W * nci). Notation vsize := (B * H * W * nco).
Hypotheses (Eg : k_groups k = B * up_gw (H * W)) (Et : k_threads k = 32) (Es : k_shared k = 2 * nci + 2 * nco) (Eo : k_outsize k = ksize + vsize).
Hypothesis Ec : k_code k = (fun g => code_of (ring_group H W Wo WoG ps lon_lo roff col (rdkv_body nci nco H W Ho Wo lat0 pk pv pq pdy pw ps' pm pi ksize vsize) g)).
Notation inp := (k_in k). Notation N := (k_insize k).
Hypotheses (HK : cells_at inp N pk nci H W Kf) (HQ : cells_at inp N pq nci Ho Wo Qf) (HV : cells_at inp N pv nco H W Vf) (HD : cells_at inp N pdy nco Ho Wo Df) (HQW : reads inp N pw 0 nq quad) (HM : reads inp N pm 0 cells mx) (HS : reads inp N ps' 0 cells fs) (HA : reads inp N pi 0 cells fi').
Notation own := (own_segs [nci; nco; nci; nco]).
Notation sK := (sh_dk nci nco). Notation sV := (sh_dv nci nco).
Notation qb b p := (chan0 nci Ho Wo b (out_at Wo p)). Notation db b p := (chan0 nco Ho Wo b (out_at Wo p)).
Notation kb b hi wi := (chan0 nci H W b (in_at W hi wi)). Notation vb b hi wi := (chan0 nco H W b (in_at W hi wi)).
Definition rdkv_tail (b : nat) (p : nat * nat) (t : nat) : list instr :=
  [get pm r_max (bc b p); get ps' r_s (bc b p); ISet r_alpha (fun r => exp (r r_dot - r r_max) * r r_w / r r_s)%R; get pi r_int (bc b p); ISet r_ag (fun r => (r r_gd - r r_int) * r r_alpha)%R] ++
  flat_map (fun x => [ILoad r_t (sV + x); get pdy r_u (db b p + x); IStore (sV + x) (fun r => r r_t + r r_alpha * r r_u)%R]) (loop_chans 32 nco t) ++
  flat_map (fun x => [ILoad r_t (sK + x); get pq r_u (qb b p + x); IStore (sK + x) (fun r => r r_t + r r_ag * r r_u)%R]) (loop_chans 32 nci t).
Definition rdkv_fe (b : nat) (p : nat * nat) : list fstep := two_dots r_dot 0 pq (qb b p) nci r_gd nci pdy (db b p) nco ++ [FSeg (rdkv_tail b p)].
Definition rdkv_init (b hi wi t : nat) : list instr :=
  flat_map (fun c => [get pk r_t (kb b hi wi + c); IStore (0 + c) (fun r => r r_t); IStore (sK + c) (fun _ => 0%R)]) (loop_chans 32 nci t) ++
  flat_map (fun c => [get pv r_t (vb b hi wi + c); IStore (nci + c) (fun r => r r_t); IStore (sV + c) (fun _ => 0%R)]) (loop_chans 32 nco t) ++ [get_w lat0 pw hi].
Definition rdkv_last (b hi wi t : nat) : list instr :=
  flat_map (fun c => [ILoad r_t (sK + c); set_out (0, ksize) (kb b hi wi + c) (fun r => r r_t)]) (loop_chans 32 nci t) ++
  flat_map (fun c => [ILoad r_t (sV + c); set_out (ksize, vsize) (vb b hi wi + c) (fun r => r r_t)]) (loop_chans 32 nco t).
Definition rdkv_f (b hi wi : nat) (l : list (nat * nat)) : list fstep := [FSeg (rdkv_init b hi wi)] ++ flat_map (rdkv_fe b) l ++ [FSeg (rdkv_last b hi wi)].
Definition rdkv_n (i : nat) : nat := if i =? 0 then nci else nco.
Definition rdkv_addr (i b c x : nat) : nat := if i =? 0 then bcell H W b c * nci + x else ksize + (bcell H W b c * nco + x).
Definition rdkv_vl (i b c x : nat) : R := let hi := c / W in let wi := c - c / W * W in if i =? 0 then rdk b hi wi (tgt hi wi) x else rdv b hi wi (tgt hi wi) x.
Definition rdkv_holds := wholds (B * up_gw (H * W)) 2 (up_key (H * W)) rdkv_n (fun c => c mod 32) rdkv_addr.
Definition rdkv_T := wtrace 32 2 (fun i => loop_chans 32 (rdkv_n i)) rdkv_addr rdkv_vl.
Lemma rflat_inj : forall n b c x b' c' x', c < H * W -> c' < H * W -> x < n -> x' < n -> bcell H W b c * n + x = bcell H W b' c' * n + x' -> b = b' /\ c = c' /\ x = x'.
Proof.
  intros n b c x b' c' x' Hc Hc' Hx Hx' E. destruct (split_div n (bcell H W b c) x Hx) as [D1 D2]. destruct (split_div n (bcell H W b' c') x' Hx') as [D3 D4]. rewrite E in D1, D2.
  assert (E1 : bcell H W b c = bcell H W b' c') by congruence. apply bcell_inj in E1; auto. destruct E1. split; [assumption|]. split; [assumption|congruence].
Qed.
Lemma rdkv_inj : forall i b c x i' b' c' x' : nat, i < 2 -> b < B -> c < H * W -> x < rdkv_n i -> i' < 2 -> b' < B -> c' < H * W -> x' < rdkv_n i' -> rdkv_addr i b c x = rdkv_addr i' b' c' x' -> i = i' /\ b = b' /\ c = c' /\ x = x'.
Proof.
  intros i b c x i' b' c' x' Hi0 Hb Hc Hx Hi' Hb' Hc' Hx' E. unfold rdkv_addr, rdkv_n in *.
  destruct (Nat.eqb_spec i 0) as [E0|E0], (Nat.eqb_spec i' 0) as [E1|E1].
  - split; [lia|]. now apply (rflat_inj nci).
  - assert (L := bcelln_lt B H W nci b c x Hb Hc Hx). lia.
  - assert (L := bcelln_lt B H W nci b' c' x' Hb' Hc' Hx'). lia.
  - split; [lia|]. apply (rflat_inj nco); auto. lia.
Qed.
Definition rdkv_inv (b hi wi : nat) (d : list (nat * nat)) (st : lanes) : Prop :=
  rready b hi wi st /\ keeps sK nci (rdk b hi wi d) st /\ keeps sV nco (rdv b hi wi d) st.
Lemma rdkv_init_run : forall b hi wi t (m : (nat -> R) * (nat -> R)), b < B -> hi < H -> wi < W -> live hi -> t < 32 ->
  let m' := lrun inp (rdkv_init b hi wi t) m in snd m' = [] /\ fst (fst m') r_w = quad (gi hi) /\
  (forall c, In c (loop_chans 32 nci t) -> snd (fst m') (0 + c) = Kf b hi wi c /\ snd (fst m') (sK + c) = 0%R) /\ (forall c, In c (loop_chans 32 nco t) -> snd (fst m') (nci + c) = Vf b hi wi c /\ snd (fst m') (sV + c) = 0%R).
Proof.
  intros b hi wi t [rg sh] Hb Hh Hw Lv Ht m'. subst m'. unfold rdkv_init. rewrite !lrun_app. cbn [fst snd].
  destruct (loop_copy0 inp N pk (kb b hi wi) 0 sK nci (Kf b hi wi) (loop_chans 32 nci t) rg sh ltac:(unfold sh_dk; lia) ltac:(intros c Hc; apply my_chans in Hc; tauto) (HK b hi wi Hb Hh Hw)) as (A1 & A2 & A3 & A4).
  set (m1 := lrun inp _ (rg, sh)) in *. rewrite (surjective_pairing (fst m1)).
  destruct (loop_copy0 inp N pv (vb b hi wi) nci sV nco (Vf b hi wi) (loop_chans 32 nco t) (fst (fst m1)) (snd (fst m1)) ltac:(unfold sh_dv; lia) ltac:(intros c Hc; apply my_chans in Hc; tauto) (HV b hi wi Hb Hh Hw)) as (B1 & B2 & B3 & B4).
  set (m2 := lrun inp _ (fst (fst m1), snd (fst m1))) in *. rewrite get_w_eq by assumption. destruct (Hq hi Hh Lv) as [_ Lq]. rewrite (get_0 inp N pw nq quad r_w (gi hi) HQW Lq). rewrite (surjective_pairing (fst m2)). lr. rewrite A1, B1, put_eq. destruct (HQW _ Lq) as (_ & _ & Ew). cbn [plus] in Ew. split; [reflexivity|]. split; [exact Ew|]. split; [|exact B3].
  intros c Hc. assert (Lc := proj1 (proj1 (my_chans nci t c Ht) Hc)). rewrite !B4; [now apply A3| |]; intros c' Hc'; apply my_chans in Hc'; try exact Ht; unfold sh_dk, sh_dv; lia.
Qed.
Lemma rdkv_tail_run : forall b hi wi p t (m : (nat -> R) * (nat -> R)), b < B -> hi < H -> In p (tgt hi wi) -> t < 32 -> fst m r_dot = rscr b hi wi p -> fst m r_gd = rgdv b hi wi p -> fst m r_w = quad (gi hi) ->
  let m' := lrun inp (rdkv_tail b p t) m in snd m' = [] /\ fst (fst m') r_w = quad (gi hi) /\
  (forall x, In x (loop_chans 32 nci t) -> snd (fst m') (sK + x) = (snd m (sK + x)%nat + rwtc b hi wi p * Qf b (fst p) (snd p) x)%R) /\
  (forall x, In x (loop_chans 32 nco t) -> snd (fst m') (sV + x) = (snd m (sV + x)%nat + rprc b hi wi p * Df b (fst p) (snd p) x)%R) /\ (forall a, a < nci + nco -> snd (fst m') a = snd m a).
Proof.
  intros b hi wi p t [rg sh] Hb Hh Hp Ht Ed Eg' Ew m'. subst m'. cbn [fst snd] in *. assert (L := rbc_lt b hi wi p Hb Hh Hp). unfold rdkv_tail.
  rewrite (get_0 inp N ps' _ fs r_s _ HS L), (get_0 inp N pm _ mx r_max _ HM L), (get_0 inp N pi _ fi' r_int _ HA L). destruct (HM _ L) as (_ & _ & Em). destruct (HS _ L) as (_ & _ & E_s). destruct (HA _ L) as (_ & _ & Ea). cbn [plus] in Em, E_s, Ea.
  rewrite !lrun_app. lr. rewrite Em, E_s, Ea. set (rg1 := put r_ag _ _).
  assert (E1 : rg1 r_alpha = rprc b hi wi p). { unfold rg1. pe. rewrite Ed, Ew. reflexivity. }
  assert (E3 : rg1 r_ag = rwtc b hi wi p). { unfold rg1. pe. rewrite Ed, Ew, Eg'. reflexivity. }
  assert (E2 : rg1 r_w = quad (gi hi)). { unfold rg1. pe. exact Ew. } clearbody rg1.
  destruct (loop_update inp N r_alpha pdy (db b p) sV nco _ (loop_chans 32 nco t) rg1 sh ltac:(discriminate) ltac:(discriminate) (chans_nodup nco t Ht) ltac:(intros x Hx; apply my_chans in Hx; tauto) (at_tgt _ _ _ _ _ b hi wi p HD Hb Hh Hp)) as (A1 & A2 & A3 & A4).
  set (m1 := lrun inp _ (rg1, sh)) in *. rewrite (surjective_pairing (fst m1)).
  destruct (loop_update inp N r_ag pq (qb b p) sK nci _ (loop_chans 32 nci t) (fst (fst m1)) (snd (fst m1)) ltac:(discriminate) ltac:(discriminate) (chans_nodup nci t Ht) ltac:(intros x Hx; apply my_chans in Hx; tauto) (at_tgt _ _ _ _ _ b hi wi p HQ Hb Hh Hp)) as (B1 & B2 & B3 & B4).
  set (m2 := lrun inp _ (fst (fst m1), snd (fst m1))) in *. rewrite A1, B1. split; [reflexivity|]. split; [rewrite B2, A2 by discriminate; exact E2|].
  assert (Lk : forall c, In c (loop_chans 32 nci t) -> c < nci) by (intros x Hx; apply my_chans in Hx; tauto). assert (Lv : forall c, In c (loop_chans 32 nco t) -> c < nco) by (intros x Hx; apply my_chans in Hx; tauto).
  unfold sh_dk, sh_dv in *. split; [|split].
  - intros x Hx. rewrite B3 by exact Hx. rewrite A2 by discriminate. rewrite E3. rewrite A4; [reflexivity|]. intros c' Hc'. specialize (Lk x Hx). specialize (Lv c' Hc'). lia.
  - intros x Hx. rewrite B4; [rewrite A3 by exact Hx; rewrite E1; reflexivity|]. intros c' Hc'. specialize (Lv x Hx). specialize (Lk c' Hc'). lia.
  - intros a Ha. rewrite B4, A4; [reflexivity| |]; intros; lia.
Qed.
Lemma rdkv_last_run : forall b hi wi t (m : (nat -> R) * (nat -> R)), b < B -> hi < H -> wi < W -> t < 32 ->
  snd (lrun inp (rdkv_last b hi wi t) m) = map (fun x => (rdkv_addr 0 b (hi * W + wi) x, USet, snd m (sK + x))) (loop_chans 32 nci t) ++ map (fun x => (rdkv_addr 1 b (hi * W + wi) x, USet, snd m (sV + x))) (loop_chans 32 nco t).
Proof.
  intros b hi wi t [rg sh] Hb Hh Hw Ht. assert (Lc := cell_lt H W hi wi Hh Hw). unfold rdkv_last. rewrite lrun_app. cbn [fst snd].
  destruct (loop_write inp (0, ksize) (kb b hi wi) sK nci (loop_chans 32 nci t) rg sh) as (A1 & A2 & A3).
  { intros x Hx; apply my_chans in Hx; tauto. } { intros x Hx. rewrite chan0_bcell. cbn [snd]. now apply bcelln_lt. }
  set (m1 := lrun inp _ (rg, sh)) in *. rewrite (surjective_pairing (fst m1)).
  destruct (loop_write inp (ksize, vsize) (vb b hi wi) sV nco (loop_chans 32 nco t) (fst (fst m1)) (snd (fst m1))) as (B1 & B2 & B3).
  { intros x Hx; apply my_chans in Hx; tauto. } { intros x Hx. rewrite chan0_bcell. cbn [snd]. now apply bcelln_lt. }
  rewrite A1, B1, A2. f_equal; apply map_ext; intros x; unfold rdkv_addr; cbn [Nat.eqb fst]; rewrite chan0_bcell; reflexivity.
Qed.
Lemma rfine_update : forall holds g t ra base p b n F, t < 32 -> reads inp N p b n F -> base + n <= k_shared k -> (forall c, c < n -> own (base + c) = c mod 32) ->
  Forall (fine k own priv (fun _ => None) holds false g t) (flat_map (fun c => [ILoad r_t (base + c); get p r_u (b + c); IStore (base + c) (fun r => r r_t + r ra * r r_u)%R]) (loop_chans 32 n t)).
Proof. intros holds g t ra base p b n F Ht HR Hs Ho'. fi. intros c Hc. apply my_chans in Hc; [|assumption]. fi; [apply fine_load; [lia|left; rewrite Ho'; tauto]|eapply fine_get; [eassumption|tauto]|apply fine_store; [lia|split; [rewrite Ho'; tauto|reflexivity]]]. Qed.
Lemma rfine_copy0 : forall holds g t s1 s2 p b n F, t < 32 -> reads inp N p b n F -> s1 + n <= k_shared k -> s2 + n <= k_shared k -> (forall c, c < n -> own (s1 + c) = c mod 32) -> (forall c, c < n -> own (s2 + c) = c mod 32) ->
  Forall (fine k own priv (fun _ => None) holds false g t) (flat_map (fun c => [get p r_t (b + c); IStore (s1 + c) (fun r => r r_t); IStore (s2 + c) (fun _ => 0%R)]) (loop_chans 32 n t)).
Proof. intros holds g t s1 s2 p b n F Ht HR H1 H2 O1 O2. fi. intros c Hc. apply my_chans in Hc; [|assumption]. fi; [eapply fine_get; [eassumption|tauto]|apply fine_store; [lia|split; [rewrite O1; tauto|reflexivity]]|apply fine_store; [lia|split; [rewrite O2; tauto|reflexivity]]]. Qed.
(** the gradients of the chunk; what belongs to a row without entries stays as it was *)
Theorem rdkv_settles : forall rg sh out, settles k (start k rg sh out) (fun o => forall b hi wi x, b < B -> hi < H -> wi < W ->
  (x < nci -> o (bcell H W b (hi * W + wi) * nci + x) = if nth hi P [] then out (bcell H W b (hi * W + wi) * nci + x) else rdk b hi wi (tgt hi wi) x) /\
  (x < nco -> o (ksize + (bcell H W b (hi * W + wi) * nco + x)) = if nth hi P [] then out (ksize + (bcell H W b (hi * W + wi) * nco + x)) else rdv b hi wi (tgt hi wi) x)).
Proof.
  intros rg sh out.
  assert (O1 : forall c, c < nci -> own (0 + c) = c mod 32) by (intros; now apply (own_segs_at [] nci [nco; nci; nco])).
  assert (O2 : forall c, c < nco -> own (nci + c) = c mod 32) by (intros c Hc; rewrite <- (own_segs_at [nci] nco [nci; nco] c Hc); f_equal; cbn; lia).
  assert (O3 : forall c, c < nci -> own (sK + c) = c mod 32) by (intros c Hc; rewrite <- (own_segs_at [nci; nco] nci [nco] c Hc); f_equal; unfold sh_dk; cbn; lia).
  assert (O4 : forall c, c < nco -> own (sV + c) = c mod 32) by (intros c Hc; rewrite <- (own_segs_at [nci; nco; nci] nco [] c Hc); f_equal; unfold sh_dv; cbn; lia).
  apply (settles_impl k (start k rg sh out) (fun o => o = upds (flat_map (at_key (up_key (H * W)) (fun b cl => when (cl / W) (rdkv_T b (cl / W * W + (cl - cl / W * W))))) (seq 0 (k_groups k))) out)); cycle 1.
  - intros o -> b hi wi x Hb Hh Hw. assert (Hc := cell_lt H W hi wi Hh Hw). set (c := hi * W + wi) in *. destruct (cell_split W hi wi Hw) as [S1 S2]. fold c in S1, S2.
    replace (fun b cl => when (cl / W) (rdkv_T b (cl / W * W + (cl - cl / W * W)))) with (fun b cl => when (cl / W) (rdkv_T b cl)).
    2:{ apply functional_extensionality. intros b0. apply functional_extensionality. intros cl. f_equal. f_equal. assert (Q := Nat.mul_div_le cl W ltac:(lia)). lia. }
    rewrite Eg. set (T := fun b cl => when (cl / W) (rdkv_T b cl)).
    assert (TI : forall b' c' u, b' < B -> c' < H * W -> In u (T b' c') -> nth (c' / W) P [] <> [] /\ exists t, t < 32 /\ exists i' x', i' < 2 /\ In x' (loop_chans 32 (rdkv_n i') t) /\ u = (rdkv_addr i' b' c' x', USet, rdkv_vl i' b' c' x')).
    { intros b' c' u Hb' Hc' Hu. unfold T, when in Hu. destruct (nth (c' / W) P []); [destruct Hu|]. split; [discriminate|]. apply in_flat_map in Hu. destruct Hu as (t & Ht & Hu). apply in_seq in Ht. exists t. split; [lia|]. apply in_flat_map in Hu. destruct Hu as (j & Hj & Hu). apply in_seq in Hj. apply in_map_iff in Hu. destruct Hu as (x' & <- & Hx'). exists j, x'. split; [lia|]. split; [exact Hx'|]. reflexivity. }
    assert (V : forall i, i < 2 -> x < rdkv_n i -> upds (flat_map (at_key (up_key (H * W)) T) (seq 0 (B * up_gw (H * W)))) out (rdkv_addr i b c x) = if nth hi P [] then out (rdkv_addr i b c x) else rdkv_vl i b c x).
    { intros i Hi' Hx. destruct (nth hi P []) eqn:E.
      - apply upds_out. intros u Hu. apply (in_at_key _ _ B (H * W)) in Hu; [|apply up_keyed]. destruct Hu as (b' & c' & Hb' & Hc' & Hu). destruct (TI b' c' u Hb' Hc' Hu) as (Ne & t & Ht & i' & x' & Hi2 & Hx' & ->). cbn [fst]. intros Ea. apply my_chans in Hx'; [|exact Ht].
        apply rdkv_inj in Ea; auto; [|tauto]. destruct Ea as (-> & -> & -> & ->). apply Ne. rewrite S1. exact E.
      - apply (written (B * up_gw (H * W)) B (H * W) 32 2 (up_key (H * W)) rdkv_n (fun c => c mod 32) (fun i => loop_chans 32 (rdkv_n i)) rdkv_addr rdkv_vl); auto.
        + apply up_keyed.
        + intros. apply warp_covers.
        + intros. apply Nat.mod_upper_bound. lia.
        + exact rdkv_inj.
        + intros b' c' u Hb' Hc' Hu. left. apply TI; auto.
        + intros u Hu. unfold T, when. rewrite S1, E. exact Hu. }
    assert (V0 := V 0). assert (V1 := V 1). unfold rdkv_addr, rdkv_vl, rdkv_n in V0, V1. cbn [Nat.eqb] in V0, V1. cbv zeta in V0, V1. rewrite S2, S1 in V0, V1. split; intros Hx; [apply V0; lia|apply V1; lia].
  - apply (ring_settles k own (fun _ => None) rdkv_holds (rdkv_body nci nco H W Ho Wo lat0 pk pv pq pdy pw ps' pm pi ksize vsize) rdkv_f (fun b hi wi => rdkv_T b (hi * W + wi))); auto.
    + intros a Ha. rewrite own_segs_out; [lia|]. cbn. lia.
    + intros b hi wi l. unfold rdkv_f, rdkv_body. rewrite !expand_app. f_equal. f_equal. rewrite expand_flat. reflexivity.
    + intros g b hi wi Hg Ek Hb Hh Hw Lv. assert (Lc := cell_lt H W hi wi Hh Hw). unfold rdkv_f. cbn [app fgood]. split.
      * intros t Ht. unfold rdkv_init. apply Forall_app. split; [eapply rfine_copy0; [exact Ht|apply HK; assumption|unfold sh_dk; lia|unfold sh_dk; lia|exact O1|exact O3]|]. apply Forall_app. split; [eapply rfine_copy0; [exact Ht|apply HV; assumption|unfold sh_dv; lia|unfold sh_dv; lia|exact O2|exact O4]|]. fi. now apply fine_w.
      * apply fgood_app.
        -- intros y Hy. apply in_flat_map in Hy. destruct Hy as (c & _ & Hy). destruct Hy as [<-|[<-|[<-|[<-|[]]]]]; discriminate.
        -- apply fgood_flat. intros p Hp. split; [intros y [<-|[<-|[<-|[<-|[]]]]]; discriminate|]. assert (L := rbc_lt b hi wi p Hb Hh Hp). cbn [rdkv_fe two_dots app fgood]. split; [|split; [|exact I]].
           ++ intros t Ht. apply Forall_app. split; eapply fine_up_dot; [lia|eapply at_tgt; eassumption|lia|exact O1|lia|eapply at_tgt; eassumption|lia|exact O2].
           ++ intros t Ht. unfold rdkv_tail. apply Forall_app. split; [fi; eapply fine_get0; try exact L; [exact HM|exact HS|exact HA]|]. apply Forall_app. split; eapply rfine_update; try exact Ht; try (eapply at_tgt; eassumption); try (unfold sh_dk, sh_dv; lia); assumption.
        -- cbn [fgood]. split; [|exact I]. intros t Ht. unfold rdkv_last.
           assert (Ok : forall i x, i < 2 -> x < rdkv_n i -> x mod 32 = t -> rdkv_holds (rdkv_addr i b (hi * W + wi) x) (g, t)).
           { intros i x Hi' Hx Hm. apply (wholds_at (B * up_gw (H * W)) 2 (up_key (H * W)) rdkv_n (fun c => c mod 32) rdkv_addr g t b (hi * W + wi) i x); auto. now rewrite <- Eg. }
           fi; intros x Hx; apply my_chans in Hx; try exact Ht; fi.
           ++ apply fine_load; [unfold sh_dk; lia|]. left. rewrite O3; tauto.
           ++ assert (L := bcelln_lt B H W nci b (hi * W + wi) x Hb Lc ltac:(tauto)). apply fine_out; cbn [fst snd plus]; rewrite ?chan0_bcell; unfold in_at; try lia; [reflexivity|]. exact (Ok 0 x ltac:(lia) (proj1 Hx) (proj2 Hx)).
           ++ apply fine_load; [unfold sh_dv; lia|]. left. rewrite O4; tauto.
           ++ assert (L := bcelln_lt B H W nco b (hi * W + wi) x Hb Lc ltac:(tauto)). apply fine_out; cbn [fst snd]; rewrite ?chan0_bcell; unfold in_at; try lia; [reflexivity|]. exact (Ok 1 x ltac:(lia) (proj1 Hx) (proj2 Hx)).
    + intros b hi wi st Hb Hh Hw Lv. unfold rdkv_f. cbn [app ftrace ftrace1]. assert (I0 := fun t Ht => rdkv_init_run b hi wi t (st t) Hb Hh Hw Lv Ht).
      rewrite (quiet inp 32); [|intros t Ht; apply (I0 t Ht)]. cbn [app fstate]. set (st0 := after inp 32 (rdkv_init b hi wi) st).
      destruct (floop inp 32 own priv _ (rdkv_fe b) (fun _ => []) (rdkv_inv b hi wi) (tgt hi wi) st0) as [F1 F2].
      * split; [split; [|split]|split].
        -- apply keeps_of. intros t Ht c Hc. unfold st0. rewrite after_in by exact Ht. now apply (I0 t Ht).
        -- apply keeps_of. intros t Ht c Hc. unfold st0. rewrite after_in by exact Ht. now apply (I0 t Ht).
        -- intros t Ht. unfold st0. rewrite after_in by exact Ht. now apply (I0 t Ht).
        -- apply keeps_of. intros t Ht c Hc. unfold st0. rewrite after_in by exact Ht. now apply (I0 t Ht).
        -- apply keeps_of. intros t Ht c Hc. unfold st0. rewrite after_in by exact Ht. now apply (I0 t Ht).
      * intros d p r st' Er ((K1 & K2 & K3) & K4 & K5). assert (Hp : In p (tgt hi wi)) by (rewrite Er; apply in_elt). unfold rdkv_fe.
        destruct (two_dots_run inp N own priv r_dot 0 pq _ nci _ _ r_gd nci pdy _ nco _ _ st' ltac:(discriminate) ltac:(discriminate) ltac:(discriminate) ltac:(discriminate) ltac:(discriminate) K1 K2
          (at_tgt _ _ _ _ _ b hi wi p HQ Hb Hh Hp) (at_tgt _ _ _ _ _ b hi wi p HD Hb Hh Hp)) as (D1 & D2).
        rewrite fend_app, ftrace_app, D1. set (st1 := fend inp 32 _ priv (two_dots _ _ _ _ _ _ _ _ _ _) st') in *.
        assert (L := fun t (Ht : t < 32) => rdkv_tail_run b hi wi p t (st1 t) Hb Hh Hp Ht (proj1 (proj2 (D2 t Ht))) (proj1 (proj2 (proj2 (D2 t Ht)))) ltac:(rewrite (proj2 (proj2 (proj2 (D2 t Ht)))) by discriminate; now apply K3)). cbv zeta in L.
        cbn [fend fold_left fstate ftrace ftrace1 app]. rewrite app_nil_r. split; [split; [split; [|split]|split]|].
        -- intros t x Ht Hx Hm. rewrite after_in by exact Ht. destruct (L t Ht) as (_ & _ & _ & _ & L5). rewrite L5 by lia. rewrite (proj1 (D2 t Ht)). now apply K1.
        -- intros t x Ht Hx Hm. rewrite after_in by exact Ht. destruct (L t Ht) as (_ & _ & _ & _ & L5). rewrite L5 by lia. rewrite (proj1 (D2 t Ht)). now apply K2.
        -- intros t Ht. rewrite after_in by exact Ht. now apply (L t Ht).
        -- intros t x Ht Hx Hm. rewrite after_in by exact Ht. destruct (L t Ht) as (_ & _ & L3 & _). rewrite L3 by (now apply my_chans). rewrite (proj1 (D2 t Ht)). rewrite (K4 t x Ht Hx Hm). unfold rdk. rewrite (lsum_app RT). cbn [lsum_ fold_right]. ring.
        -- intros t x Ht Hx Hm. rewrite after_in by exact Ht. destruct (L t Ht) as (_ & _ & _ & L3 & _). rewrite L3 by (now apply my_chans). rewrite (proj1 (D2 t Ht)). rewrite (K5 t x Ht Hx Hm). unfold rdv. rewrite (lsum_app RT). cbn [lsum_ fold_right]. ring.
        -- apply (quiet inp 32). intros t Ht. now apply (L t Ht).
      * rewrite ftrace_app, F2. rewrite flat_map_nil. cbn [app ftrace ftrace1]. rewrite app_nil_r. destruct F1 as (_ & F3 & F4). unfold rdkv_T, wtrace. apply flat_map_in_ext. intros t Ht. apply in_seq in Ht. assert (Ht' : t < 32) by lia.
        rewrite rdkv_last_run by auto. cbn [flat_map seq]. rewrite app_nil_r. destruct (cell_split W hi wi Hw) as [S1 S2].
        f_equal; apply map_ext_in; intros x Hx; apply my_chans in Hx; try exact Ht'; unfold rdkv_vl; rewrite S2, S1; cbn [Nat.eqb]; [rewrite (F3 t x Ht')|rewrite (F4 t x Ht')]; tauto.
    + intros a gt gt'. apply (wholds_one (B * up_gw (H * W)) B (H * W) 2 (up_key (H * W)) rdkv_n (fun c => c mod 32) rdkv_addr); [apply up_keyed|exact rdkv_inj].
Qed.
End Dkv.
End Ring.
