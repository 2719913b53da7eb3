(** The CUDA kernels of the upsampling direction: what every schedule of a launch leaves
    behind, as a list of updates. *)
From Coq Require Import List Arith Lia Bool Reals Lra Permutation FunctionalExtensionality.
From Verif Require Import TensorModel TensorProofs BigSum DiscoModel DiscoSortProofs AttnModel AttnCoreProofs GpuModel GpuSpec GpuProofs GpuProofs2 WarpProofs CudaDiscoModel CudaWarpModel WarpSumProofs CudaFwdProofs CudaAttnModel CudaAttnUpModel CudaAttnProofs CudaAttnLaneProofs CudaAttnFwdProofs CudaAttnFwdProofs2 WarpKernelProofs CudaKeyProofs CudaLoopProofs CudaAttnUpProofs.
From Verif Require Import AttnSpec.
Import ListNotations.
Local Open Scope nat_scope.
Notation upd := (nat * uop * R)%type (only parsing).
Notation lanes := (nat -> (nat -> R) * (nat -> R)) (only parsing).
Notation priv := (fun _ : nat => false).

Lemma key_settles : forall k BH cells key own kind holds (F : nat -> nat -> list fstep) (T : nat -> nat -> list upd) rg sh out,
  keyed (k_groups k) BH cells key -> k_threads k = 32 -> (forall a, k_shared k <= a -> 32 <= own a) ->
  (forall g t, g < k_groups k -> t < 32 -> k_code k g t = code_of (expand 32 (k_shared k) (at_key key F g)) t) ->
  (forall g b c, g < k_groups k -> key g = Some (b, c) -> b < BH -> c < cells -> fgood k 1 own priv kind holds g false (F b c)) ->
  (forall b c st, b < BH -> c < cells -> ftrace (k_in k) 32 own priv (F b c) st = T b c) ->
  (forall a gt gt', gt <> gt' -> holds a gt -> holds a gt' -> False) ->
  settles k (start k rg sh out) (fun o => o = upds (flat_map (at_key key T) (seq 0 (k_groups k))) out).
Proof.
  intros k BH cells key own kind holds F T rg sh out K Et Hown Ec Hg Ht Hh.
  apply (fsteps_settle k 1 (k_shared k) own priv kind holds) with (prog := at_key key F); auto.
  - lia.
  - lia.
  - intros a Q. discriminate.
  - intros g t H1 H2. apply Ec; [exact H1|]. lia.
  - intros g H1. unfold at_key. destruct (key g) as [[b c]|] eqn:E; [|exact I]. destruct (ky_in _ _ _ _ K g b c H1 E). now apply Hg.
  - intros g st H1. unfold at_key. destruct (key g) as [[b c]|] eqn:E; [|reflexivity]. destruct (ky_in _ _ _ _ K g b c H1 E). now apply Ht.
Qed.

Ltac fi := repeat first [apply Forall_nil | apply Forall_cons | apply Forall_app; split | apply fine_set | apply Forall_flat].
Lemma fine_up_dot : forall k own kind holds g t rd base p b n F, t < 32 -> reads (k_in k) (k_insize k) p b n F -> base + n <= k_shared k -> (forall c, c < n -> own (base + c) = c mod 32) ->
  Forall (fine k own priv kind holds false g t) (up_dot rd base p b n t).
Proof. intros. unfold up_dot. fi. intros c Hc. apply my_chans in Hc; [|assumption]. fi; [apply fine_load; [lia|left; rewrite H2; tauto]|eapply fine_get; [eassumption|tauto]]. Qed.
Lemma fine_up_copy : forall k own kind holds g t base p b n F, t < 32 -> reads (k_in k) (k_insize k) p b n F -> base + n <= k_shared k -> (forall c, c < n -> own (base + c) = c mod 32) ->
  Forall (fine k own priv kind holds false g t) (up_copy base p b n t).
Proof. intros. unfold up_copy. fi. intros c Hc. apply my_chans in Hc; [|assumption]. fi; [eapply fine_get; [eassumption|tauto]|apply fine_store; [lia|split; [rewrite H2; tauto|reflexivity]]]. Qed.

Section Up.
Variables (B nh Hi Wi Ho Wo : nat) (P : pattern) (nci : nat) (Kf Qf : nat -> nat -> nat -> nat -> R).
Hypotheses (HWi : 1 <= Wi) (HWo : 1 <= Wo) (Hdiv : Wo mod Wi = 0) (HP : pattern_ok P Hi (Ho * Wo)).
Notation BH := (B * nh).
Notation roff := (offsets 0 P). Notation col := (columns P).
Notation bat bh := (bh / nh). Notation hd bh := (bh - bh / nh * nh).
Notation cell wi c := (out_cell Wi Wo wi c).
Notation bc bh wi c := (bcell Ho Wo bh (out_cell Wi Wo wi c)).
Definition cells_read (inp : nat -> R) (N : nat) (p : nat * nat) (nc H W : nat) (F : nat -> nat -> nat -> nat -> R) : Prop :=
  forall bh h w, bh < BH -> h < H -> w < W -> reads inp N p (cell_at (nh * nc) nc H W (bat bh) (hd bh) (h * W + w)) nc (F bh h w).
(** what an entry of the row of coarse cell (hi, wi) contributes *)
Definition scr (bh hi wi c : nat) : R := rsum nci (fun x => Kf bh hi wi x * Qf bh (to_ho Wo c) (to_wo Wi Wo wi c) x)%R.
Definition per_entry (f : nat -> nat -> nat -> nat -> list upd) (bh cl : nat) : list upd := flat_map (f bh (cl / Wi) (cl - cl / Wi * Wi)) (nth (cl / Wi) P []).

Lemma at_out : forall inp N p nc F bh hi wi c, cells_read inp N p nc Ho Wo F -> bh < BH -> hi < Hi -> wi < Wi -> In c (nth hi P []) ->
  reads inp N p (cell_at (nh * nc) nc Ho Wo (bat bh) (hd bh) (cell wi c)) nc (F bh (to_ho Wo c) (to_wo Wi Wo wi c)).
Proof using HWi HWo Hdiv HP.
  intros inp N p nc F bh hi wi c HR Hb Hh Hw Hc. rewrite (out_cell_eq Wi Wo HWi HWo Hdiv wi c Hw). destruct (to_ok Hi Wi Ho Wo P HWi HWo Hdiv HP hi wi c Hh Hc). now apply HR.
Qed.
Lemma bc_lt : forall bh hi wi c, bh < BH -> hi < Hi -> wi < Wi -> In c (nth hi P []) -> bc bh wi c < BH * Ho * Wo.
Proof using HWi HWo Hdiv HP.
  intros bh hi wi c Hb Hh Hw Hc. rewrite (out_cell_eq Wi Wo HWi HWo Hdiv wi c Hw). destruct (to_ok Hi Wi Ho Wo P HWi HWo Hdiv HP hi wi c Hh Hc) as [L1 L2]. unfold bcell. assert (L := cell_lt Ho Wo _ _ L1 L2).
  clear - L Hb. assert (H : (bh + 1) * (Ho * Wo) <= (B * nh) * (Ho * Wo)) by (apply Nat.mul_le_mono_r; lia). lia.
Qed.
Lemma bcn_lt : forall n bh hi wi c x, bh < BH -> hi < Hi -> wi < Wi -> In c (nth hi P []) -> x < n -> bh * Ho * Wo * n + cell wi c * n + x < BH * Ho * Wo * n.
Proof using HWi HWo Hdiv HP.
  intros n bh hi wi c x Hb Hh Hw Hc Hx. assert (L := bc_lt bh hi wi c Hb Hh Hw Hc). unfold bcell in L. clear - L Hx. rewrite <- Nat.mul_add_distr_r. assert ((bh * Ho * Wo + cell wi c + 1) * n <= BH * Ho * Wo * n) by (apply Nat.mul_le_mono_r; lia). lia.
Qed.
(** a launch with one group per coarse cell *)
Lemma up_settles : forall k own kind holds body (F : nat -> nat -> nat -> nat -> nat -> list nat -> list fstep) (T : nat -> nat -> nat -> list nat -> list upd) rg sh out,
  k_groups k = BH * up_gw (Hi * Wi) -> k_threads k = 32 -> (forall a, k_shared k <= a -> 32 <= own a) -> k_code k = (fun g => code_of (up_group nh Hi Wi roff col body g)) ->
  (forall bh b h hi wi row, expand 32 (k_shared k) (F bh b h hi wi row) = body bh b h hi wi row) ->
  (forall g bh hi wi, g < k_groups k -> up_key (Hi * Wi) g = Some (bh, hi * Wi + wi) -> bh < BH -> hi < Hi -> wi < Wi -> fgood k 1 own priv kind holds g false (F bh (bat bh) (hd bh) hi wi (nth hi P []))) ->
  (forall bh hi wi st, bh < BH -> hi < Hi -> wi < Wi -> ftrace (k_in k) 32 own priv (F bh (bat bh) (hd bh) hi wi (nth hi P [])) st = T bh hi wi (nth hi P [])) ->
  (forall a gt gt', gt <> gt' -> holds a gt -> holds a gt' -> False) ->
  settles k (start k rg sh out) (fun o => o = upds (flat_map (at_key (up_key (Hi * Wi)) (fun bh cl => T bh (cl / Wi) (cl - cl / Wi * Wi) (nth (cl / Wi) P []))) (seq 0 (k_groups k))) out).
Proof using HWi HWo Hdiv HP.
  intros k own kind holds body F T rg sh out Eg Et Hown Ec Ex Hf Ht Hh.
  assert (Sp : forall c, c < Hi * Wi -> c / Wi < Hi /\ c - c / Wi * Wi < Wi /\ c / Wi * Wi + (c - c / Wi * Wi) = c).
  { intros c Hc. rewrite sub_mod by lia. assert (Dm := Nat.div_mod c Wi ltac:(lia)). assert (Md := Nat.mod_upper_bound c Wi ltac:(lia)). split; [apply Nat.div_lt_upper_bound; [lia|rewrite Nat.mul_comm; exact Hc]|]. split; [exact Md|lia]. }
  apply (key_settles k BH (Hi * Wi) (up_key (Hi * Wi)) own kind holds (fun bh cl => F bh (bat bh) (hd bh) (cl / Wi) (cl - cl / Wi * Wi) (nth (cl / Wi) P []))); auto.
  - rewrite Eg. apply up_keyed.
  - intros g t Hg Ht'. rewrite Ec. f_equal. unfold up_group, at_key, up_key, up_gw. destruct (Nat.leb_spec (Hi * Wi) (g mod (div_up (Hi * Wi) 2 * 2))) as [L|L]; [reflexivity|]. cbv zeta.
    rewrite (row_of_spec P Hi (Ho * Wo)); [|exact HP|now apply Sp]. symmetry. apply Ex.
  - intros g b c Hg Ek Hb Hc. destruct (Sp c Hc) as (S1 & S2 & S3). apply Hf; auto. now rewrite S3.
  - intros b c st Hb Hc. destruct (Sp c Hc) as (S1 & S2 & S3). now apply Ht.
Qed.

Lemma keeps_of : forall base n f (st : lanes), (forall t, t < 32 -> forall c, In c (loop_chans 32 n t) -> snd (st t) (base + c) = f c) -> keeps base n f st.
Proof. intros base n f st H t c Ht Hc Hm. apply H; [exact Ht|]. apply my_chans; auto. Qed.
Lemma keeps_eq : forall base n f (st st' : lanes), keeps base n f st -> (forall t, t < 32 -> snd (st' t) = snd (st t)) -> keeps base n f st'.
Proof. intros base n f st st' K H t c Ht Hc Hm. rewrite H by exact Ht. now apply K. Qed.

(** ** The maximum *)
Section Max.
Variables (k : kernel) (pk pq : nat * nat).
Hypotheses (Eg : k_groups k = BH * up_gw (Hi * Wi)) (Et : k_threads k = 32) (Es : k_shared k = nci) (Eo : k_outsize k = BH * Ho * Wo).
Hypothesis Ec : k_code k = (fun g => code_of (up_group nh Hi Wi roff col (max_body BH nh nci Hi Wi Ho Wo pk pq) g)).
Hypotheses (HK : cells_read (k_in k) (k_insize k) pk nci Hi Wi Kf) (HQ : cells_read (k_in k) (k_insize k) pq nci Ho Wo Qf).
Definition max_fe (bh b h wi c : nat) : list fstep :=
  one_dot r_dot 0 pq (cell_at (nh * nci) nci Ho Wo b h (cell wi c)) nci ++ [FSeg (fun t => if t =? 0 then [add_out AMax (0, BH * Ho * Wo) (bc bh wi c) (fun r => r r_dot)] else [])].
Definition max_f (bh b h hi wi : nat) (row : list nat) : list fstep :=
  [FSeg (up_copy 0 pk (cell_at (nh * nci) nci Hi Wi b h (cell_in Wi hi wi)) nci)] ++ flat_map (max_fe bh b h wi) row.
Definition maxT (bh hi wi c : nat) : list upd := [(bc bh wi c, UAtom AMax, scr bh hi wi c)].
Theorem max_settles : forall rg sh out, settles k (start k rg sh out) (fun o => o = upds (flat_map (at_key (up_key (Hi * Wi)) (per_entry maxT)) (seq 0 (k_groups k))) out).
Proof.
  intros rg sh out. unfold per_entry.
  apply (up_settles k (own_segs [nci]) (fun _ => Some AMax) (fun _ _ => False) (max_body BH nh nci Hi Wi Ho Wo pk pq) max_f (fun bh hi wi row => flat_map (maxT bh hi wi) row)); auto.
  - intros a Ha. rewrite own_segs_out; [lia|]. cbn. lia.
  - intros bh b h hi wi row. unfold max_f, max_body. rewrite expand_app. f_equal. rewrite expand_flat. reflexivity.
  - intros g bh hi wi Hg _ Hb Hh Hw. assert (Ow : forall c, c < nci -> own_segs [nci] (0 + c) = c mod 32) by (intros; now apply (own_segs_at [] nci [])). unfold max_f. cbn [app fgood]. split.
    + intros t Ht. eapply fine_up_copy; [lia|apply HK; assumption|lia|exact Ow].
    + apply fgood_flat. intros c Hc. split; [intros y [<-|[<-|[<-|[]]]]; discriminate|]. cbn [max_fe one_dot app fgood]. split; [|split; [|exact I]].
      * intros t Ht. eapply fine_up_dot; [lia|eapply at_out; eassumption|lia|exact Ow].
      * intros t Ht. assert (L := bc_lt bh hi wi c Hb Hh Hw Hc). destruct (t =? 0); fi. apply fine_add; cbn [fst snd plus]; [exact L|rewrite Eo; exact L|reflexivity].
  - intros bh hi wi st Hb Hh Hw. unfold max_f. cbn [app ftrace ftrace1]. rewrite (quiet (k_in k) 32); [|intros t Ht; apply (up_copy_lane (k_in k) (k_insize k)) with (F := Kf bh hi wi); [exact Ht|now apply HK]]. cbn [app fstate].
    refine (proj2 (floop (k_in k) 32 (own_segs [nci]) priv _ (max_fe bh (bat bh) (hd bh) wi) (maxT bh hi wi) (fun _ st => keeps 0 nci (Kf bh hi wi) st) _ _ _ _)).
    + apply keeps_of. intros t Ht c Hc. rewrite after_in by exact Ht. apply (up_copy_lane (k_in k) (k_insize k) 0 pk _ nci (Kf bh hi wi)); [exact Ht|now apply HK|exact Hc].
    + intros d c r st' Er Ks. assert (Hc : In c (nth hi P [])) by (rewrite Er; apply in_elt). unfold max_fe.
      destruct (one_dot_run (k_in k) (k_insize k) (own_segs [nci]) priv r_dot 0 pq _ nci _ _ st' ltac:(discriminate) ltac:(discriminate) Ks (at_out _ _ _ _ _ bh hi wi c HQ Hb Hh Hw Hc)) as (D1 & D2).
      rewrite fend_app, ftrace_app, D1. set (st1 := fend (k_in k) 32 _ priv (one_dot _ _ _ _ _) st') in *.
      assert (L : forall t, t < 32 -> lrun (k_in k) (if t =? 0 then [add_out AMax (0, BH * Ho * Wo) (bc bh wi c) (fun r => r r_dot)] else []) (st1 t) = (st1 t, if t =? 0 then maxT bh hi wi c else [])).
      { intros t Ht. destruct (t =? 0); [|reflexivity]. rewrite add_in by (now apply (bc_lt bh hi)). rewrite (surjective_pairing (st1 t)). lr. rewrite (proj1 (proj2 (D2 t Ht))). reflexivity. }
      cbn [fend fold_left fstate ftrace ftrace1 app]. rewrite app_nil_r. split.
      * apply (keeps_eq _ _ _ st'); [exact Ks|]. intros t Ht. rewrite after_in by exact Ht. rewrite L by exact Ht. cbn [fst]. apply (D2 t Ht).
      * rewrite (flat_map_in_ext _ _ _ (fun t => if t =? 0 then maxT bh hi wi c else []) (seq 0 32)); [reflexivity|]. intros t Ht. apply in_seq in Ht. rewrite L by lia. reflexivity.
Qed.
End Max.

Variables (nco : nat) (Vf : nat -> nat -> nat -> nat -> R) (quad mx : nat -> R).
Definition alp (bh hi wi c : nat) : R := (exp (scr bh hi wi c - mx (bc bh wi c)) * quad hi)%R.
Lemma get_0 : forall inp N p n f r c, reads inp N p 0 n f -> c < n -> get p r c = IGet r (fst p + c).
Proof using Type. intros. exact (get_reads inp N p 0 n f r c H H0). Qed.
(** two rows and the weight are in place *)
Definition ready (bh hi wi : nat) (st : lanes) : Prop := keeps 0 nci (Kf bh hi wi) st /\ keeps nci nco (Vf bh hi wi) st /\ forall t, t < 32 -> fst (st t) r_w = quad hi.
Lemma two_copies : forall inp N pk pv pw kb vb hi bh wi st t, t < 32 -> reads inp N pk kb nci (Kf bh hi wi) -> reads inp N pv vb nco (Vf bh hi wi) -> reads inp N pw 0 Hi quad -> hi < Hi ->
  let m := lrun inp (up_copy 0 pk kb nci t ++ up_copy nci pv vb nco t ++ [get pw r_w hi]) (st t) in
  snd m = [] /\ fst (fst m) r_w = quad hi /\ (forall c, In c (loop_chans 32 nci t) -> snd (fst m) (0 + c) = Kf bh hi wi c) /\ (forall c, In c (loop_chans 32 nco t) -> snd (fst m) (nci + c) = Vf bh hi wi c).
Proof.
  intros inp N pk pv pw kb vb hi bh wi st t Ht RK RV RW Hh m. subst m. rewrite !lrun_app. cbn [fst snd].
  destruct (up_copy_lane inp N 0 pk kb nci _ t (st t) Ht RK) as (A1 & A2 & A3 & A4). set (m1 := lrun inp (up_copy 0 pk kb nci t) (st t)) in *.
  destruct (up_copy_lane inp N nci pv vb nco _ t (fst m1) Ht RV) as (B1 & B2 & B3 & B4). set (m2 := lrun inp (up_copy nci pv vb nco t) (fst m1)) in *.
  rewrite (get_0 inp N pw Hi quad r_w hi RW Hh). rewrite (surjective_pairing (fst m2)). lr. rewrite A1, B1, put_eq. destruct (RW hi Hh) as (_ & _ & Ew). cbn [plus] in Ew. split; [reflexivity|]. split; [exact Ew|].
  split; [|exact B3]. intros c Hc. rewrite B4; [now apply A3|]. intros c' _. apply my_chans in Hc; [|exact Ht]. lia.
Qed.
Section Acc.
Variables (k : kernel) (pk pv pq pw pm : nat * nat).
Hypotheses (Eg : k_groups k = BH * up_gw (Hi * Wi)) (Et : k_threads k = 32) (Es : k_shared k = nci + nco) (Eo : k_outsize k = BH * Ho * Wo * nco + BH * Ho * Wo).
Hypothesis Ec : k_code k = (fun g => code_of (up_group nh Hi Wi roff col (acc_body BH nh nci nco Hi Wi Ho Wo pk pv pq pw pm) g)).
Notation inp := (k_in k). Notation N := (k_insize k).
Hypotheses (HK : cells_read inp N pk nci Hi Wi Kf) (HQ : cells_read inp N pq nci Ho Wo Qf) (HV : cells_read inp N pv nco Hi Wi Vf) (HW : reads inp N pw 0 Hi quad) (HM : reads inp N pm 0 (BH * Ho * Wo) mx).
Notation own := (own_segs [nci; nco]).
Notation pnum := (p_num BH nco Ho Wo). Notation pden := (p_den BH nco Ho Wo).
Definition acc_tail (bh wi c t : nat) : list instr := [get pm r_max (bc bh wi c); ISet r_alpha (fun r => exp (r r_dot - r r_max) * r r_w)%R] ++
  (if t =? 0 then [add_out AAdd pden (bc bh wi c) (fun r => r r_alpha)] else []) ++
  flat_map (fun x => [ILoad r_t (nci + x); add_out AAdd pnum (bh * Ho * Wo * nco + cell wi c * nco + x) (fun r => r r_alpha * r r_t)%R]) (loop_chans 32 nco t).
Definition acc_fe (bh b h wi c : nat) : list fstep := one_dot r_dot 0 pq (cell_at (nh * nci) nci Ho Wo b h (cell wi c)) nci ++ [FSeg (acc_tail bh wi c)].
Definition acc_f (bh b h hi wi : nat) (row : list nat) : list fstep :=
  [FSeg (fun t => up_copy 0 pk (cell_at (nh * nci) nci Hi Wi b h (cell_in Wi hi wi)) nci t ++ up_copy nci pv (cell_at (nh * nco) nco Hi Wi b h (cell_in Wi hi wi)) nco t ++ [get pw r_w hi])] ++ flat_map (acc_fe bh b h wi) row.
Definition acc_l (bh hi wi c t : nat) : list upd := (if t =? 0 then [(BH * Ho * Wo * nco + bc bh wi c, UAtom AAdd, alp bh hi wi c)] else []) ++
  map (fun x => (bh * Ho * Wo * nco + cell wi c * nco + x, UAtom AAdd, (alp bh hi wi c * Vf bh hi wi x)%R)) (loop_chans 32 nco t).
Definition accT (bh hi wi c : nat) : list upd := flat_map (acc_l bh hi wi c) (seq 0 32).
Lemma acc_tail_run : forall bh hi wi c t (m : (nat -> R) * (nat -> R)), bh < BH -> hi < Hi -> wi < Wi -> In c (nth hi P []) -> t < 32 -> fst m r_dot = scr bh hi wi c -> fst m r_w = quad hi ->
  (forall x, x < nco -> x mod 32 = t -> snd m (nci + x) = Vf bh hi wi x) ->
  let m' := lrun inp (acc_tail bh wi c t) m in snd m' = acc_l bh hi wi c t /\ snd (fst m') = snd m /\ fst (fst m') r_w = quad hi.
Proof.
  intros bh hi wi c t [rg sh] Hb Hh Hw Hc Ht Ed Ew Ev m'. subst m'. cbn [fst snd] in *. assert (L := bc_lt bh hi wi c Hb Hh Hw Hc). unfold acc_tail.
  rewrite (get_0 inp N pm _ mx r_max _ HM L). destruct (HM _ L) as (_ & _ & Em). cbn [plus] in Em.
  rewrite !lrun_app. lr. rewrite Em. set (rg1 := put r_alpha _ _).
  assert (E1 : rg1 r_alpha = alp bh hi wi c). { unfold rg1. pe. rewrite Ed, Ew. reflexivity. }
  assert (E2 : rg1 r_w = quad hi). { unfold rg1. pe. exact Ew. }
  assert (L1 : lrun inp (if t =? 0 then [add_out AAdd pden (bc bh wi c) (fun r => r r_alpha)] else []) (rg1, sh) = ((rg1, sh), if t =? 0 then [(BH * Ho * Wo * nco + bc bh wi c, UAtom AAdd, alp bh hi wi c)] else [])).
  { destruct (t =? 0); [|reflexivity]. rewrite add_in by exact L. lr. rewrite E1. reflexivity. }
  rewrite L1. cbn [fst snd].
  destruct (loop_atom inp AAdd r_alpha pnum (bh * Ho * Wo * nco + cell wi c * nco) nci nco (loop_chans 32 nco t) rg1 sh ltac:(discriminate)) as (A1 & A2 & A3).
  { intros x Hx. apply my_chans in Hx; tauto. }
  { intros x Hx. now apply (bcn_lt nco bh hi). }
  rewrite A1, A2, A3 by discriminate. split; [|split; [reflexivity|exact E2]]. unfold acc_l. f_equal. apply map_ext_in. intros x Hx. apply my_chans in Hx; [|exact Ht]. rewrite E1, Ev by tauto. reflexivity.
Qed.
Theorem acc_settles : forall rg sh out, settles k (start k rg sh out) (fun o => o = upds (flat_map (at_key (up_key (Hi * Wi)) (per_entry accT)) (seq 0 (k_groups k))) out).
Proof.
  intros rg sh out. unfold per_entry.
  apply (up_settles k own (fun _ => Some AAdd) (fun _ _ => False) (acc_body BH nh nci nco Hi Wi Ho Wo pk pv pq pw pm) acc_f (fun bh hi wi row => flat_map (accT bh hi wi) row)); auto.
  - intros a Ha. rewrite own_segs_out; [lia|]. cbn. lia.
  - intros bh b h hi wi row. unfold acc_f, acc_body. rewrite expand_app. f_equal. rewrite expand_flat. reflexivity.
  - intros g bh hi wi Hg _ Hb Hh Hw. assert (O1 : forall c, c < nci -> own (0 + c) = c mod 32) by (intros; now apply (own_segs_at [] nci [nco])).
    assert (O2 : forall c, c < nco -> own (nci + c) = c mod 32) by (intros c Hc; rewrite <- (own_segs_at [nci] nco [] c Hc); f_equal; cbn; lia). unfold acc_f. cbn [app fgood]. split.
    + intros t Ht. apply Forall_app. split; [eapply fine_up_copy; [lia|apply HK; assumption|lia|exact O1]|]. apply Forall_app. split; [eapply fine_up_copy; [lia|apply HV; assumption|lia|exact O2]|]. fi. eapply fine_get0; [exact HW|exact Hh].
    + apply fgood_flat. intros c Hc. split; [intros y [<-|[<-|[<-|[]]]]; discriminate|]. assert (L := bc_lt bh hi wi c Hb Hh Hw Hc). cbn [acc_fe one_dot app fgood]. split; [|split; [|exact I]].
      * intros t Ht. eapply fine_up_dot; [lia|eapply at_out; eassumption|lia|exact O1].
      * intros t Ht. unfold acc_tail. fi; [eapply fine_get0; [exact HM|exact L]| |].
        -- destruct (t =? 0); fi. apply fine_add; cbn [p_den fst snd]; [exact L|rewrite Eo; lia|reflexivity].
        -- intros x Hx. apply my_chans in Hx; [|lia]. assert (L2 := bcn_lt nco bh hi wi c x Hb Hh Hw Hc ltac:(tauto)). fi; [apply fine_load; [lia|left; rewrite O2; tauto]|apply fine_add; cbn [p_num fst snd plus]; [exact L2|rewrite Eo; lia|reflexivity]].
  - intros bh hi wi st Hb Hh Hw. unfold acc_f. cbn [app ftrace ftrace1].
    assert (I0 := fun t Ht => two_copies inp N pk pv pw _ _ hi bh wi st t Ht (HK bh hi wi Hb Hh Hw) (HV bh hi wi Hb Hh Hw) HW Hh).
    rewrite (quiet inp 32); [|intros t Ht; apply (I0 t Ht)]. cbn [app fstate].
    refine (proj2 (floop inp 32 own priv _ (acc_fe bh (bat bh) (hd bh) wi) (accT bh hi wi) (fun _ st => ready bh hi wi st) _ _ _ _)).
    + split; [|split]; [apply keeps_of|apply keeps_of|]; intros t Ht; rewrite after_in by exact Ht; apply (I0 t Ht).
    + intros d c r st' Er (K1 & K2 & K3). assert (Hc : In c (nth hi P [])) by (rewrite Er; apply in_elt). unfold acc_fe.
      destruct (one_dot_run inp N own priv r_dot 0 pq _ nci _ _ st' ltac:(discriminate) ltac:(discriminate) K1 (at_out _ _ _ _ _ bh hi wi c HQ Hb Hh Hw Hc)) as (D1 & D2).
      rewrite fend_app, ftrace_app, D1. set (st1 := fend inp 32 _ priv (one_dot _ _ _ _ _) st') in *.
      assert (L : forall t, t < 32 -> let m' := lrun inp (acc_tail bh wi c t) (st1 t) in snd m' = acc_l bh hi wi c t /\ snd (fst m') = snd (st1 t) /\ fst (fst m') r_w = quad hi).
      { intros t Ht. destruct (D2 t Ht) as (S1 & S2 & S3). apply acc_tail_run; auto; [rewrite S3 by discriminate; now apply K3|]. intros x Hx Hm. rewrite S1. now apply K2. }
      assert (Sh : forall t, t < 32 -> snd (after inp 32 (acc_tail bh wi c) st1 t) = snd (st' t)). { intros t Ht. rewrite after_in by exact Ht. rewrite (proj1 (proj2 (L t Ht))). apply (D2 t Ht). }
      cbn [fend fold_left fstate ftrace ftrace1 app]. rewrite app_nil_r. split; [split; [|split]|].
      * now apply (keeps_eq _ _ _ st').
      * now apply (keeps_eq _ _ _ st').
      * intros t Ht. rewrite after_in by exact Ht. apply (L t Ht).
      * apply flat_map_in_ext. intros t Ht. apply in_seq in Ht. apply L. lia.
Qed.
End Acc.
End Up.

(** ** Cells of packed tensors *)
Definition pidx (nh cells n b c x : nat) : nat := ((b / nh * cells + c) * nh + b mod nh) * n + x.
Lemma pidx_inj : forall nh cells n b c x b' c' x', 1 <= nh -> c < cells -> c' < cells -> x < n -> x' < n -> pidx nh cells n b c x = pidx nh cells n b' c' x' -> b = b' /\ c = c' /\ x = x'.
Proof.
  unfold pidx. intros nh cells n b c x b' c' x' Hn Hc Hc' Hx Hx' E.
  destruct (split_div n ((b / nh * cells + c) * nh + b mod nh) x Hx) as [D1 D2]. destruct (split_div n ((b' / nh * cells + c') * nh + b' mod nh) x' Hx') as [D3 D4]. rewrite E in D1, D2.
  assert (E1 : (b / nh * cells + c) * nh + b mod nh = (b' / nh * cells + c') * nh + b' mod nh) by congruence. clear D1 D3.
  assert (M := Nat.mod_upper_bound b nh ltac:(lia)). assert (M' := Nat.mod_upper_bound b' nh ltac:(lia)).
  destruct (split_div nh (b / nh * cells + c) (b mod nh) M) as [D5 D6]. destruct (split_div nh (b' / nh * cells + c') (b' mod nh) M') as [D7 D8]. rewrite E1 in D5, D6.
  assert (E2 : b / nh * cells + c = b' / nh * cells + c') by congruence. assert (E3 : b mod nh = b' mod nh) by congruence.
  destruct (split_div cells (b / nh) c Hc) as [D9 D10]. destruct (split_div cells (b' / nh) c' Hc') as [D11 D12]. rewrite E2 in D9, D10.
  split; [|split; [congruence|congruence]]. rewrite (Nat.div_mod b nh), (Nat.div_mod b' nh) by lia. congruence.
Qed.
Lemma pidx_lt : forall B nh cells n b c x, b < B * nh -> c < cells -> x < n -> pidx nh cells n b c x < B * cells * (nh * n).
Proof.
  unfold pidx. intros B nh cells n b c x Hb Hc Hx. assert (Hn : 1 <= nh) by (destruct nh; lia). assert (L : b / nh < B) by (apply Nat.div_lt_upper_bound; [lia|rewrite Nat.mul_comm; exact Hb]). assert (M := Nat.mod_upper_bound b nh ltac:(lia)).
  assert (L1 : b / nh * cells + c + 1 <= B * cells) by (assert ((b / nh + 1) * cells <= B * cells) by (apply Nat.mul_le_mono_r; lia); lia).
  assert (L2 : (b / nh * cells + c) * nh + b mod nh + 1 <= B * cells * nh) by (assert ((b / nh * cells + c + 1) * nh <= B * cells * nh) by (apply Nat.mul_le_mono_r; lia); lia).
  assert (((b / nh * cells + c) * nh + b mod nh + 1) * n <= B * cells * nh * n) by (apply Nat.mul_le_mono_r; lia). lia.
Qed.
Lemma cell_at_pidx : forall nh n H W b c x, 1 <= nh -> cell_at (nh * n) n H W (b / nh) (b - b / nh * nh) c + x = pidx nh (H * W) n b c x.
Proof. intros. unfold cell_at, pidx. rewrite sub_mod by assumption. ring. Qed.

(** ** Kernels with one group per fine cell, which write *)
Section Out.
Variables (B nh cells n : nat) (k : kernel) (ysize : nat) (vl : nat -> nat -> nat -> R).
Notation BH := (B * nh).
Hypotheses (Hnh : 1 <= nh) (Eg : k_groups k = BH * up_gw cells) (Et : k_threads k = 32) (Eo : k_outsize k = ysize) (Ey : ysize = B * cells * (nh * n)).
Definition out_holds := wholds (BH * up_gw cells) 1 (up_key cells) (fun _ => n) (fun c => c mod 32) (fun _ b c x => pidx nh cells n b c x).
Definition outT := wtrace 32 1 (fun _ => loop_chans 32 n) (fun _ b c x => pidx nh cells n b c x) (fun _ b c x => vl b c x).
Lemma out_settles : forall (F : nat -> nat -> nat -> list instr) rg sh out,
  (forall g t, g < k_groups k -> t < 32 -> k_code k g t = code_of (if cells <=? g mod up_gw cells then [] else [Seg (F (g / up_gw cells) (g mod up_gw cells))]) t) ->
  (forall g b c t, g < k_groups k -> up_key cells g = Some (b, c) -> b < BH -> c < cells -> t < 32 -> Forall (fine k (fun _ => 32) priv (fun _ => None) out_holds false g t) (F b c t)) ->
  (forall b c t m, b < BH -> c < cells -> t < 32 -> snd (lrun (k_in k) (F b c t) m) = map (fun x => (pidx nh cells n b c x, USet, vl b c x)) (loop_chans 32 n t)) ->
  settles k (start k rg sh out) (fun o => forall b c x, b < BH -> c < cells -> x < n -> o (pidx nh cells n b c x) = vl b c x).
Proof.
  intros F rg sh out Ec Hf Hr.
  assert (Hinj : forall i b c x i' b' c' x' : nat, i < 1 -> b < BH -> c < cells -> x < n -> i' < 1 -> b' < BH -> c' < cells -> x' < n -> pidx nh cells n b c x = pidx nh cells n b' c' x' -> i = i' /\ b = b' /\ c = c' /\ x = x').
  { intros i b c x i' b' c' x' Hi Hb Hc Hx Hi' Hb' Hc' Hx' E. split; [lia|]. now apply (pidx_inj nh cells n). }
  apply (settles_impl k (start k rg sh out) (fun o => o = upds (flat_map (at_key (up_key cells) outT) (seq 0 (k_groups k))) out)); cycle 1.
  - intros o -> b c x Hb Hc Hx. rewrite Eg. apply (written (BH * up_gw cells) BH cells 32 1 (up_key cells) (fun _ => n) (fun c => c mod 32) (fun _ => loop_chans 32 n) (fun _ b c x => pidx nh cells n b c x) (fun _ b c x => vl b c x)) with (i := 0); auto.
    + apply up_keyed.
    + intros. apply warp_covers.
    + intros. apply Nat.mod_upper_bound. lia.
    + intros b' c' u Hb' Hc' Hu. left. apply in_flat_map in Hu. destruct Hu as (t & Ht & Hu). apply in_seq in Ht. exists t. split; [lia|]. apply in_flat_map in Hu. destruct Hu as (i & Hi & Hu). apply in_seq in Hi. apply in_map_iff in Hu. destruct Hu as (x' & <- & Hx'). exists i, x'. split; [lia|]. split; [exact Hx'|]. reflexivity.
  - apply (key_settles k BH cells (up_key cells) (fun _ => 32) (fun _ => None) out_holds (fun b c => [FSeg (F b c)])); auto.
    + rewrite Eg. apply up_keyed.
    + intros g t Hg Ht. rewrite Ec by assumption. unfold at_key, up_key. destruct (cells <=? g mod up_gw cells); reflexivity.
    + intros g b c Hg Ek Hb Hc. cbn [fgood]. split; [|exact I]. intros t Ht. now apply Hf.
    + intros b c st Hb Hc. cbn [ftrace ftrace1 app]. rewrite app_nil_r. unfold outT, wtrace. apply flat_map_in_ext. intros t Ht. apply in_seq in Ht. cbn [flat_map seq]. rewrite app_nil_r. apply Hr; auto. lia.
    + intros a gt gt'. apply (wholds_one (BH * up_gw cells) BH cells 1 (up_key cells) (fun _ => n) (fun c => c mod 32) (fun _ b c x => pidx nh cells n b c x)); [apply up_keyed|exact Hinj].
Qed.
Lemma out_fine : forall p g t b c x f, fst p = 0 -> snd p = ysize -> g < k_groups k -> up_key cells g = Some (b, c) -> b < BH -> c < cells -> x < n -> x mod 32 = t ->
  fine k (fun _ => 32) priv (fun _ => None) out_holds false g t (set_out p (pidx nh cells n b c x) f).
Proof.
  intros p g t b c x f E1 E2 Hg Ek Hb Hc Hx Ht. assert (L := pidx_lt B nh cells n b c x Hb Hc Hx). apply fine_out; rewrite ?E1, ?E2, ?Eo; cbn [plus]; try lia; [reflexivity|].
  apply (wholds_at (BH * up_gw cells) 1 (up_key cells) (fun _ => n) (fun c => c mod 32) (fun _ b c x => pidx nh cells n b c x) g t b c 0 x); auto. now rewrite <- Eg.
Qed.
End Out.

Lemma bcell_lt : forall BH Ho Wo b c, b < BH -> c < Ho * Wo -> bcell Ho Wo b c < BH * Ho * Wo.
Proof. intros BH Ho Wo b c Hb Hc. unfold bcell. assert ((b + 1) * (Ho * Wo) <= BH * (Ho * Wo)) by (apply Nat.mul_le_mono_r; lia). lia. Qed.
Lemma bcelln_lt : forall BH Ho Wo n b c x, b < BH -> c < Ho * Wo -> x < n -> bcell Ho Wo b c * n + x < BH * Ho * Wo * n.
Proof. intros BH Ho Wo n b c x Hb Hc Hx. assert (L := bcell_lt BH Ho Wo b c Hb Hc). assert ((bcell Ho Wo b c + 1) * n <= BH * Ho * Wo * n) by (apply Nat.mul_le_mono_r; lia). lia. Qed.
Lemma y_pidx : forall nh Ho Wo n b c x, 1 <= nh -> (b / nh * Ho * Wo + c) * (nh * n) + (b - b / nh * nh) * n + x = pidx nh (Ho * Wo) n b c x.
Proof. intros. unfold pidx. rewrite sub_mod by assumption. ring. Qed.

Section Final.
Variables (B nh nco Ho Wo : nat) (k : kernel) (pn pd : nat * nat) (num den : nat -> R).
Notation BH := (B * nh).
Hypotheses (Hnh : 1 <= nh) (Eg : k_groups k = BH * up_gw (Ho * Wo)) (Et : k_threads k = 32) (Eo : k_outsize k = B * Ho * Wo * (nh * nco)).
Hypothesis Ec : k_code k = (fun g => code_of (final_group nh nco Ho Wo pn pd (B * Ho * Wo * (nh * nco)) g)).
Hypotheses (HN : reads (k_in k) (k_insize k) pn 0 (BH * Ho * Wo * nco) num) (HD : reads (k_in k) (k_insize k) pd 0 (BH * Ho * Wo) den).
Definition final_seg (bh wid t : nat) : list instr := [get pd r_sum (bcell Ho Wo bh wid); ISet r_sum (fun r => 1 / r r_sum)%R] ++
  flat_map (fun c => [get pn r_t (bcell Ho Wo bh wid * nco + c); set_out (0, B * Ho * Wo * (nh * nco)) ((bh / nh * Ho * Wo + wid) * (nh * nco) + (bh - bh / nh * nh) * nco + c) (fun r => r r_t * r r_sum)%R]) (loop_chans 32 nco t).
Theorem final_settles : forall rg sh out, settles k (start k rg sh out) (fun o => forall b c x, b < BH -> c < Ho * Wo -> x < nco -> o (pidx nh (Ho * Wo) nco b c x) = (num (bcell Ho Wo b c * nco + x) * (1 / den (bcell Ho Wo b c)))%R).
Proof.
  intros rg sh out. apply (out_settles B nh (Ho * Wo) nco k _ (fun b c x => (num (bcell Ho Wo b c * nco + x)%nat * (1 / den (bcell Ho Wo b c)))%R) Hnh Eg Et Eo ltac:(ring) final_seg).
  - intros g t Hg Ht. rewrite Ec. f_equal. 
  - intros g b c t Hg Ek Hb Hc Ht. unfold final_seg. apply Forall_app. split; [apply Forall_cons; [eapply fine_get0; [exact HD|now apply bcell_lt]|apply Forall_cons; [apply fine_set|apply Forall_nil]]|].
    apply Forall_flat. intros x Hx. apply my_chans in Hx; [|exact Ht]. apply Forall_cons; [eapply fine_get0; [exact HN|now apply bcelln_lt]|]. apply Forall_cons; [|apply Forall_nil]. rewrite y_pidx by exact Hnh.
    apply (out_fine B nh (Ho * Wo) nco k _ Hnh Eg Et Eo ltac:(ring)); auto; tauto.
  - intros b c t [rg0 sh0] Hb Hc Ht. unfold final_seg. rewrite lrun_app. rewrite (get_0 _ _ pd _ den r_sum (bcell Ho Wo b c) HD) by (now apply bcell_lt). lr. assert (Ed := proj2 (proj2 (HD _ (bcell_lt BH Ho Wo b c Hb Hc)))); cbn [plus] in Ed; rewrite Ed; clear Ed. set (rg1 := put r_sum _ _).
    assert (E1 : rg1 r_sum = (1 / den (bcell Ho Wo b c))%R) by (unfold rg1; pe; reflexivity). clearbody rg1.
    destruct (lrun_loop _ (k_in k) (fun x => [get pn r_t (bcell Ho Wo b c * nco + x); set_out (0, B * Ho * Wo * (nh * nco)) ((b / nh * Ho * Wo + c) * (nh * nco) + (b - b / nh * nh) * nco + x) (fun r => r r_t * r r_sum)%R])
      (fun x => [(pidx nh (Ho * Wo) nco b c x, USet, (num (bcell Ho Wo b c * nco + x)%nat * (1 / den (bcell Ho Wo b c)))%R)]) (fun _ m => fst m r_sum = (1 / den (bcell Ho Wo b c))%R) (loop_chans 32 nco t) (rg1, sh0)) as [_ I4]; [exact E1| |].
    + intros d x r [rg2 sh2] Er I0. cbn [fst] in I0. assert (Hx : x < nco) by (assert (Q : In x (loop_chans 32 nco t)) by (rewrite Er; apply in_elt); apply my_chans in Q; tauto). assert (L := bcelln_lt BH Ho Wo nco b c x Hb Hc Hx).
      rewrite (get_0 _ _ pn _ num r_t (bcell Ho Wo b c * nco + x) HN L). rewrite set_in by (cbn [snd]; rewrite y_pidx by exact Hnh; replace (B * Ho * Wo) with (B * (Ho * Wo)) by ring; now apply pidx_lt). lr. assert (En := proj2 (proj2 (HN _ L))); cbn [plus] in En; rewrite En; clear En. cbn [fst snd plus]. rewrite y_pidx by exact Hnh. pe. rewrite I0. split; reflexivity.
    + rewrite I4. apply flat_one.
Qed.
End Final.
