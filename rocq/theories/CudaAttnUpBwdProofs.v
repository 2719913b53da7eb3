(** The CUDA attention backward pass in the upsampling direction: launches two to four. *)
From Coq Require Import List Arith Lia Bool Reals Lra Permutation FunctionalExtensionality.
From Verif Require Import TensorModel TensorProofs BigSum DiscoModel DiscoSortProofs AttnModel AttnCoreProofs AttnUpProofs AttnGradProofs GpuModel GpuSpec GpuProofs GpuProofs2 WarpProofs CudaDiscoModel CudaWarpModel WarpSumProofs CudaAttnModel CudaAttnUpModel CudaAttnProofs CudaAttnLaneProofs CudaAttnFwdProofs2 WarpKernelProofs CudaKeyProofs CudaLoopProofs CudaAttnUpProofs CudaAttnUpProofs2 CudaAttnUpProofs3.
From Verif Require Import AttnSpec.
Import ListNotations.
Local Open Scope nat_scope.
Notation upd := (nat * uop * R)%type (only parsing).
Notation lanes := (nat -> (nat -> R) * (nat -> R)) (only parsing).
Notation priv := (fun _ : nat => false).

(** ** Loops *)
(** atomicAdd(&p1[b + c], r1 * sh[c]); atomicAdd(&p2[b + c], r2 * sh[c]) *)
Lemma loop_atom2 : forall inp r1 r2 p1 p2 b n l rg sh, r1 <> r_t -> r2 <> r_t -> (forall c, In c l -> c < n) -> (forall c, c < n -> b + c < snd p1) -> (forall c, c < n -> b + c < snd p2) ->
  let m := lrun inp (flat_map (fun c => [ILoad r_t c; add_out AAdd p1 (b + c) (fun r => r r1 * r r_t)%R; ILoad r_t c; add_out AAdd p2 (b + c) (fun r => r r2 * r r_t)%R]) l) (rg, sh) in
  snd m = flat_map (fun c => [(fst p1 + (b + c), UAtom AAdd, (rg r1 * sh c)%R); (fst p2 + (b + c), UAtom AAdd, (rg r2 * sh c)%R)]) l /\ snd (fst m) = sh /\ forall r, r <> r_t -> fst (fst m) r = rg r.
Proof.
  intros inp r1 r2 p1 p2 b n l rg sh N1 N2 Hl Hp1 Hp2 m. subst m.
  destruct (lrun_loop _ inp (fun c => [ILoad r_t c; add_out AAdd p1 (b + c) (fun r => r r1 * r r_t)%R; ILoad r_t c; add_out AAdd p2 (b + c) (fun r => r r2 * r r_t)%R])
    (fun c => [(fst p1 + (b + c), UAtom AAdd, (rg r1 * sh c)%R); (fst p2 + (b + c), UAtom AAdd, (rg r2 * sh c)%R)]) (fun _ m => snd m = sh /\ forall r, r <> r_t -> fst m r = rg r) l (rg, sh)) as [(I1 & I2) I4].
  - auto.
  - intros d x r0 [rg1 sh1] E (I1 & I2). cbn [fst snd] in *. subst sh1. assert (Hx : x < n) by (apply Hl; rewrite E, in_app_iff; right; now left). rewrite !add_in by auto. lr. split; [split; [reflexivity|]|].
    + intros r Hr. rewrite !put_ne by auto. auto.
    + rewrite !put_eq, !put_ne by auto. rewrite !I2 by auto. reflexivity.
  - split; [|auto]. rewrite I4. reflexivity.
Qed.
(** sh[s1 + c] = p[b + c]; sh[s2 + c] = 0 *)
Lemma loop_copy0 : forall inp N p b s1 s2 n f l rg sh, s1 + n <= s2 -> (forall c, In c l -> c < n) -> reads inp N p b n f ->
  let m := lrun inp (flat_map (fun c => [get p r_t (b + c); IStore (s1 + c) (fun r => r r_t); IStore (s2 + c) (fun _ => 0%R)]) l) (rg, sh) in
  snd m = [] /\ (forall r, r <> r_t -> fst (fst m) r = rg r) /\ (forall c, In c l -> snd (fst m) (s1 + c) = f c /\ snd (fst m) (s2 + c) = 0%R) /\ forall a, (forall c, In c l -> a <> s1 + c /\ a <> s2 + c) -> snd (fst m) a = sh a.
Proof.
  intros inp N p b s1 s2 n f l rg sh Hs Hl HR m. subst m.
  destruct (lrun_loop _ inp (fun c => [get p r_t (b + c); IStore (s1 + c) (fun r => r r_t); IStore (s2 + c) (fun _ => 0%R)]) (fun _ => [])
    (fun d m => (forall r, r <> r_t -> fst m r = rg r) /\ (forall c, In c d -> snd m (s1 + c) = f c /\ snd m (s2 + c) = 0%R) /\ forall a, (forall c, In c d -> a <> s1 + c /\ a <> s2 + c) -> snd m a = sh a) l (rg, sh)) as [(I1 & I2 & I3) I4].
  - split; [auto|]. split; [intros c []|auto].
  - intros d x r0 [rg1 sh1] E (I1 & I2 & I3). cbn [fst snd] in *. assert (Hx : x < n) by (apply Hl; rewrite E, in_app_iff; right; now left). assert (Hd : forall c, In c d -> c < n) by (intros c Hc; apply Hl; rewrite E, in_app_iff; now left).
    rewrite (get_reads inp N p b n f r_t x HR Hx). lr. rewrite (proj2 (proj2 (HR x Hx))), put_eq. split; [split; [|split]|reflexivity].
    + intros r Hr. rewrite put_ne by auto. auto.
    + intros c Hc. apply in_app_iff in Hc. destruct (Nat.eq_dec c x) as [->|Ne].
      * rewrite put_eq. rewrite (put_ne _ (s2 + x)) by lia. rewrite put_eq. auto.
      * destruct Hc as [Hc|[->|[]]]; [|contradiction]. specialize (Hd c Hc). rewrite !put_ne by lia. now apply I2.
    + intros a Ha. assert (Q : a <> s1 + x /\ a <> s2 + x) by (apply Ha; rewrite in_app_iff; right; now left). rewrite !put_ne by tauto. apply I3. intros c Hc. apply Ha. rewrite in_app_iff. now left.
  - split; [rewrite I4; apply flat_map_nil|auto].
Qed.

Section Bwd.
Variables (B nh Hi Wi Ho Wo : nat) (P : pattern) (nci nco : nat) (Kf Qf Vf Df : nat -> nat -> nat -> nat -> R) (quad mx : nat -> R).
Hypotheses (HWi : 1 <= Wi) (HWo : 1 <= Wo) (Hdiv : Wo mod Wi = 0) (HP : pattern_ok P Hi (Ho * Wo)).
Notation BH := (B * nh).
Notation roff := (offsets 0 P). Notation col := (columns P).
Notation bat bh := (bh / nh). Notation hd bh := (bh - bh / nh * nh).
Notation cell wi c := (out_cell Wi Wo wi c).
Notation bc bh wi c := (bcell Ho Wo bh (out_cell Wi Wo wi c)).
Notation reads4 := (cells_read B nh).
Notation scr' := (scr Wi Wo nci Kf Qf). Notation alp' := (alp Wi Ho Wo nci Kf Qf quad mx).
Definition gdv (bh hi wi c : nat) : R := rsum nco (fun x => Vf bh hi wi x * Df bh (to_ho Wo c) (to_wo Wi Wo wi c) x)%R.
Notation ready' := (ready nci Kf nco Vf quad).

Section Stats.
Variables (k : kernel) (pk pv pq pdy pw pm : nat * nat).
Notation cells := (BH * Ho * Wo).
Hypotheses (Eg : k_groups k = BH * up_gw (Hi * Wi)) (Et : k_threads k = 32) (Es : k_shared k = nci + nco) (Eo : k_outsize k = 2 * cells + 2 * (cells * nci)).
Hypothesis Ec : k_code k = (fun g => code_of (up_group nh Hi Wi roff col (stats_body BH nh nci nco Hi Wi Ho Wo pk pv pq pdy pw pm) g)).
Notation inp := (k_in k). Notation N := (k_insize k).
Hypotheses (HK : reads4 inp N pk nci Hi Wi Kf) (HQ : reads4 inp N pq nci Ho Wo Qf) (HV : reads4 inp N pv nco Hi Wi Vf) (HD : reads4 inp N pdy nco Ho Wo Df) (HW : reads inp N pw 0 Hi quad) (HM : reads inp N pm 0 cells mx).
Notation own := (own_segs [nci; nco]).
Notation pS := (p_S BH Ho Wo). Notation pA := (p_Avw BH Ho Wo). Notation pAk := (p_Ak BH nci Ho Wo). Notation pAkv := (p_Akvw BH nci Ho Wo).
Definition st_tail (bh wi c t : nat) : list instr :=
  [get pm r_max (bc bh wi c); ISet r_alpha (fun r => exp (r r_dot - r r_max) * r r_w)%R; ISet r_ag (fun r => r r_alpha * r r_gd)%R] ++
  (if t =? 0 then [add_out AAdd pS (bc bh wi c) (fun r => r r_alpha); add_out AAdd pA (bc bh wi c) (fun r => r r_ag)] else []) ++
  flat_map (fun x => [ILoad r_t x; add_out AAdd pAk (bh * Ho * Wo * nci + cell wi c * nci + x) (fun r => r r_alpha * r r_t)%R; ILoad r_t x; add_out AAdd pAkv (bh * Ho * Wo * nci + cell wi c * nci + x) (fun r => r r_ag * r r_t)%R]) (loop_chans 32 nci t).
Definition st_fe (bh b h wi c : nat) : list fstep := two_dots r_dot 0 pq (cell_at (nh * nci) nci Ho Wo b h (cell wi c)) nci r_gd nci pdy (cell_at (nh * nco) nco Ho Wo b h (cell wi c)) nco ++ [FSeg (st_tail bh wi c)].
Definition st_f (bh b h hi wi : nat) (row : list nat) : list fstep :=
  [FSeg (fun t => up_copy 0 pk (cell_at (nh * nci) nci Hi Wi b h (cell_in Wi hi wi)) nci t ++ up_copy nci pv (cell_at (nh * nco) nco Hi Wi b h (cell_in Wi hi wi)) nco t ++ [get pw r_w hi])] ++ flat_map (st_fe bh b h wi) row.
Definition st_l (bh hi wi c t : nat) : list upd := (if t =? 0 then [(bc bh wi c, UAtom AAdd, alp' bh hi wi c); (cells + bc bh wi c, UAtom AAdd, (alp' bh hi wi c * gdv bh hi wi c)%R)] else []) ++
  flat_map (fun x => [(2 * cells + (bh * Ho * Wo * nci + cell wi c * nci + x), UAtom AAdd, (alp' bh hi wi c * Kf bh hi wi x)%R); (2 * cells + cells * nci + (bh * Ho * Wo * nci + cell wi c * nci + x), UAtom AAdd, (alp' bh hi wi c * gdv bh hi wi c * Kf bh hi wi x)%R)]) (loop_chans 32 nci t).
Definition stT (bh hi wi c : nat) : list upd := flat_map (st_l bh hi wi c) (seq 0 32).
Lemma st_tail_run : forall bh hi wi c t (m : (nat -> R) * (nat -> R)), bh < BH -> hi < Hi -> wi < Wi -> In c (nth hi P []) -> t < 32 -> fst m r_dot = scr' bh hi wi c -> fst m r_gd = gdv bh hi wi c -> fst m r_w = quad hi ->
  (forall x, x < nci -> x mod 32 = t -> snd m x = Kf bh hi wi x) ->
  let m' := lrun inp (st_tail bh wi c t) m in snd m' = st_l bh hi wi c t /\ snd (fst m') = snd m /\ fst (fst m') r_w = quad hi.
Proof.
  intros bh hi wi c t [rg sh] Hb Hh Hw Hc Ht Ed Eg' Ew Ek m'. subst m'. cbn [fst snd] in *. assert (L := bc_lt B nh Hi Wi Ho Wo P HWi HWo Hdiv HP bh hi wi c Hb Hh Hw Hc). unfold st_tail.
  rewrite (get_0 inp N pm _ mx r_max _ HM L). destruct (HM _ L) as (_ & _ & Em). cbn [plus] in Em.
  rewrite !lrun_app. lr. rewrite Em. set (rg1 := put r_ag _ _).
  assert (E1 : rg1 r_alpha = alp' bh hi wi c). { unfold rg1. pe. rewrite Ed, Ew. reflexivity. }
  assert (E3 : rg1 r_ag = (alp' bh hi wi c * gdv bh hi wi c)%R). { unfold rg1. pe. rewrite Ed, Ew, Eg'. reflexivity. }
  assert (E2 : rg1 r_w = quad hi). { unfold rg1. pe. exact Ew. } clearbody rg1.
  assert (L1 : lrun inp (if t =? 0 then [add_out AAdd pS (bc bh wi c) (fun r => r r_alpha); add_out AAdd pA (bc bh wi c) (fun r => r r_ag)] else []) (rg1, sh) =
     ((rg1, sh), if t =? 0 then [(bc bh wi c, UAtom AAdd, alp' bh hi wi c); (cells + bc bh wi c, UAtom AAdd, (alp' bh hi wi c * gdv bh hi wi c)%R)] else [])).
  { destruct (t =? 0); [|reflexivity]. rewrite !add_in by exact L. lr. rewrite E1, E3. reflexivity. }
  rewrite L1. cbn [fst snd].
  destruct (loop_atom2 inp r_alpha r_ag pAk pAkv (bh * Ho * Wo * nci + cell wi c * nci) nci (loop_chans 32 nci t) rg1 sh ltac:(discriminate) ltac:(discriminate)) as (A1 & A2 & A3).
  { intros x Hx. apply my_chans in Hx; tauto. }
  { intros x Hx. now apply (bcn_lt B nh Hi Wi Ho Wo P HWi HWo Hdiv HP nci bh hi). }
  { intros x Hx. now apply (bcn_lt B nh Hi Wi Ho Wo P HWi HWo Hdiv HP nci bh hi). }
  rewrite A1, A2, A3 by discriminate. split; [|split; [reflexivity|exact E2]]. unfold st_l. f_equal. apply flat_map_in_ext. intros x Hx. apply my_chans in Hx; [|exact Ht]. rewrite E1, E3, Ek by tauto. reflexivity.
Qed.
Theorem stats_settles : forall rg sh out, settles k (start k rg sh out) (fun o => o = upds (flat_map (at_key (up_key (Hi * Wi)) (per_entry Wi P stT)) (seq 0 (k_groups k))) out).
Proof.
  intros rg sh out. unfold per_entry.
  apply (up_settles B nh Hi Wi Ho Wo P HWi HWo Hdiv HP k own (fun _ => Some AAdd) (fun _ _ => False) (stats_body BH nh nci nco Hi Wi Ho Wo pk pv pq pdy pw pm) st_f (fun bh hi wi row => flat_map (stT bh hi wi) row)); auto.
  - intros a Ha. rewrite own_segs_out; [lia|]. cbn. lia.
  - intros bh b h hi wi row. unfold st_f, stats_body. rewrite expand_app. f_equal. rewrite expand_flat. reflexivity.
  - intros g bh hi wi Hg _ Hb Hh Hw. assert (O1 : forall c, c < nci -> own (0 + c) = c mod 32) by (intros; now apply (own_segs_at [] nci [nco])).
    assert (O2 : forall c, c < nco -> own (nci + c) = c mod 32) by (intros c Hc; rewrite <- (own_segs_at [nci] nco [] c Hc); f_equal; cbn; lia). unfold st_f. cbn [app fgood]. split.
    + intros t Ht. apply Forall_app. split; [eapply fine_up_copy; [lia|apply HK; assumption|lia|exact O1]|]. apply Forall_app. split; [eapply fine_up_copy; [lia|apply HV; assumption|lia|exact O2]|]. fi. eapply fine_get0; [exact HW|exact Hh].
    + apply fgood_flat. intros c Hc. split; [intros y [<-|[<-|[<-|[<-|[]]]]]; discriminate|]. assert (L := bc_lt B nh Hi Wi Ho Wo P HWi HWo Hdiv HP bh hi wi c Hb Hh Hw Hc). cbn [st_fe two_dots app fgood]. split; [|split; [|exact I]].
      * intros t Ht. apply Forall_app. split; eapply fine_up_dot; [lia|eapply at_out; eassumption|lia|exact O1|lia|eapply at_out; eassumption|lia|exact O2].
      * intros t Ht. unfold st_tail. fi; [eapply fine_get0; [exact HM|exact L]| |].
        -- destruct (t =? 0); fi; apply fine_add; cbn [p_S p_Avw fst snd plus]; rewrite ?Eo; try exact L; try reflexivity; lia.
        -- intros x Hx. apply my_chans in Hx; [|lia]. assert (L2 := bcn_lt B nh Hi Wi Ho Wo P HWi HWo Hdiv HP nci bh hi wi c x Hb Hh Hw Hc ltac:(tauto)).
           assert (Ox : own x = t) by (rewrite <- (proj2 Hx); now apply O1). fi; try (apply fine_load; [lia|left; exact Ox]); apply fine_add; cbn [p_Ak p_Akvw fst snd]; rewrite ?Eo; try exact L2; try reflexivity; lia.
  - intros bh hi wi st Hb Hh Hw. unfold st_f. cbn [app ftrace ftrace1].
    assert (I0 := fun t Ht => two_copies Hi Wi Wo nci Kf HWi HWo Hdiv nco Vf quad inp N pk pv pw _ _ hi bh wi st t Ht (HK bh hi wi Hb Hh Hw) (HV bh hi wi Hb Hh Hw) HW Hh).
    rewrite (quiet inp 32); [|intros t Ht; apply (I0 t Ht)]. cbn [app fstate].
    refine (proj2 (floop inp 32 own priv _ (st_fe bh (bat bh) (hd bh) wi) (stT bh hi wi) (fun _ st => ready' bh hi wi st) _ _ _ _)).
    + split; [|split]; [apply keeps_of|apply keeps_of|]; intros t Ht; rewrite after_in by exact Ht; apply (I0 t Ht).
    + intros d c r st' Er (K1 & K2 & K3). assert (Hc : In c (nth hi P [])) by (rewrite Er; apply in_elt). unfold st_fe.
      destruct (two_dots_run inp N own priv r_dot 0 pq _ nci _ _ r_gd nci pdy _ nco _ _ st' ltac:(discriminate) ltac:(discriminate) ltac:(discriminate) ltac:(discriminate) ltac:(discriminate) K1 K2
        (at_out B nh Hi Wi Ho Wo P HWi HWo Hdiv HP _ _ _ _ _ bh hi wi c HQ Hb Hh Hw Hc) (at_out B nh Hi Wi Ho Wo P HWi HWo Hdiv HP _ _ _ _ _ bh hi wi c HD Hb Hh Hw Hc)) as (D1 & D2).
      rewrite fend_app, ftrace_app, D1. set (st1 := fend inp 32 _ priv (two_dots _ _ _ _ _ _ _ _ _ _) st') in *.
      assert (L : forall t, t < 32 -> let m' := lrun inp (st_tail bh wi c t) (st1 t) in snd m' = st_l bh hi wi c t /\ snd (fst m') = snd (st1 t) /\ fst (fst m') r_w = quad hi).
      { intros t Ht. destruct (D2 t Ht) as (S1 & S2 & S3 & S4). apply st_tail_run; auto; [rewrite S4 by discriminate; now apply K3|]. intros x Hx Hm. rewrite S1. exact (K1 t x Ht Hx Hm). }
      assert (Sh : forall t, t < 32 -> snd (after inp 32 (st_tail bh wi c) st1 t) = snd (st' t)). { intros t Ht. rewrite after_in by exact Ht. rewrite (proj1 (proj2 (L t Ht))). apply (D2 t Ht). }
      cbn [fend fold_left fstate ftrace ftrace1 app]. rewrite app_nil_r. split; [split; [|split]|].
      * now apply (keeps_eq _ _ _ st').
      * now apply (keeps_eq _ _ _ st').
      * intros t Ht. rewrite after_in by exact Ht. apply (L t Ht).
      * apply flat_map_in_ext. intros t Ht. apply in_seq in Ht. apply L. lia.
Qed.
End Stats.
End Bwd.
