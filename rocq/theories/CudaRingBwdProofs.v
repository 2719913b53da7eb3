(** The backward ring kernels: the common shape of a group.  It reads q, dy and the weights of its
    entries to shared memory, synchronises, and goes through the entries, with two products each. *)
From Coq Require Import List Arith Lia Bool Reals Lra Permutation FunctionalExtensionality.
From Verif Require Import TensorModel TensorProofs BigSum GpuModel GpuSpec GpuProofs GpuProofs2 WarpProofs CudaDiscoModel CudaWarpModel WarpSumProofs CudaFwdProofs CudaAttnModel CudaAttnProofs CudaAttnLaneProofs WarpKernelProofs CudaKeyProofs CudaLoopProofs CudaAttnUpModel CudaAttnBwdModel CudaAttnUpProofs2 GroupKernelProofs CudaRingModel CudaRingProofs CudaRingBwdModel.
Import ListNotations.
Local Open Scope nat_scope.
Notation upd := (nat * uop * R)%type (only parsing).
Notation lanes := (nat -> (nat -> R) * (nat -> R)) (only parsing).
Notation item := (nat * (nat * (nat * (nat * nat))))%type (only parsing).

Section Group.
Variables (k : kernel) (NW V nci nco mid g : nat) (kind : nat -> option aop) (holds : nat -> nat * nat -> Prop) (spl : bool) (act : list (nat * (nat * (nat * nat)))).
Notation BD := (32 * NW). Notation Ck := (V * nci). Notation Cv := (V * nco). Notation S0 := (V * nco + V * nci). Notation inp := (k_in k). Notation N := (k_insize k).
Definition bown (a : nat) : nat := if a <? Cv then chan_own BD V a else if a <? S0 then chan_own BD V (a - Cv) else if a <? S0 + length act then fst (nth (a - S0) act (0, (0, (0, 0)))) else if a <? S0 + mid then 0 else BD.
Definition bpub (a : nat) : bool := (spl && (a <? S0)) || ((S0 <=? a) && (a <? S0 + length act)).
Hypotheses (HNW : 1 <= NW <= 32) (HV : 1 <= V) (Hmid : length act <= mid) (Hlane : forall x, In x (listed act) -> x_lane x < BD).
Lemma bown_high : forall a, bscratch V nci nco mid <= a -> BD <= bown a.
Proof. intros a H. unfold bscratch in H. unfold bown. rewrite !(proj2 (Nat.ltb_ge _ _)) by lia. lia. Qed.
Lemma bown_d : forall c, c < Cv -> bown (0 + c) = chan_own BD V c /\ bpub (0 + c) = spl.
Proof.
  intros c H. cbn [plus]. unfold bown, bpub. rewrite (proj2 (Nat.ltb_lt c Cv) H). rewrite (proj2 (Nat.leb_gt _ _)) by lia. rewrite (proj2 (Nat.ltb_lt c S0)) by lia. split; [reflexivity|]. now rewrite andb_true_r, orb_false_r.
Qed.
Lemma bown_q : forall c, c < Ck -> bown (Cv + c) = chan_own BD V c /\ bpub (Cv + c) = spl.
Proof.
  intros c H. unfold bown, bpub. rewrite (proj2 (Nat.ltb_ge _ _)) by lia. rewrite (proj2 (Nat.ltb_lt _ S0)) by lia. rewrite (proj2 (Nat.leb_gt _ _)) by lia. replace (Cv + c - Cv) with c by lia. split; [reflexivity|]. now rewrite andb_true_r, orb_false_r.
Qed.
Lemma bown_w : forall x, In x (listed act) -> bown (bw_sh V nci nco (fst x)) = x_lane x /\ bpub (bw_sh V nci nco (fst x)) = true /\ bw_sh V nci nco (fst x) < bscratch V nci nco mid.
Proof.
  intros x H. destruct (listed_in act x (0, (0, (0, 0))) H) as [L E]. unfold bown, bpub, bw_sh, bscratch. rewrite !(proj2 (Nat.ltb_ge _ _)) by lia. rewrite (proj2 (Nat.ltb_lt _ _)) by lia. rewrite (proj2 (Nat.leb_le _ _)) by lia.
  replace (S0 + fst x - S0) with (fst x) by lia. rewrite E. split; [reflexivity|]. split; [|lia]. now rewrite andb_false_r.
Qed.
Lemma bpub_own : forall a, bpub a = true -> bown a < BD.
Proof.
  intros a H. destruct (Nat.lt_ge_cases a Cv) as [L1|L1]. { change a with (0 + a). rewrite (proj1 (bown_d a L1)). apply chan_own_lt. lia. }
  destruct (Nat.lt_ge_cases a S0) as [L2|L2]. { replace a with (Cv + (a - Cv)) by lia. rewrite (proj1 (bown_q (a - Cv) ltac:(lia))). apply chan_own_lt. lia. }
  unfold bpub in H. rewrite (proj2 (Nat.ltb_ge a S0) L2), andb_false_r in H. cbn [orb] in H. apply andb_true_iff in H. destruct H as [_ H2]. apply Nat.ltb_lt in H2. set (i := a - S0). assert (Hi : i < length act) by (unfold i; lia).
  assert (Hx : In (i, nth i act (0, (0, (0, 0)))) (listed act)). { unfold listed. assert (E : nth i (combine (seq 0 (length act)) act) (0, (0, (0, (0, 0)))) = (i, nth i act (0, (0, (0, 0))))) by (rewrite combine_nth by (now rewrite seq_length); now rewrite seq_nth). rewrite <- E. apply nth_In. rewrite combine_length, seq_length. lia. }
  destruct (bown_w _ Hx) as (E & _). assert (L := Hlane _ Hx). unfold bw_sh in E. cbn [fst] in E. replace (S0 + i) with a in E by (unfold i; lia). rewrite E. exact L.
Qed.

(** ** Loading *)
Variables (cin cout : nat -> list nat) (pk pv pq pdy pw : nat * nat) (qb db nq : nat) (kb vb : item -> nat) (K Vv : item -> nat -> R) (q dyf quad : nat -> R).
Hypotheses (Hcin : covers BD Ck (chan_own BD V) cin) (Hcout : covers BD Cv (chan_own BD V) cout).
Hypotheses (RQ : reads inp N pq qb Ck q) (RD : reads inp N pdy db Cv dyf) (RW : reads inp N pw 0 nq quad).
Hypotheses (RK : forall x, In x (listed act) -> reads inp N pk (kb x) Ck (K x)) (RV : forall x, In x (listed act) -> reads inp N pv (vb x) Cv (Vv x)) (Hhi : forall x, In x (listed act) -> x_hi x < nq).
Lemma cin_lt2 : forall t c, t < BD -> In c (cin t) -> c < Ck.
Proof. intros t c Ht Hc. now apply (Hcin t Ht) in Hc. Qed.
Lemma cout_lt2 : forall t c, t < BD -> In c (cout t) -> c < Cv.
Proof. intros t c Ht Hc. now apply (Hcout t Ht) in Hc. Qed.
Definition keep (r : nat) : Prop := r <> r_t /\ r <> r_u /\ r <> r_dot /\ r <> r_gd /\ r <> r_w.
Definition lq (t : nat) : list instr :=
  flat_map (fun c => [get pq r_t (qb + c); IStore (Cv + c) (fun r => r r_t)]) (cin t) ++ flat_map (fun c => [get pdy r_t (db + c); IStore (0 + c) (fun r => r r_t)]) (cout t).
Definition linit (t : nat) : list instr := lq t ++ bstash V nci nco pw act t.
Lemma linit_run : forall t rg sh, t < BD -> let m := lrun inp (linit t) (rg, sh) in snd m = [] /\ (forall r, keep r -> fst (fst m) r = rg r) /\
  (forall c, In c (cin t) -> snd (fst m) (Cv + c) = q c) /\ (forall c, In c (cout t) -> snd (fst m) (0 + c) = dyf c) /\ forall x, In x (listed act) -> x_lane x = t -> snd (fst m) (bw_sh V nci nco (fst x)) = quad (x_hi x).
Proof.
  intros t rg sh Ht m. subst m. unfold linit, lq. rewrite !lrun_app.
  destruct (loop_copy inp N pq qb Cv Ck q (cin t) rg sh (fun c => cin_lt2 t c Ht) RQ) as (A1 & A2 & A3 & A4). set (m1 := lrun inp _ (rg, sh)) in *. rewrite (surjective_pairing (fst m1)).
  destruct (loop_copy inp N pdy db 0 Cv dyf (cout t) (fst (fst m1)) (snd (fst m1)) (fun c => cout_lt2 t c Ht) RD) as (B1 & B2 & B3 & B4). set (m2 := lrun inp _ (fst (fst m1), snd (fst m1))) in *. cbn [fst snd]. rewrite (surjective_pairing (fst m2)).
  set (rg2 := fst (fst m2)) in *. set (sh2 := snd (fst m2)) in *. unfold bstash.
  destruct (lrun_loop _ inp (fun x : item => if fst (snd x) =? t then [get pw r_w (fst (snd (snd x))); IStore (bw_sh V nci nco (fst x)) (fun r => r r_w)] else []) (fun _ => [])
    (fun d m => (forall r, r <> r_w -> fst m r = rg2 r) /\ (forall a, a < S0 -> snd m a = sh2 a) /\ forall x, In x d -> x_lane x = t -> snd m (bw_sh V nci nco (fst x)) = quad (x_hi x)) (listed act) (rg2, sh2)) as [(I1 & I2 & I3) I4].
  - split; [auto|]. split; [auto|]. intros x [].
  - intros d x r [rg1 sh1] E (I1 & I2 & I3). cbn [fst snd] in *. assert (Hx : In x (listed act)) by (rewrite E; apply in_elt). destruct (Nat.eqb_spec (fst (snd x)) t) as [Et|Et].
    + change (fst (snd (snd x))) with (0 + x_hi x). rewrite (get_reads inp N pw 0 nq quad r_w (x_hi x) RW (Hhi x Hx)). destruct (RW (x_hi x) (Hhi x Hx)) as (_ & _ & Ef). lr. split; [|reflexivity]. split; [intros r1 Hr; rewrite put_ne by auto; auto|]. split; [intros a Ha; rewrite put_ne by (unfold bw_sh; lia); auto|].
      intros y Hy Hly. unfold put. destruct (Nat.eqb_spec (bw_sh V nci nco (fst y)) (bw_sh V nci nco (fst x))) as [Ew|Ew].
      * assert (y = x) by (apply (listed_same act); [rewrite E; apply in_app_iff in Hy; rewrite in_app_iff; destruct Hy as [Hy|[<-|[]]]; [now left|right; now left]|exact Hx|unfold bw_sh in Ew; lia]). subst y. rewrite Nat.eqb_refl. exact Ef.
      * apply in_app_iff in Hy. destruct Hy as [Hy|[<-|[]]]; [|congruence]. now apply I3.
    + lr. split; [|reflexivity]. split; [auto|]. split; [auto|]. intros y Hy Hly. apply in_app_iff in Hy. destruct Hy as [Hy|[<-|[]]]; [now apply I3|]. unfold x_lane in Hly. contradiction.
  - rewrite A1, B1. cbn [app]. split; [rewrite I4; apply flat_map_nil|]. split; [|split; [|split; [|exact I3]]].
    + intros r (K1 & K2 & K3 & K4 & K5). rewrite I1 by exact K5. unfold rg2. rewrite B2 by exact K1. now apply A2.
    + intros c Hc. assert (Lc := cin_lt2 t c Ht Hc). rewrite I2 by lia. unfold sh2. rewrite B4; [now apply A3|]. intros c' Hc'. apply cout_lt2 in Hc'; [|exact Ht]. lia.
    + intros c Hc. assert (Lc := cout_lt2 t c Ht Hc). rewrite I2 by lia. now apply B3.
Qed.
Notation ok ph t := (fine k bown bpub kind holds ph g t).
Hypothesis (Hsh : bscratch V nci nco mid <= k_shared k).
Lemma linit_fine : forall t, t < BD -> Forall (ok false t) (linit t).
Proof.
  intros t Ht. assert (Q : S0 <= k_shared k) by (unfold bscratch in Hsh; lia). unfold linit, lq. rewrite !Forall_app. split; [split|].
  - apply Forall_flat. intros c Hc. assert (Lc := cin_lt2 t c Ht Hc). apply (Hcin t Ht) in Hc. fl; [apply (fine_get k bown bpub kind holds false g t inp pq qb Ck q r_t c RQ Lc)|]. apply fine_store; [lia|]. split; [rewrite (proj1 (bown_q c Lc)); tauto|discriminate].
  - apply Forall_flat. intros c Hc. assert (Lc := cout_lt2 t c Ht Hc). apply (Hcout t Ht) in Hc. fl; [apply (fine_get k bown bpub kind holds false g t inp pdy db Cv dyf r_t c RD Lc)|]. apply fine_store; [lia|]. split; [rewrite (proj1 (bown_d c Lc)); tauto|discriminate].
  - unfold bstash. apply Forall_flat. intros x Hx. destruct (Nat.eqb_spec (fst (snd x)) t) as [Et|]; [|constructor]. destruct (bown_w x Hx) as (E1 & E2 & E3). fl; [apply (fine_get0 k bown bpub kind holds false g t inp pw nq quad r_w _ RW (Hhi x Hx))|].
    apply fine_store; [lia|]. split; [unfold x_lane in E1; congruence|discriminate].
Qed.
Lemma bweight_fine : forall t x r, In x (listed act) -> ok true t (ILoad r (bw_sh V nci nco (fst x))).
Proof. intros t x r Hx. destruct (bown_w x Hx) as (E1 & E2 & E3). apply fine_load; [lia|]. right. auto. Qed.
(** the channels of q and dy a thread may read after the barrier *)
Definition sees (t c : nat) : Prop := spl = true \/ chan_own BD V c = t.
Lemma q_fine : forall t c r, c < Ck -> sees t c -> ok true t (ILoad r (Cv + c)).
Proof. intros t c r Hc Hs. destruct (bown_q c Hc) as [E1 E2]. apply fine_load; [unfold bscratch in Hsh; lia|]. destruct Hs as [Hs|Hs]; [right; split; congruence|left; congruence]. Qed.
Lemma d_fine : forall t c r, c < Cv -> sees t c -> ok true t (ILoad r (0 + c)).
Proof. intros t c r Hc Hs. destruct (bown_d c Hc) as [E1 E2]. apply fine_load; [unfold bscratch in Hsh; lia|]. destruct Hs as [Hs|Hs]; [right; split; congruence|left; congruence]. Qed.

(** ** The entries *)
Definition bdseg (x : item) (t : nat) : list instr := dot_loop r_dot Cv pk (kb x) (cin t) ++ dot_loop r_gd 0 pv (vb x) (cout t).
Definition bsc (x : item) : R := rsum Ck (fun c => q c * K x c)%R.
Definition bgv (x : item) : R := rsum Cv (fun c => dyf c * Vv x c)%R.
Variables (pre fin : nat -> list instr) (step : item -> nat -> list instr).
Definition bentry (x : item) : list fstep := [FSeg (bdseg x); FSum r_dot; FSum r_gd; FSeg (step x)].
Definition bprog : list fstep := [FSeg (fun t => pre t ++ linit t); FShare] ++ flat_map bentry (listed act) ++ [FSeg fin].
Lemma bgroup_good : (forall t, t < BD -> Forall (ok false t) (pre t)) -> (forall x t, In x (listed act) -> t < BD -> Forall (ok true t) (step x t)) -> (forall t, t < BD -> Forall (ok true t) (fin t)) -> fgood k NW bown bpub kind holds g false bprog.
Proof.
  intros HI HS HF. cbn [bprog app fgood]. split. { intros t Ht. apply Forall_app. split; [now apply HI|now apply linit_fine]. } apply fgood_app.
  - intros y Hy. apply in_flat_map in Hy. destruct Hy as (x & _ & [<-|[<-|[<-|[<-|[]]]]]); discriminate.
  - apply fgood_flat. intros x Hx. split; [intros y [<-|[<-|[<-|[<-|[]]]]]; discriminate|]. cbn [bentry fgood]. split; [|split; [|exact I]]; intros t Ht; [|now apply HS].
    unfold bdseg, dot_loop. apply Forall_app. split; (constructor; [apply fine_set|]); apply Forall_flat; intros c Hc.
    + assert (Lc := cin_lt2 t c Ht Hc). apply (Hcin t Ht) in Hc. fl; [apply q_fine; [exact Lc|right; tauto]|apply (fine_get k bown bpub kind holds true g t inp pk (kb x) Ck (K x) r_u c (RK x Hx) Lc)|apply fine_set].
    + assert (Lc := cout_lt2 t c Ht Hc). apply (Hcout t Ht) in Hc. fl; [apply d_fine; [exact Lc|right; tauto]|apply (fine_get k bown bpub kind holds true g t inp pv (vb x) Cv (Vv x) r_u c (RV x Hx) Lc)|apply fine_set].
  - cbn [fgood]. auto.
Qed.
Variables (LI : nat -> list item -> (nat -> R) -> Prop) (ET : item -> nat -> list upd) (FT : nat -> list upd).
Hypothesis (LIf : forall t d rg rg', (forall r, keep r -> rg' r = rg r) -> LI t d rg -> LI t d rg').
Hypothesis (HI : forall t m, t < BD -> let m' := lrun inp (pre t) m in snd m' = [] /\ LI t [] (fst (fst m'))).
Hypothesis (HS : forall d x r t rg sh, listed act = d ++ x :: r -> t < BD -> LI t d rg -> rg r_dot = bsc x -> rg r_gd = bgv x -> sh (bw_sh V nci nco (fst x)) = quad (x_hi x) ->
  (forall c, c < Ck -> sees t c -> sh (Cv + c) = q c) -> (forall c, c < Cv -> sees t c -> sh (0 + c) = dyf c) ->
  let m := lrun inp (step x t) (rg, sh) in snd m = ET x t /\ snd (fst m) = sh /\ LI t (d ++ [x]) (fst (fst m))).
Hypothesis (HF : forall t rg sh, t < BD -> LI t (listed act) rg -> snd (lrun inp (fin t) (rg, sh)) = FT t).
Definition binv (d : list item) (st : lanes) : Prop := forall t, t < BD -> (forall c, c < Ck -> sees t c -> snd (st t) (Cv + c) = q c) /\ (forall c, c < Cv -> sees t c -> snd (st t) (0 + c) = dyf c) /\
  (forall x, In x (listed act) -> snd (st t) (bw_sh V nci nco (fst x)) = quad (x_hi x)) /\ LI t d (fst (st t)).
Notation fend := (fend inp BD bown bpub). Notation ftrace := (ftrace inp BD bown bpub).
Lemma bbegin_run : forall st, binv [] (fend [FSeg (fun t => pre t ++ linit t); FShare] st) /\ ftrace [FSeg (fun t => pre t ++ linit t); FShare] st = [].
Proof.
  intros st. cbn [WarpKernelProofs.fend fold_left fstate WarpKernelProofs.ftrace ftrace1 app].
  assert (Q : forall t, t < BD -> let m := lrun inp (pre t ++ linit t) (st t) in snd m = [] /\ LI t [] (fst (fst m)) /\
     (forall c, In c (cin t) -> snd (fst m) (Cv + c) = q c) /\ (forall c, In c (cout t) -> snd (fst m) (0 + c) = dyf c) /\ forall x, In x (listed act) -> x_lane x = t -> snd (fst m) (bw_sh V nci nco (fst x)) = quad (x_hi x)).
  { intros t Ht m. subst m. rewrite lrun_app. destruct (HI t (st t) Ht) as (H1 & H2). set (m1 := lrun inp (pre t) (st t)) in *. rewrite (surjective_pairing (fst m1)). destruct (linit_run t (fst (fst m1)) (snd (fst m1)) Ht) as (L1 & L2 & L3 & L4 & L5).
    cbn [fst snd]. rewrite H1, L1. split; [reflexivity|]. split; [apply (LIf t [] (fst (fst m1))); auto|]. auto. }
  split.
  - intros t Ht. unfold shared_out. rewrite (proj2 (Nat.ltb_lt _ _) Ht). cbn [fst snd]. rewrite (after_in inp BD _ st t Ht). destruct (Q t Ht) as (_ & H2 & H3 & H4 & H5). split; [|split; [|split; [|exact H2]]].
    + intros c Hc Hs. destruct (bown_q c Hc) as [E1 E2]. rewrite E2. destruct spl eqn:Es.
      * rewrite E1. assert (Lo : chan_own BD V c < BD) by (apply chan_own_lt; lia). rewrite (after_in inp BD _ st _ Lo). apply (Q _ Lo). apply (Hcin _ Lo). auto.
      * destruct Hs as [Hs|Hs]; [congruence|]. apply H3. apply (Hcin _ Ht). auto.
    + intros c Hc Hs. destruct (bown_d c Hc) as [E1 E2]. rewrite E2. destruct spl eqn:Es.
      * rewrite E1. assert (Lo : chan_own BD V c < BD) by (apply chan_own_lt; lia). rewrite (after_in inp BD _ st _ Lo). apply (Q _ Lo). apply (Hcout _ Lo). auto.
      * destruct Hs as [Hs|Hs]; [congruence|]. apply H4. apply (Hcout _ Ht). auto.
    + intros x Hx. destruct (bown_w x Hx) as (E1 & E2 & _). rewrite E2, E1. assert (Lx := Hlane x Hx). rewrite (after_in inp BD _ st _ Lx). now apply (Q (x_lane x) Lx).
  - rewrite !app_nil_r. apply quiet. intros t Ht. apply (Q t Ht).
Qed.
Lemma bentry_run : forall d x r st, listed act = d ++ x :: r -> binv d st -> binv (d ++ [x]) (fend (bentry x) st) /\ ftrace (bentry x) st = flat_map (ET x) (seq 0 BD).
Proof.
  intros d x r st E HI0. assert (Hx : In x (listed act)) by (rewrite E; apply in_elt). cbn [bentry WarpKernelProofs.fend fold_left fstate WarpKernelProofs.ftrace ftrace1 app].
  assert (Hd : forall t, t < BD -> let m := lrun inp (bdseg x t) (st t) in snd m = [] /\ snd (fst m) = snd (st t) /\ fst (fst m) r_dot = rlsum (fun c => q c * K x c)%R (cin t) /\ fst (fst m) r_gd = rlsum (fun c => dyf c * Vv x c)%R (cout t) /\ forall r, keep r -> fst (fst m) r = fst (st t) r).
  { intros t Ht m. subst m. unfold bdseg. rewrite lrun_app. destruct (HI0 t Ht) as (I1 & I2 & _). destruct (st t) as [rg sh]. cbn [fst snd] in *.
    destruct (loop_dot inp N r_dot pk (kb x) Cv Ck (K x) (cin t) rg sh ltac:(discriminate) ltac:(discriminate) (fun c => cin_lt2 t c Ht) (RK x Hx)) as (A1 & A2 & A3 & A4). fold (dot_loop r_dot Cv pk (kb x) (cin t)) in *.
    set (m1 := lrun inp (dot_loop r_dot Cv pk (kb x) (cin t)) (rg, sh)) in *. rewrite (surjective_pairing (fst m1)).
    destruct (loop_dot inp N r_gd pv (vb x) 0 Cv (Vv x) (cout t) (fst (fst m1)) (snd (fst m1)) ltac:(discriminate) ltac:(discriminate) (fun c => cout_lt2 t c Ht) (RV x Hx)) as (B1 & B2 & B3 & B4). fold (dot_loop r_gd 0 pv (vb x) (cout t)) in *.
    set (m2 := lrun inp (dot_loop r_gd 0 pv (vb x) (cout t)) (fst (fst m1), snd (fst m1))) in *. rewrite A1, B1, B2, B3, A2. split; [reflexivity|]. split; [reflexivity|]. split.
    - rewrite B4 by discriminate. rewrite A3. apply lsum_ext. intros c Hc. assert (Lc := cin_lt2 t c Ht Hc). rewrite I1; [reflexivity|exact Lc|]. right. now apply (Hcin t Ht).
    - split; [|intros r0 (K1 & K2 & K3 & K4 & K5); rewrite B4 by auto; now apply A4]. apply lsum_ext. intros c Hc. assert (Lc := cout_lt2 t c Ht Hc). rewrite I2; [reflexivity|exact Lc|]. right. now apply (Hcout t Ht). }
  set (st1 := after inp BD (bdseg x) st). set (st2 := after_sum BD r_dot st1). set (st3 := after_sum BD r_gd st2).
  assert (H1 : forall t, t < BD -> snd (st1 t) = snd (st t) /\ fst (st1 t) r_dot = rlsum (fun c => q c * K x c)%R (cin t) /\ fst (st1 t) r_gd = rlsum (fun c => dyf c * Vv x c)%R (cout t) /\ forall r, keep r -> fst (st1 t) r = fst (st t) r).
  { intros t Ht. unfold st1. rewrite after_in by exact Ht. now destruct (Hd t Ht) as (_ & A). }
  assert (Hs1 : rsum BD (fun t => fst (st1 t) r_dot) = bsc x).
  { unfold bsc. rewrite <- (covers_sum BD Ck (chan_own BD V) cin) by (try exact Hcin; intros; apply chan_own_lt; lia). apply bsum_ext. intros t Ht. now apply H1. }
  assert (H2 : forall t, t < BD -> st2 t = (put r_dot (bsc x) (fst (st1 t)), snd (st1 t))) by (intros t Ht; unfold st2; rewrite after_sum_in by exact Ht; now rewrite Hs1).
  assert (Hs2 : rsum BD (fun t => fst (st2 t) r_gd) = bgv x).
  { unfold bgv. rewrite <- (covers_sum BD Cv (chan_own BD V) cout) by (try exact Hcout; intros; apply chan_own_lt; lia). apply bsum_ext. intros t Ht. rewrite H2 by exact Ht. cbn [fst]. rewrite put_ne by discriminate. now apply H1. }
  assert (Hu : forall t, t < BD -> let m := lrun inp (step x t) (st3 t) in snd m = ET x t /\ snd (fst m) = snd (st t) /\ LI t (d ++ [x]) (fst (fst m))).
  { intros t Ht. unfold st3. rewrite after_sum_in by exact Ht. rewrite Hs2. rewrite H2 by exact Ht. cbn [fst snd]. destruct (H1 t Ht) as (E1 & E2 & E3 & E4). rewrite E1. destruct (HI0 t Ht) as (I1 & I2 & I3 & I4).
    apply (HS d x r t _ _ E Ht); auto.
    - apply (LIf t d (fst (st t))); [|exact I4]. intros r0 Hr. assert (Hr' := Hr). destruct Hr' as (K1 & K2 & K3 & K4 & K5). rewrite !put_ne by auto. now apply E4. }
  split.
  - intros t Ht. rewrite after_in by exact Ht. destruct (Hu t Ht) as (_ & U2 & U3). rewrite U2. destruct (HI0 t Ht) as (I1 & I2 & I3 & _). auto.
  - rewrite app_nil_r. rewrite (quiet inp BD (bdseg x) st) by (intros t Ht; apply (Hd t Ht)). cbn [app]. apply flat_map_in_ext. intros t Ht. apply in_seq in Ht. apply (Hu t). lia.
Qed.
Lemma bgroup_trace : forall st, ftrace bprog st = flat_map (fun x => flat_map (ET x) (seq 0 BD)) (listed act) ++ flat_map FT (seq 0 BD).
Proof.
  intros st. unfold bprog. rewrite ftrace_app. destruct (bbegin_run st) as [I0 E0]. rewrite E0. cbn [app]. rewrite ftrace_app.
  destruct (floop inp BD bown bpub _ bentry (fun x => flat_map (ET x) (seq 0 BD)) binv (listed act) _ I0) as [I1 E1]; [intros d x r s E H; now apply (bentry_run d x r)|].
  rewrite E1. f_equal. cbn [app WarpKernelProofs.ftrace ftrace1]. rewrite app_nil_r. apply flat_map_in_ext. intros t Ht. apply in_seq in Ht. destruct (I1 t ltac:(lia)) as (_ & _ & _ & I3).
  set (m := fend _ _ t) in *. rewrite (surjective_pairing m). apply HF; [lia|exact I3].
Qed.
End Group.
