(** The gather-direction ring kernels: the updates one group makes. *)
From Coq Require Import List Arith Lia Bool ZArith Reals Lra Permutation FunctionalExtensionality.
From Verif Require Import TensorModel TensorProofs BigSum DiscoModel DiscoSortProofs DistAttnModel DistAttnProofs AttnModel AttnCoreProofs GpuModel GpuSpec GpuProofs GpuProofs2 WarpProofs CudaDiscoModel CudaWarpModel WarpSumProofs CudaFwdProofs CudaAttnModel CudaAttnProofs CudaAttnLaneProofs CudaAttnFwdProofs CudaAttnFwdProofs2 WarpKernelProofs CudaKeyProofs CudaLoopProofs CudaAttnUpProofs2 CudaAttnUpProofs4 CudaRescaleModel CudaRescaleSpec GroupKernelProofs CudaRingUpSpec CudaRingModel CudaRingProofs CudaRingProofs2.
From Verif Require Import AttnSpec.
Import ListNotations.
Local Open Scope nat_scope.
Notation upd := (nat * uop * R)%type (only parsing).
Notation entry := (nat * (nat * nat))%type (only parsing).
Notation item := (nat * (nat * (nat * (nat * nat))))%type (only parsing).
Notation smax := DistAttnModel.r_max. Notation ssum := DistAttnModel.r_sum. Notation sacc := DistAttnModel.r_acc.
Notation r_sum := CudaAttnModel.r_sum. Notation r_max := CudaAttnModel.r_max. Notation r_new := CudaAttnModel.r_new. Notation r_loc := CudaAttnModel.r_loc.

(** ** Loops over the local array *)
Section Lanes.
Variables (inp : nat -> R) (N : nat).
Lemma load_locs : forall p b n f l rg sh, (forall c, In c l -> c < n) -> reads inp N p b n f -> let m := lrun inp (map (fun c => get p (r_locy c) (b + c)) l) (rg, sh) in
  snd m = [] /\ snd (fst m) = sh /\ (forall r, r < 9 -> fst (fst m) r = rg r) /\ forall c, In c l -> fst (fst m) (r_locy c) = f c.
Proof.
  intros p b n f l rg sh Hl HR m. subst m. rewrite map_flat.
  destruct (lrun_loop _ inp (fun c => [get p (r_locy c) (b + c)]) (fun _ => []) (fun d m => snd m = sh /\ (forall r, r < 9 -> fst m r = rg r) /\ forall c, In c d -> fst m (r_locy c) = f c) l (rg, sh)) as [(I1 & I2 & I3) I4].
  - split; [reflexivity|]. split; [auto|]. intros c [].
  - intros d x r [rg1 sh1] E (I1 & I2 & I3). cbn [fst snd] in *. assert (Hx : x < n) by (apply Hl; rewrite E; apply in_elt). rewrite (get_reads inp N p b n f _ x HR Hx). destruct (HR x Hx) as (_ & _ & Ef). lr. split; [|reflexivity]. split; [exact I1|]. split.
    + intros r0 Hr. rewrite put_ne by (unfold r_locy; lia). auto.
    + intros c Hc. unfold put. destruct (Nat.eqb_spec (r_locy c) (r_locy x)) as [Q|Q]; [unfold r_locy in Q; assert (c = x) by lia; subst; exact Ef|]. apply I3. apply in_app_iff in Hc. destruct Hc as [Hc|[->|[]]]; [exact Hc|congruence].
  - rewrite I4, flat_map_nil. auto.
Qed.
Lemma zero_locys : forall l rg sh, let m := lrun inp (map (fun c => ISet (r_locy c) (fun _ => 0%R)) l) (rg, sh) in
  snd m = [] /\ snd (fst m) = sh /\ (forall r, r < 9 -> fst (fst m) r = rg r) /\ forall c, In c l -> fst (fst m) (r_locy c) = 0%R.
Proof.
  intros l rg sh m. subst m. rewrite map_flat.
  destruct (lrun_loop _ inp (fun c => [ISet (r_locy c) (fun _ => 0%R)]) (fun _ => []) (fun d m => snd m = sh /\ (forall r, r < 9 -> fst m r = rg r) /\ forall c, In c d -> fst m (r_locy c) = 0%R) l (rg, sh)) as [(I1 & I2 & I3) I4].
  - split; [reflexivity|]. split; [auto|]. intros c [].
  - intros d x r [rg1 sh1] E (I1 & I2 & I3). cbn [fst snd] in *. lr. split; [|reflexivity]. split; [exact I1|]. split.
    + intros r0 Hr. rewrite put_ne by (unfold r_locy; lia). auto.
    + intros c Hc. unfold put. destruct (Nat.eqb_spec (r_locy c) (r_locy x)) as [Q|Q]; [reflexivity|]. apply I3. apply in_app_iff in Hc. destruct Hc as [Hc|[->|[]]]; [exact Hc|congruence].
  - rewrite I4, flat_map_nil. auto.
Qed.
(** the weighted sum *)
Lemma add_locs : forall p b n f l rg sh, NoDup l -> (forall c, In c l -> c < n) -> reads inp N p b n f ->
  let m := lrun inp (flat_map (fun c => [get p r_t (b + c); ISet (r_locy c) (fun r => r (r_locy c) + r r_alpha * r r_t)%R]) l) (rg, sh) in
  snd m = [] /\ snd (fst m) = sh /\ (forall r, 3 <= r < 9 -> fst (fst m) r = rg r) /\ forall c, In c l -> fst (fst m) (r_locy c) = (rg (r_locy c) + rg r_alpha * f c)%R.
Proof.
  intros p b n f l rg sh ND Hl HR m. subst m.
  destruct (lrun_loop _ inp (fun c => [get p r_t (b + c); ISet (r_locy c) (fun r => r (r_locy c) + r r_alpha * r r_t)%R]) (fun _ => [])
    (fun d m => snd m = sh /\ (forall r, 3 <= r < 9 -> fst m r = rg r) /\ (forall c, In c d -> fst m (r_locy c) = (rg (r_locy c) + rg r_alpha * f c)%R) /\ forall c, ~ In c d -> fst m (r_locy c) = rg (r_locy c)) l (rg, sh)) as [(I1 & I2 & I3 & I4) I5].
  - cbn [fst snd]. split; [reflexivity|]. split; [auto|]. split; [intros c []|auto].
  - intros d x r0 [rg1 sh1] E (I1 & I2 & I3 & I4). cbn [fst snd] in *. subst sh1. assert (Hx : x < n) by (apply Hl; rewrite E; apply in_elt). rewrite (get_reads inp N p b n f r_t x HR Hx). lr. split; [|reflexivity]. split; [reflexivity|].
    destruct (HR x Hx) as (_ & _ & Ef). assert (Nx : ~ In x d) by (rewrite E in ND; apply NoDup_remove_2 in ND; rewrite in_app_iff in ND; tauto).
    split; [|split].
    + intros r Hr. rewrite !put_ne by (unfold r_locy, r_t; lia). auto.
    + intros c Hc. destruct (Nat.eq_dec c x) as [->|Ne].
      * rewrite put_eq. rewrite !put_ne by (unfold r_locy, r_t, r_alpha; lia). rewrite put_eq, Ef, (I4 x Nx), !I2 by (unfold r_alpha; lia). reflexivity.
      * apply in_app_iff in Hc. destruct Hc as [Hc|[<-|[]]]; [|contradiction]. rewrite !put_ne by (unfold r_locy, r_t; lia). auto.
    + intros c Hc. rewrite in_app_iff in Hc. assert (c <> x) by (intros ->; apply Hc; right; now left). rewrite !put_ne by (unfold r_locy, r_t; lia). apply I4. tauto.
  - split; [rewrite I5; apply flat_map_nil|auto].
Qed.
Lemma grow_run : forall V nci ninf i rg sh, let m := lrun inp (grow V nci ninf i) (rg, sh) in let mx := Rmax (rg r_max) (rg r_dot) in let ex := (if Req_EM_T (rg r_max) ninf then 0 else exp (rg r_max - mx))%R in let al := (exp (rg r_dot - mx) * sh (w_sh V nci i))%R in
  snd m = [] /\ snd (fst m) = sh /\ fst (fst m) r_new = mx /\ fst (fst m) r_alpha = al /\ fst (fst m) r_exp = ex /\ fst (fst m) r_sum = (al + rg r_sum * ex)%R /\ forall r, 9 <= r -> fst (fst m) r = rg r.
Proof.
  intros. subst m. unfold grow. lr. split; [reflexivity|]. split; [reflexivity|]. do 4 (split; [unfold put; cbn [Nat.eqb r_t r_u r_dot CudaAttnModel.r_new r_alpha r_exp CudaAttnModel.r_sum CudaAttnModel.r_max r_w]; reflexivity|]).
  intros r Hr. rewrite !put_ne by (unfold CudaAttnModel.r_new, r_alpha, r_exp, CudaAttnModel.r_sum, r_w; lia). reflexivity.
Qed.
(** storing or adding the local array *)
Lemma put_locs : forall (o : option aop) p b n l rg sh, (forall c, In c l -> c < n) -> (forall c, c < n -> b + c < snd p) ->
  snd (lrun inp (map (fun c => match o with None => set_out p (b + c) (fun r => r (r_locy c)) | Some a => add_out a p (b + c) (fun r => r (r_locy c)) end) l) (rg, sh)) =
  map (fun c => (fst p + (b + c), match o with None => USet | Some a => UAtom a end, rg (r_locy c))) l.
Proof.
  intros o p b n l rg sh Hl Hp. rewrite map_flat.
  destruct (lrun_loop _ inp (fun c => [match o with None => set_out p (b + c) (fun r => r (r_locy c)) | Some a => add_out a p (b + c) (fun r => r (r_locy c)) end]) (fun c => [(fst p + (b + c), match o with None => USet | Some a => UAtom a end, rg (r_locy c))]) (fun _ m => fst m = rg) l (rg, sh)) as [_ L2]; [reflexivity| |rewrite L2; symmetry; apply map_flat].
  intros d x r [rg1 sh1] E EI. cbn [fst] in EI. subst rg1. assert (Hx : x < n) by (apply Hl; rewrite E; apply in_elt). destruct o as [a|]; [rewrite add_in by auto|rewrite set_in by auto]; lr; auto.
Qed.
End Lanes.

Section Ctx.
Variables (NW V nloc nci nco H W : nat) (B Ho Wo : nat) (as_out : bool) (ninf : R) (nq : nat) (quad : nat -> R) (kf vf qf : fld).
Notation BD := (32 * NW). Notation Ck := (V * nci). Notation Cv := (V * nco). Notation cells := (B * Ho * Wo).
Hypotheses (HNW : 1 <= NW <= 32) (HV : 1 <= V) (Hnl : 1 <= nloc) (Hout : (nloc - 1) * BD <= nco <= nloc * BD) (Hin : as_out = true -> (nloc - 1) * BD <= nci <= nloc * BD).
Variables (k : kernel) (mid b ho wo : nat) (act : list (nat * entry)).
Hypotheses (Hb : b < B) (Hho : ho < Ho) (Hwo : wo < Wo) (Hmid : length act <= mid) (Hsh : scratch V nci mid <= k_shared k).
Hypothesis Hact : forall x : item, In x (listed act) -> x_lane x < BD /\ x_hi x < nq /\ fst (x_pt x) < H /\ snd (x_pt x) < W.
Notation inp := (k_in k). Notation N := (k_insize k).
Notation cin := (rin_chans BD V nloc nci as_out). Notation clp := (rloop_chans BD V nci). Notation cout := (rout_chans BD V nloc nco).
Notation own := (rown NW V nci mid act). Notation pub := (rpub V nci act).
Notation cell := (cell_of Ho Wo b ho wo).
Variables (pk pv pq pw : nat * nat).
Hypotheses (RK : forall p, fst p < H -> snd p < W -> reads inp N pk (k_at V nci H W b p) Ck (kf b (fst p) (snd p))) (RQ : reads inp N pq (q_at V nci Ho Wo b ho wo) Ck (qf b ho wo)).
Hypotheses (RV : forall p, fst p < H -> snd p < W -> reads inp N pv (v_at V nco H W b p) Cv (vf b (fst p) (snd p))) (RW : reads inp N pw 0 nq quad).
Definition K (x : item) : nat -> R := kf b (fst (x_pt x)) (snd (x_pt x)).
Definition kb (x : item) : nat := k_at V nci H W b (x_pt x).
Definition scr (x : item) : R := sc V nci (qf b ho wo) K x.
Lemma RKx : forall x, In x (listed act) -> reads inp N pk (kb x) Ck (K x).
Proof. intros x Hx. destruct (Hact x Hx) as (_ & _ & H1 & H2). now apply RK. Qed.
Lemma Hlane : forall x, In x (listed act) -> x_lane x < BD.
Proof. intros x Hx. apply (Hact x Hx). Qed.
Lemma Hhi : forall x, In x (listed act) -> x_hi x < nq.
Proof. intros x Hx. apply (Hact x Hx). Qed.
Notation visit1 := (istep V nci quad kf vf qf b ho wo).
Lemma istep_entry : forall st x, visit1 st x = ring_entry (scr x) (quad (x_hi x)) (vf b (fst (x_pt x)) (snd (x_pt x))) st.
Proof. reflexivity. Qed.
Notation cCin := (rin_covers NW V nloc nci as_out HNW HV Hnl Hin).
Notation cCout := (rout_covers NW V nloc nco HV Hnl Hout).
Notation cClp := (rloop_covers NW V nci HNW HV).
(** what a thread adds up stays in registers above the scratch ones *)
Section State.
Variables (base : nat) (out : nat -> R) (st0 : rst).
Hypotheses (RSm : reads inp N (base + 0, cells) 0 cells out) (RSs : reads inp N (base + cells, cells) 0 cells (fun i => out (cells + i))) (RSa : reads inp N (base + (cells + cells), cells * Cv) 0 (cells * Cv) (fun i => out (cells + cells + i))).
Hypothesis (HO : holds cells Cv 1 ninf out cell st0).
Hypothesis (Habove : forall m, smax st0 = Some m -> (ninf < m)%R).
Hypothesis (Hscr : forall x, In x (listed act) -> (ninf < scr x)%R).
Definition Sd (d : list item) : rst := fold_left visit1 d st0.
Lemma Sd_step : forall d x, Sd (d ++ [x]) = ring_entry (scr x) (quad (x_hi x)) (vf b (fst (x_pt x)) (snd (x_pt x))) (Sd d).
Proof. intros. unfold Sd. rewrite fold_left_app. reflexivity. Qed.
Lemma Sd_above : forall d m, (forall x, In x d -> In x (listed act)) -> smax (Sd d) = Some m -> (ninf < m)%R.
Proof.
  intros d. induction d as [|x d IH] using rev_ind; intros m Hd E; [now apply Habove|]. rewrite Sd_step in E. unfold ring_entry in E. cbn [smax] in E. assert (Sx : (ninf < scr x)%R) by (apply Hscr, Hd, in_elt).
  destruct (smax (Sd d)) as [m0|] eqn:E0; injection E as <-; [|exact Sx]. assert (Q := Rmax_r m0 (scr x)). lra.
Qed.
Definition SLI (t : nat) (d : list item) (rg : nat -> R) : Prop := rg r_sum = ssum (Sd d) /\ rg r_max = as_num ninf (smax (Sd d)) /\ forall c, In c (cout t) -> rg (r_locy c) = sacc (Sd d) c.
Definition sinit (t : nat) : list instr := [get_s base (s_sum B Ho Wo) r_sum cell; get_s base (s_max B Ho Wo) r_max cell] ++
  map (fun c => get_s base (s_acc V nco B Ho Wo) (r_locy c) (acc_at V nco Ho Wo b ho wo c)) (cout t) ++ load_q pq cin (q_at V nci Ho Wo b ho wo) t ++ stash V nci pw act t.
Definition sstep (x : item) (t : nat) : list instr := grow V nci ninf (fst x) ++
  flat_map (fun c => [get pv r_t (v_at V nco H W b (x_pt x) + c); ISet (r_locy c) (fun r => r r_exp * r (r_locy c) + r r_alpha * r r_t)%R]) (cout t) ++ [ISet r_max (fun r => r r_new)].
Definition sfin (t : nat) : list instr := (if t =? 0 then [set_out (s_sum B Ho Wo) cell (fun r => r r_sum); set_out (s_max B Ho Wo) cell (fun r => r r_max)] else []) ++
  map (fun c => set_out (s_acc V nco B Ho Wo) (acc_at V nco Ho Wo b ho wo c) (fun r => r (r_locy c))) (cout t).
Definition sFT (t : nat) : list upd := let s := Sd (listed act) in (if t =? 0 then [(cells + cell, USet, ssum s); (cell, USet, as_num ninf (smax s))] else []) ++
  map (fun c => (cells + cells + acc_at V nco Ho Wo b ho wo c, USet, sacc s c)) (cout t).
Lemma cell_lt' : cell < cells.
Proof. now apply cell_of_lt. Qed.
Lemma acc_lt' : forall c, c < Cv -> cell * Cv + c < cells * Cv.
Proof. intros c Hc. apply (acc_at_lt V nco B Ho Wo b ho wo c Hb Hho Hwo Hc). Qed.
Lemma RSa' : reads inp N (base + (cells + cells), cells * Cv) (cell * Cv) Cv (sacc st0).
Proof.
  intros c Hc. destruct (RSa _ (acc_lt' c Hc)) as (A1 & A2 & A3). cbn [fst snd plus] in *. split; [exact A1|]. split; [exact A2|]. rewrite A3. destruct HO as (_ & _ & H3). rewrite <- (H3 c Hc). unfold the_acc. f_equal. ring.
Qed.
Lemma gets_sum : get_s base (s_sum B Ho Wo) r_sum cell = IGet r_sum (base + cells + cell) /\ inp (base + cells + cell) = ssum st0 /\ base + cells + cell < N.
Proof.
  destruct (RSs cell cell_lt') as (A1 & A2 & A3). cbn [fst snd plus] in *. split; [unfold get_s, get, s_sum; cbn [fst snd]; now rewrite (proj2 (Nat.ltb_lt _ _) cell_lt')|]. split; [|exact A2]. rewrite A3. destruct HO as (_ & H2 & _). rewrite <- H2. unfold the_sum. f_equal. lia.
Qed.
Lemma gets_max : get_s base (s_max B Ho Wo) r_max cell = IGet r_max (base + 0 + cell) /\ inp (base + 0 + cell) = as_num ninf (smax st0) /\ base + 0 + cell < N.
Proof.
  destruct (RSm cell cell_lt') as (A1 & A2 & A3). cbn [fst snd plus] in *. split; [unfold get_s, get, s_max; cbn [fst snd]; now rewrite (proj2 (Nat.ltb_lt _ _) cell_lt')|]. split; [|exact A2]. rewrite A3. destruct HO as (H1 & _). exact H1.
Qed.
Lemma sinit_run : forall t m, t < BD -> let m' := lrun inp (sinit t) m in snd m' = [] /\ (forall c, In c (cin t) -> snd (fst m') c = qf b ho wo c) /\
  (true = true -> forall x, In x (listed act) -> x_lane x = t -> snd (fst m') (w_sh V nci (fst x)) = quad (x_hi x)) /\ SLI t [] (fst (fst m')).
Proof.
  intros t [rg sh] Ht m'. subst m'. unfold sinit. destruct gets_sum as (G1 & G2 & _). destruct gets_max as (G3 & G4 & _). rewrite G1, G3. cbn [app]. rewrite !lrun_cons. cbn [reg_of sh_of emit fst snd app]. rewrite G2, G4.
  set (rg0 := put r_max _ _). assert (E1 : rg0 r_sum = ssum st0 /\ rg0 r_max = as_num ninf (smax st0)) by (unfold rg0; rewrite put_eq, put_ne, put_eq by (unfold CudaAttnModel.r_sum, CudaAttnModel.r_max; lia); auto). clearbody rg0. rewrite !lrun_app. cbn [fst snd].
  destruct (load_locs inp N (base + (cells + cells), cells * Cv) (cell * Cv) Cv (sacc st0) (cout t) rg0 sh) as (L1 & L2 & L3 & L4); [intros c Hc; now apply (cCout t Ht)|apply RSa'|].
  change (map (fun c => get_s base (s_acc V nco B Ho Wo) (r_locy c) (acc_at V nco Ho Wo b ho wo c)) (cout t)) with (map (fun c => get (base + (cells + cells), cells * Cv) (r_locy c) (cell * Cv + c)) (cout t)).
  destruct (fst (lrun inp (map _ (cout t)) (rg0, sh))) as [rg1 sh1] eqn:Em1. cbn [fst snd] in *. subst sh1. rewrite L1.
  destruct (load_run k NW V nci cin pq (q_at V nci Ho Wo b ho wo) (qf b ho wo) cCin RQ t rg1 sh Ht) as (Q1 & Q2 & Q3). destruct (fst (lrun inp (load_q pq cin (q_at V nci Ho Wo b ho wo) t) (rg1, sh))) as [rg2 sh2] eqn:Em2. cbn [fst snd] in *. rewrite Q1.
  destruct (stash_run k NW V nci mid act HNW HV Hmid pw nq quad RW Hhi t rg2 sh2) as (T1 & T2 & T3 & T4). cbn [fst snd app] in *. rewrite T1. split; [reflexivity|]. split; [|split].
  - intros c Hc. rewrite T3 by (now apply (cCin t Ht)). now apply Q3.
  - intros _ x Hx Hl. now apply T4.
  - unfold SLI. cbn [Sd fold_left]. rewrite !T2, !Q2, !L3 by (try unfold CudaAttnModel.r_sum, CudaAttnModel.r_max, r_w; lia). split; [apply E1|]. split; [apply E1|]. intros c Hc. rewrite T2, Q2 by (unfold r_locy, r_w; lia). now apply L4.
Qed.
Lemma SLI_high : forall t d rg rg', (forall r, 3 <= r -> rg' r = rg r) -> SLI t d rg -> SLI t d rg'.
Proof. intros t d rg rg' E (H1 & H2 & H3). unfold SLI. rewrite !E by (unfold CudaAttnModel.r_sum, CudaAttnModel.r_max; lia). split; [exact H1|]. split; [exact H2|]. intros c Hc. rewrite E by (unfold r_locy; lia). now apply H3. Qed.
Lemma sstep_run : forall d x r t rg sh, listed act = d ++ x :: r -> t < BD -> SLI t d rg -> rg r_dot = scr x -> (true = true -> sh (w_sh V nci (fst x)) = quad (x_hi x)) ->
  let m := lrun inp (sstep x t) (rg, sh) in snd m = [] /\ snd (fst m) = sh /\ SLI t (d ++ [x]) (fst (fst m)).
Proof.
  intros d x r t rg sh E Ht (I1 & I2 & I3) Ed Hw m. subst m. specialize (Hw eq_refl). assert (Hx : In x (listed act)) by (rewrite E; apply in_elt). assert (Hd : forall y, In y d -> In y (listed act)) by (intros y Hy; rewrite E, in_app_iff; now left).
  unfold sstep. rewrite lrun_app. cbn [fst snd]. destruct (grow_run inp V nci ninf (fst x) rg sh) as (G1 & G2 & G3 & G4 & G5 & G6 & G7). destruct (fst (lrun inp (grow V nci ninf (fst x)) (rg, sh))) as [rg1 sh1] eqn:Em. cbn [fst snd] in *. subst sh1. rewrite G1. cbn [app].
  destruct (Hact x Hx) as (_ & _ & X1 & X2). destruct (loc_update inp N pv (v_at V nco H W b (x_pt x)) Cv (vf b (fst (x_pt x)) (snd (x_pt x))) (cout t) rg1 sh (proj1 (cCout t Ht)) ltac:(intros c Hc; now apply (cCout t Ht)) (RV (x_pt x) X1 X2)) as (U1 & U2 & U3 & U4 & U5).
  split; [exact U1|]. split; [exact U2|]. unfold SLI. rewrite Sd_step. unfold ring_entry. cbn [ssum smax sacc as_num].
  assert (Emx : Rmax (rg r_max) (rg r_dot) = match smax (Sd d) with None => scr x | Some m => Rmax m (scr x) end). { rewrite I2, Ed. destruct (smax (Sd d)); cbn [as_num]; [reflexivity|]. apply Rmax_right. specialize (Hscr x Hx). lra. }
  assert (Eex : (if Req_EM_T (rg r_max) ninf then 0%R else exp (rg r_max - Rmax (rg r_max) (rg r_dot))) = exp_diff (smax (Sd d)) (match smax (Sd d) with None => scr x | Some m => Rmax m (scr x) end)).
  { rewrite Emx, I2. unfold exp_diff. destruct (smax (Sd d)) as [m0|] eqn:Em0; cbn [as_num]. - assert (L := Sd_above d m0 Hd Em0). destruct (Req_EM_T m0 ninf) as [Q|Q]; [lra|reflexivity]. - destruct (Req_EM_T ninf ninf) as [Q|Q]; [reflexivity|congruence]. }
  rewrite Eex in G5, G6. rewrite Emx in G3, G4, G6. rewrite Ed, Hw in G4, G6. split; [|split].
  - etransitivity; [exact U4|]. rewrite G6, I1. ring.
  - etransitivity; [exact U5|]. exact G3.
  - intros c Hc. etransitivity; [exact (U3 c Hc)|]. rewrite G5, G4, G7 by (unfold CudaAttnModel.r_loc; lia). change (rg (CudaAttnModel.r_loc c)) with (rg (r_locy c)). rewrite I3 by exact Hc. ring.
Qed.
Lemma sfin_run : forall t rg sh, t < BD -> SLI t (listed act) rg -> snd (lrun inp (sfin t) (rg, sh)) = sFT t.
Proof.
  intros t rg sh Ht (I1 & I2 & I3). unfold sfin, sFT. cbv zeta. assert (Lc := cell_lt').
  assert (Hd : lrun inp (if t =? 0 then [set_out (s_sum B Ho Wo) cell (fun r => r r_sum); set_out (s_max B Ho Wo) cell (fun r => r r_max)] else []) (rg, sh) = ((rg, sh), if t =? 0 then [(cells + cell, USet, rg r_sum); (cell, USet, rg r_max)] else [])).
  { destruct (t =? 0); [|reflexivity]. rewrite !set_in by exact Lc. lr. reflexivity. }
  rewrite lrun_app, Hd. cbn [fst snd]. rewrite I1, I2. f_equal.
  assert (Q := put_locs inp None (s_acc V nco B Ho Wo) (cell * Cv) Cv (cout t) rg sh ltac:(intros c Hc; now apply (cCout t Ht)) acc_lt'). etransitivity; [exact Q|]. apply map_ext_in. intros c Hc. rewrite (I3 c Hc). reflexivity.
Qed.
Definition sprog : list fstep := gprog act cin pk kb sinit sfin sstep.
Lemma sprog_trace : forall st, ftrace inp BD own pub sprog st = flat_map sFT (seq 0 BD).
Proof.
  exact (group_trace k NW V nci mid act HNW HV Hmid Hlane cin (qf b ho wo) cCin Hsh pk kb K RKx sinit sfin sstep true (fun x => quad (x_hi x)) SLI sFT SLI_high sinit_run sstep_run sfin_run).
Qed.
Lemma sinit_trace : forall st, ftrace inp BD own pub [FSeg sinit; FShare] st = [].
Proof. intros st. cbn [WarpKernelProofs.ftrace ftrace1 app]. rewrite !app_nil_r. apply quiet. intros t Ht. apply (sinit_run t (st t) Ht). Qed.
Section Fine.
Variables (kind : nat -> option aop) (hl : nat -> nat * nat -> Prop) (g : nat).
Hypotheses (Ek : forall a, kind a = None) (Eo : k_outsize k = rsize V nco B Ho Wo).
Hypotheses (H1 : hl (cells + cell) (g, 0)) (H2 : hl cell (g, 0)) (H3 : forall t c, t < BD -> In c (cout t) -> hl (cells + cells + acc_at V nco Ho Wo b ho wo c) (g, t)).
Lemma sinit_fine : forall t, t < BD -> Forall (fine k own pub kind hl false g t) (sinit t).
Proof.
  intros t Ht. unfold sinit. destruct gets_sum as (G1 & _ & G2). destruct gets_max as (G3 & _ & G4). rewrite G1, G3. cbn [app]. constructor; [split; [apply Nat.ltb_lt; exact G2|]; split; [|exact I]; split; [reflexivity|]; intros a; split; intros []|]. constructor; [split; [apply Nat.ltb_lt; exact G4|]; split; [|exact I]; split; [reflexivity|]; intros a; split; intros []|].
  apply Forall_app. split; [|apply Forall_app; split].
  - apply Forall_forall. intros i Hi. apply in_map_iff in Hi. destruct Hi as (c & <- & Hc). refine (fine_get k own pub kind hl false g t inp (base + (cells + cells), cells * Cv) (cell * Cv) Cv (sacc st0) (r_locy c) c RSa' _). now apply (cCout t Ht).
  - exact (load_fine k NW V nci mid g kind hl act HNW HV Hmid cin pq _ _ cCin RQ Hsh t Ht).
  - exact (stash_fine k NW V nci mid g kind hl act HNW HV Hmid pw nq quad RW Hhi Hsh t Ht).
Qed.
Lemma sstep_fine : forall x t, In x (listed act) -> t < BD -> Forall (fine k own pub kind hl true g t) (sstep x t).
Proof.
  intros x t Hx Ht. destruct (Hact x Hx) as (_ & _ & X1 & X2). unfold sstep, grow. cbn [app]. fl; try apply fine_set. { exact (weight_fine k NW V nci mid g kind hl act HNW HV Hmid Hsh t x r_w Hx). }
  apply Forall_app. split; [|fl; apply fine_set]. apply Forall_flat. intros c Hc. fl; [|apply fine_set]. refine (fine_get k own pub kind hl true g t inp pv _ Cv _ r_t c (RV (x_pt x) X1 X2) _). now apply (cCout t Ht).
Qed.
Lemma sfin_fine : forall t, t < BD -> Forall (fine k own pub kind hl true g t) (sfin t).
Proof.
  intros t Ht. assert (Lc := cell_lt'). unfold sfin. apply Forall_app. split.
  - destruct (Nat.eqb_spec t 0) as [->|]; [|constructor]. fl; apply fine_out; cbn [fst snd s_sum s_max plus]; auto; rewrite Eo; unfold rsize; lia.
  - apply Forall_forall. intros i Hi. apply in_map_iff in Hi. destruct Hi as (c & <- & Hc). assert (Lc' : c < Cv) by (now apply (cCout t Ht)). assert (La := acc_lt' c Lc'). apply fine_out; cbn [fst snd s_acc]; auto. rewrite Eo. unfold rsize, acc_at. lia.
Qed.
Lemma sprog_good : fgood k NW own pub kind hl g false sprog.
Proof. exact (group_good k NW V nci mid g kind hl act HNW HV Hmid cin cCin Hsh pk kb K RKx sinit sfin sstep sinit_fine sstep_fine sfin_fine). Qed.
Lemma sinit_good : fgood k NW own pub kind hl g false [FSeg sinit; FShare].
Proof. cbn [fgood]. split; [exact sinit_fine|exact I]. Qed.
End Fine.
End State.
End Ctx.
