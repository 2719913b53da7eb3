(** The gather-direction ring kernels: one group of the kernels for the long rows. *)
From Coq Require Import List Arith Lia Bool ZArith Reals Lra Permutation FunctionalExtensionality.
From Verif Require Import TensorModel TensorProofs BigSum DiscoModel DiscoSortProofs DistAttnModel DistAttnProofs AttnModel AttnCoreProofs GpuModel GpuSpec GpuProofs GpuProofs2 GpuRwModel GpuRwSpec WarpProofs CudaDiscoModel CudaWarpModel WarpSumProofs CudaFwdProofs CudaAttnModel CudaAttnProofs CudaAttnLaneProofs CudaAttnFwdProofs CudaAttnFwdProofs2 WarpKernelProofs CudaKeyProofs CudaLoopProofs CudaAttnUpProofs2 CudaAttnUpProofs4 CudaRescaleModel CudaRescaleSpec GroupKernelProofs CudaRingUpSpec CudaRingModel CudaRingProofs CudaRingProofs2 CudaRingProofs3.
From Verif Require Import AttnSpec.
Import ListNotations.
Local Open Scope nat_scope.

Section Ctx.
Variables (NW V nloc nci nco H W : nat) (B Ho Wo : nat) (as_out : bool) (nq : nat) (quad : nat -> R) (kf vf qf : fld).
Notation BD := (32 * NW). Notation Ck := (V * nci). Notation Cv := (V * nco). Notation cells := (B * Ho * Wo).
Hypotheses (HNW : 1 <= NW <= 32) (HV : 1 <= V) (Hnl : 1 <= nloc) (Hout : (nloc - 1) * BD <= nco <= nloc * BD) (Hin : as_out = true -> (nloc - 1) * BD <= nci <= nloc * BD).
Variables (k : kernel) (mid b ho wo : nat) (act : list (nat * entry)).
Hypotheses (Hb : b < B) (Hho : ho < Ho) (Hwo : wo < Wo) (Hmid : length act <= mid) (Hsh : scratch V nci mid <= k_shared k).
Hypothesis Hact : forall x : item, In x (listed act) -> x_lane x < BD /\ x_hi x < nq /\ fst (x_pt x) < H /\ snd (x_pt x) < W.
Notation inp := (k_in k). Notation N := (k_insize k).
Notation cin := (rin_chans BD V nloc nci as_out). Notation clp := (rloop_chans BD V nci). Notation cout := (rout_chans BD V nloc nco).
Notation own := (rown NW V nci mid act). Notation pub := (rpub V nci act).
Notation cell := (cell_of Ho Wo b ho wo).
Variables (pk pv pq pw pm : nat * nat) (mx : nat -> R).
Hypotheses (RK : forall p, fst p < H -> snd p < W -> reads inp N pk (k_at V nci H W b p) Ck (kf b (fst p) (snd p))) (RQ : reads inp N pq (q_at V nci Ho Wo b ho wo) Ck (qf b ho wo)).
Hypotheses (RM : reads inp N pm 0 cells mx).
Notation K := (K kf b). Notation kb := (kb V nci H W b). Notation scr := (scr V nci kf qf b ho wo).
Notation RKx' := (RKx NW V nci H W nq kf k b act Hact pk RK). Notation Hlane' := (Hlane NW H W nq act Hact). Notation Hhi' := (Hhi NW H W nq act Hact).
Notation cCin := (rin_covers NW V nloc nci as_out HNW HV Hnl Hin).
Notation cCout := (rout_covers NW V nloc nco HV Hnl Hout).
Notation cClp := (rloop_covers NW V nci HNW HV).
Lemma cell_lt5 : cell < cells.
Proof. now apply cell_of_lt. Qed.
Lemma acc_lt5 : forall c, c < Cv -> cell * Cv + c < cells * Cv.
Proof. intros c Hc. apply (acc_at_lt V nco B Ho Wo b ho wo c Hb Hho Hwo Hc). Qed.
Lemma gets_m : get pm r_max cell = IGet r_max (fst pm + cell) /\ inp (fst pm + cell) = mx cell /\ fst pm + cell < N.
Proof. destruct (RM cell cell_lt5) as (A1 & A2 & A3). cbn [plus] in *. split; [unfold get; now rewrite (proj2 (Nat.ltb_lt _ _) A1)|]. auto. Qed.
Lemma get_m_fine : forall kind hl ph g t, fine k own pub kind hl ph g t (get pm r_max cell).
Proof. intros. destruct gets_m as (E & _ & L). rewrite E. split; [apply Nat.ltb_lt; exact L|]. split; [|exact I]. split; [reflexivity|]. intros a. split; intros []. Qed.

(** ** The maxima *)
Section Softmax.
Definition xmax (d : list item) : R := fold_left (fun m x => Rmax m (scr x)) d (mx cell).
Definition xinit (t : nat) : list instr := load_q pq clp (q_at V nci Ho Wo b ho wo) t ++ [get pm r_max cell].
Definition xstep (x : item) (t : nat) : list instr := [ISet r_max (fun r => Rmax (r r_max) (r r_dot))].
Definition xfin (t : nat) : list instr := if t =? 0 then [add_out AMax (0, cells) cell (fun r => r r_max)] else [].
Definition XLI (t : nat) (d : list item) (rg : nat -> R) : Prop := rg r_max = xmax d.
Definition xFT (t : nat) : list upd := if t =? 0 then [(cell, UAtom AMax, xmax (listed act))] else [].
Lemma xinit_run : forall t m, t < BD -> let m' := lrun inp (xinit t) m in snd m' = [] /\ (forall c, In c (clp t) -> snd (fst m') c = qf b ho wo c) /\
  (false = true -> forall x, In x (listed act) -> x_lane x = t -> snd (fst m') (w_sh V nci (fst x)) = (fun x : item => quad (x_hi x)) x) /\ XLI t [] (fst (fst m')).
Proof.
  intros t [rg sh] Ht m'. subst m'. unfold xinit. rewrite lrun_app. destruct (load_run k NW V nci clp pq (q_at V nci Ho Wo b ho wo) (qf b ho wo) cClp RQ t rg sh Ht) as (Q1 & Q2 & Q3). destruct (fst (lrun inp (load_q pq clp (q_at V nci Ho Wo b ho wo) t) (rg, sh))) as [rg2 sh2] eqn:Em2. cbn [fst snd] in *. rewrite Q1.
  destruct gets_m as (E & Ev & _). rewrite E, lrun_cons. cbn [reg_of sh_of emit fst snd app lrun fold_left]. split; [reflexivity|]. split; [exact Q3|]. split; [discriminate|]. unfold XLI. rewrite put_eq, Ev. reflexivity.
Qed.
Lemma xprog_trace : forall st, ftrace inp BD own pub (gprog act clp pk kb xinit xfin xstep) st = flat_map xFT (seq 0 BD).
Proof.
  refine (group_trace k NW V nci mid act HNW HV Hmid Hlane' clp (qf b ho wo) cClp Hsh pk kb K RKx' xinit xfin xstep false (fun x => quad (x_hi x)) XLI xFT _ xinit_run _ _).
  - intros t d rg rg' E Q. unfold XLI in *. rewrite E by (unfold CudaAttnModel.r_max; lia). exact Q.
  - intros d x r t rg sh E Ht Q Ed _. unfold xstep, XLI in *. lr. split; [reflexivity|]. split; [reflexivity|]. rewrite put_eq, Ed, Q. unfold xmax. rewrite fold_left_app. reflexivity.
  - intros t rg sh Ht Q. unfold xfin, xFT. destruct (t =? 0); [|reflexivity]. rewrite add_in by exact cell_lt5. lr. unfold XLI in Q. rewrite Q. reflexivity.
Qed.
Lemma xprog_good : forall kind hl g, (forall a, kind a = Some AMax) -> k_outsize k = cells -> fgood k NW own pub kind hl g false (gprog act clp pk kb xinit xfin xstep).
Proof.
  intros kind hl g Ek Eo. refine (group_good k NW V nci mid g kind hl act HNW HV Hmid clp cClp Hsh pk kb K RKx' xinit xfin xstep _ _ _).
  - intros t Ht. unfold xinit. apply Forall_app. split; [exact (load_fine k NW V nci mid g kind hl act HNW HV Hmid clp pq _ _ cClp RQ Hsh t Ht)|]. constructor; [apply get_m_fine|constructor].
  - intros x t Hx Ht. unfold xstep. constructor; [apply fine_set|constructor].
  - intros t Ht. unfold xfin. destruct (t =? 0); [|constructor]. constructor; [|constructor]. apply fine_add; cbn [fst snd plus]; [exact cell_lt5|rewrite Eo; exact cell_lt5|apply Ek].
Qed.
End Softmax.

(** ** The sums *)
Section Final.
Hypotheses (RV : forall p, fst p < H -> snd p < W -> reads inp N pv (v_at V nco H W b p) Cv (vf b (fst p) (snd p))) (RW : reads inp N pw 0 nq quad).
Definition al (x : item) : R := (exp (scr x - mx cell) * quad (x_hi x))%R.
Definition zinit (t : nat) : list instr := [ISet r_sum (fun _ => 0%R); get pm r_max cell] ++ map (fun c => ISet (r_locy c) (fun _ => 0%R)) (cout t) ++ load_q pq cin (q_at V nci Ho Wo b ho wo) t ++ stash V nci pw act t.
Definition zstep (x : item) (t : nat) : list instr := [ILoad r_w (w_sh V nci (fst x)); ISet r_alpha (fun r => exp (r r_dot - r r_max) * r r_w)%R; ISet r_sum (fun r => r r_sum + r r_alpha)%R] ++
  flat_map (fun c => [get pv r_t (v_at V nco H W b (x_pt x) + c); ISet (r_locy c) (fun r => r (r_locy c) + r r_alpha * r r_t)%R]) (cout t).
Definition zfin (t : nat) : list instr := (if t =? 0 then [add_out AAdd (f_sum B Ho Wo) cell (fun r => r r_sum)] else []) ++ map (fun c => add_out AAdd (f_acc V nco B Ho Wo) (acc_at V nco Ho Wo b ho wo c) (fun r => r (r_locy c))) (cout t).
Definition zsum (d : list item) : R := rlsum al d.
Definition zacc (d : list item) (c : nat) : R := rlsum (fun x => al x * vf b (fst (x_pt x)) (snd (x_pt x)) c)%R d.
Definition ZLI (t : nat) (d : list item) (rg : nat -> R) : Prop := rg r_max = mx cell /\ rg r_sum = zsum d /\ forall c, In c (cout t) -> rg (r_locy c) = zacc d c.
Definition zFT (t : nat) : list upd := (if t =? 0 then [(cell, UAtom AAdd, zsum (listed act))] else []) ++ map (fun c => (cells + acc_at V nco Ho Wo b ho wo c, UAtom AAdd, zacc (listed act) c)) (cout t).
Lemma zinit_run : forall t m, t < BD -> let m' := lrun inp (zinit t) m in snd m' = [] /\ (forall c, In c (cin t) -> snd (fst m') c = qf b ho wo c) /\
  (true = true -> forall x, In x (listed act) -> x_lane x = t -> snd (fst m') (w_sh V nci (fst x)) = quad (x_hi x)) /\ ZLI t [] (fst (fst m')).
Proof.
  intros t [rg sh] Ht m'. subst m'. unfold zinit. destruct gets_m as (G1 & G2 & _). rewrite G1. cbn [app]. rewrite !lrun_cons. cbn [reg_of sh_of emit fst snd app]. rewrite G2.
  set (rg0 := put r_max _ _). assert (E1 : rg0 r_sum = 0%R /\ rg0 r_max = mx cell) by (unfold rg0; rewrite put_eq, put_ne, put_eq by (unfold CudaAttnModel.r_sum, CudaAttnModel.r_max; lia); auto). clearbody rg0. rewrite !lrun_app. cbn [fst snd].
  destruct (zero_locys inp (cout t) rg0 sh) as (L1 & L2 & L3 & L4).
  destruct (fst (lrun inp (map _ (cout t)) (rg0, sh))) as [rg1 sh1] eqn:Em1. cbn [fst snd] in *. subst sh1. rewrite L1.
  destruct (load_run k NW V nci cin pq (q_at V nci Ho Wo b ho wo) (qf b ho wo) cCin RQ t rg1 sh Ht) as (Q1 & Q2 & Q3). destruct (fst (lrun inp (load_q pq cin (q_at V nci Ho Wo b ho wo) t) (rg1, sh))) as [rg2 sh2] eqn:Em2. cbn [fst snd] in *. rewrite Q1.
  destruct (stash_run k NW V nci mid act HNW HV Hmid pw nq quad RW Hhi' t rg2 sh2) as (T1 & T2 & T3 & T4). cbn [fst snd app] in *. rewrite T1. split; [reflexivity|]. split; [|split].
  - intros c Hc. rewrite T3 by (now apply (cCin t Ht)). now apply Q3.
  - intros _ x Hx Hl. now apply T4.
  - unfold ZLI. rewrite !T2, !Q2, !L3 by (try unfold CudaAttnModel.r_sum, CudaAttnModel.r_max, r_w; lia). split; [apply E1|]. split; [apply E1|]. intros c Hc. rewrite T2, Q2 by (unfold r_locy, r_w; lia). rewrite L4 by exact Hc. reflexivity.
Qed.
Lemma zstep_run : forall d x r t rg sh, listed act = d ++ x :: r -> t < BD -> ZLI t d rg -> rg r_dot = scr x -> (true = true -> sh (w_sh V nci (fst x)) = quad (x_hi x)) ->
  let m := lrun inp (zstep x t) (rg, sh) in snd m = [] /\ snd (fst m) = sh /\ ZLI t (d ++ [x]) (fst (fst m)).
Proof.
  intros d x r t rg sh E Ht (I1 & I2 & I3) Ed Hw m. subst m. specialize (Hw eq_refl). assert (Hx : In x (listed act)) by (rewrite E; apply in_elt). destruct (Hact x Hx) as (_ & _ & X1 & X2).
  unfold zstep. cbn [app]. rewrite !lrun_cons. cbn [reg_of sh_of emit fst snd app]. set (rg1 := put r_sum _ _).
  assert (P1 : rg1 r_max = mx cell /\ rg1 r_alpha = al x /\ rg1 r_sum = (zsum d + al x)%R /\ forall c, rg1 (r_locy c) = rg (r_locy c)).
  { unfold rg1, put, al. cbn [Nat.eqb r_t r_dot r_alpha CudaAttnModel.r_sum CudaAttnModel.r_max r_w r_locy Nat.add]. rewrite <- Hw, <- I2, <- I1. change CudaAttnModel.r_dot with r_dot in Ed. rewrite <- Ed. repeat split; reflexivity. }
  clearbody rg1. destruct P1 as (P1 & P2 & P3 & P4).
  destruct (add_locs inp N pv (v_at V nco H W b (x_pt x)) Cv (vf b (fst (x_pt x)) (snd (x_pt x))) (cout t) rg1 sh (proj1 (cCout t Ht)) ltac:(intros c Hc; now apply (cCout t Ht)) (RV (x_pt x) X1 X2)) as (U1 & U2 & U3 & U4).
  split; [exact U1|]. split; [exact U2|]. unfold ZLI, zsum, zacc. split; [etransitivity; [apply U3; unfold CudaAttnModel.r_max; lia|exact P1]|]. split.
  - etransitivity; [apply U3; unfold CudaAttnModel.r_sum; lia|]. rewrite P3, (lsum_app RT). cbn [lsum_ fold_right]. unfold zsum. ring.
  - intros c Hc. etransitivity; [exact (U4 c Hc)|]. rewrite P2, P4, I3 by exact Hc. rewrite (lsum_app RT). cbn [lsum_ fold_right]. unfold zacc. ring.
Qed.
Lemma zprog_trace : forall st, ftrace inp BD own pub (gprog act cin pk kb zinit zfin zstep) st = flat_map zFT (seq 0 BD).
Proof.
  refine (group_trace k NW V nci mid act HNW HV Hmid Hlane' cin (qf b ho wo) cCin Hsh pk kb K RKx' zinit zfin zstep true (fun x => quad (x_hi x)) ZLI zFT _ zinit_run zstep_run _).
  - intros t d rg rg' E (Q1 & Q2 & Q3). unfold ZLI. rewrite !E by (unfold CudaAttnModel.r_max, CudaAttnModel.r_sum; lia). split; [exact Q1|]. split; [exact Q2|]. intros c Hc. rewrite E by (unfold r_locy; lia). auto.
  - intros t rg sh Ht (I1 & I2 & I3). unfold zfin, zFT.
    assert (Hd : lrun inp (if t =? 0 then [add_out AAdd (f_sum B Ho Wo) cell (fun r => r r_sum)] else []) (rg, sh) = ((rg, sh), if t =? 0 then [(cell, UAtom AAdd, rg r_sum)] else [])). { destruct (t =? 0); [|reflexivity]. rewrite add_in by exact cell_lt5. lr. reflexivity. }
    rewrite lrun_app, Hd. cbn [fst snd]. rewrite I2. f_equal.
    assert (Q := put_locs inp (Some AAdd) (f_acc V nco B Ho Wo) (cell * Cv) Cv (cout t) rg sh ltac:(intros c Hc; now apply (cCout t Ht)) acc_lt5). etransitivity; [exact Q|]. apply map_ext_in. intros c Hc. rewrite (I3 c Hc). reflexivity.
Qed.
Lemma zprog_good : forall kind hl g, (forall a, kind a = Some AAdd) -> k_outsize k = cells + cells * Cv -> fgood k NW own pub kind hl g false (gprog act cin pk kb zinit zfin zstep).
Proof.
  intros kind hl g Ek Eo. refine (group_good k NW V nci mid g kind hl act HNW HV Hmid cin cCin Hsh pk kb K RKx' zinit zfin zstep _ _ _).
  - intros t Ht. unfold zinit. cbn [app]. constructor; [apply fine_set|]. constructor; [apply get_m_fine|]. apply Forall_app. split; [apply Forall_forall; intros i Hi; apply in_map_iff in Hi; destruct Hi as (c & <- & _); apply fine_set|]. apply Forall_app. split.
    + exact (load_fine k NW V nci mid g kind hl act HNW HV Hmid cin pq _ _ cCin RQ Hsh t Ht).
    + exact (stash_fine k NW V nci mid g kind hl act HNW HV Hmid pw nq quad RW Hhi' Hsh t Ht).
  - intros x t Hx Ht. destruct (Hact x Hx) as (_ & _ & X1 & X2). unfold zstep. cbn [app]. constructor; [exact (weight_fine k NW V nci mid g kind hl act HNW HV Hmid Hsh t x r_w Hx)|]. constructor; [apply fine_set|]. constructor; [apply fine_set|].
    apply Forall_flat. intros c Hc. constructor; [|constructor; [apply fine_set|constructor]]. refine (fine_get k own pub kind hl true g t inp pv _ Cv _ r_t c (RV (x_pt x) X1 X2) _). now apply (cCout t Ht).
  - intros t Ht. assert (Lc := cell_lt5). unfold zfin. apply Forall_app. split.
    + destruct (t =? 0); [|constructor]. constructor; [|constructor]. apply fine_add; cbn [fst snd plus f_sum]; auto. rewrite Eo. lia.
    + apply Forall_forall. intros i Hi. apply in_map_iff in Hi. destruct Hi as (c & <- & Hc). assert (Lc' : c < Cv) by (now apply (cCout t Ht)). assert (La := acc_lt5 c Lc'). apply fine_add; cbn [fst snd f_acc]; auto. rewrite Eo. unfold acc_at. lia.
Qed.
End Final.
End Ctx.

(** ** The state after a list of entries, all at once *)
Definition erun (s w : nat * (nat * nat) -> R) (v : nat * (nat * nat) -> nat -> R) (d : list (nat * (nat * nat))) (st : rst) : rst := fold_left (fun st e => ring_entry (s e) (w e) (v e) st) d st.
Lemma erun_snoc : forall s w v d e st, erun s w v (d ++ [e]) st = ring_entry (s e) (w e) (v e) (erun s w v d st).
Proof. intros. unfold erun. now rewrite fold_left_app. Qed.
Lemma erun_max : forall ninf s w v d st, (forall e, In e d -> (ninf < s e)%R) -> as_num ninf (smax (erun s w v d st)) = fold_left Rmax (map s d) (as_num ninf (smax st)).
Proof.
  intros ninf s w v d. induction d as [|e d IH] using rev_ind; intros st Hs; [reflexivity|]. unfold erun. rewrite map_app, !fold_left_app. cbn [fold_left map]. change (fold_left (fun st0 e0 => ring_entry (s e0) (w e0) (v e0) st0) d st) with (erun s w v d st).
  rewrite <- IH by (intros; apply Hs; apply in_app_iff; auto). unfold ring_entry. cbn [smax as_num]. destruct (smax (erun s w v d st)); cbn [as_num]; [reflexivity|]. assert (Q : (ninf < s e)%R) by (apply Hs, in_elt). rewrite Rmax_right by lra. reflexivity.
Qed.
Lemma erun_some : forall s w v d st, smax (erun s w v d st) = None -> d = [] /\ smax st = None.
Proof.
  intros s w v d. induction d as [|e d IH] using rev_ind; intros st E; [auto|]. unfold erun in E. rewrite fold_left_app in E. cbn [fold_left] in E. unfold ring_entry in E. cbn [smax] in E. discriminate.
Qed.
Lemma rescale_more : forall m m1 st, ssum (rescale (Some m1) st) = (ssum (rescale (Some m) st) * exp (m - m1))%R /\ forall c, sacc (rescale (Some m1) st) c = (sacc (rescale (Some m) st) c * exp (m - m1))%R.
Proof.
  intros m m1 st.
  assert (G : forall z, match smax st with None => ssum (rescale (Some z) st) = (ssum st * 0)%R /\ forall c, sacc (rescale (Some z) st) c = (sacc st c * 0)%R | Some y => ssum (rescale (Some z) st) = (ssum st * exp (y - z))%R /\ forall c, sacc (rescale (Some z) st) c = (sacc st c * exp (y - z))%R end).
  { intros z. unfold rescale. destruct (smax st) as [y|]; [|split; reflexivity]. destruct (Req_EM_T y z) as [->|Ne]; [|split; reflexivity]. rewrite Rminus_diag_eq by reflexivity. rewrite exp_0. split; intros; ring. }
  assert (G1 := G m). assert (G2 := G m1). destruct (smax st) as [y|].
  - assert (Ex : exp (y - m1) = (exp (y - m) * exp (m - m1))%R) by (rewrite <- exp_plus; f_equal; ring). destruct G1 as [A1 A2]. destruct G2 as [B1 B2]. split; [|intros c]; [rewrite A1, B1, Ex|rewrite A2, B2, Ex]; ring.
  - destruct G1 as [A1 A2]. destruct G2 as [B1 B2]. split; [|intros c]; [rewrite A1, B1|rewrite A2, B2]; ring.
Qed.
Lemma rescale_own : forall st, rescale (smax st) st = st.
Proof. intros st. unfold rescale. destruct (smax st) as [m|]; [|reflexivity]. destruct (Req_EM_T m m); [reflexivity|congruence]. Qed.
Lemma erun_closed : forall s w v d st m, smax (erun s w v d st) = Some m -> 
  ssum (erun s w v d st) = (ssum (rescale (Some m) st) + rlsum (fun e => exp (s e - m) * w e) d)%R /\ forall c, sacc (erun s w v d st) c = (sacc (rescale (Some m) st) c + rlsum (fun e => exp (s e - m) * w e * v e c) d)%R.
Proof.
  intros s w v d. induction d as [|e d IH] using rev_ind; intros st m E.
  - cbn [erun fold_left lsum_ fold_right] in *. assert (Q := rescale_own st). rewrite E in Q. rewrite Q. split; intros; ring.
  - rewrite erun_snoc in *. unfold ring_entry in E |- *. cbn [smax ssum sacc] in E |- *. destruct (smax (erun s w v d st)) as [m0|] eqn:E0.
    + injection E as Em. rewrite Em. destruct (IH st m0 E0) as [A1 A2]. destruct (rescale_more m0 m st) as [R1 R2]. cbn [exp_diff].
      assert (Ex : forall e', (exp (s e' - m) = exp (s e' - m0) * exp (m0 - m))%R) by (intros e'; rewrite <- exp_plus; f_equal; ring).
      split; [|intros c]; rewrite (lsum_app RT); cbn [lsum_ fold_right]; [rewrite R1, A1|rewrite R2, A2].
      * rewrite (lsum_ext _ (fun e' => exp (s e' - m) * w e')%R (fun e' => exp (s e' - m0) * w e' * exp (m0 - m))%R) by (intros; rewrite Ex; ring). rewrite (lsum_scal_r RT). ring.
      * rewrite (lsum_ext _ (fun e' => exp (s e' - m) * w e' * v e' c)%R (fun e' => exp (s e' - m0) * w e' * v e' c * exp (m0 - m))%R) by (intros; rewrite Ex; ring). rewrite (lsum_scal_r RT). ring.
    + injection E as Em. destruct (erun_some s w v d st E0) as [-> E1]. cbn [erun fold_left exp_diff app lsum_ fold_right]. unfold rescale. rewrite E1. cbn [ssum sacc]. rewrite Em. split; intros; ring.
Qed.
