(** The backward ring kernels, pass 1: the updates one group makes. *)
From Coq Require Import List Arith Lia Bool ZArith Reals Lra Permutation FunctionalExtensionality.
From Verif Require Import TensorModel TensorProofs BigSum DiscoModel DiscoSortProofs DistAttnModel DistAttnBwdModel DistAttnProofs AttnModel AttnCoreProofs GpuModel GpuSpec GpuProofs GpuProofs2 WarpProofs CudaDiscoModel CudaWarpModel WarpSumProofs CudaFwdProofs CudaAttnModel CudaAttnProofs CudaAttnLaneProofs CudaAttnFwdProofs CudaAttnFwdProofs2 WarpKernelProofs CudaKeyProofs CudaLoopProofs CudaAttnUpModel CudaAttnBwdModel CudaAttnUpProofs2 CudaAttnUpProofs4 CudaRescaleModel CudaRescaleSpec GroupKernelProofs CudaRingUpSpec CudaRingModel CudaRingProofs CudaRingProofs2 CudaRingProofs6 CudaRingBwdModel CudaRingBwdProofs CudaRingBwdProofs2 CudaRingBwdProofs6.
From Verif Require DistAttnBwdProofs.
From Verif Require Import AttnSpec.
Import ListNotations.
Local Open Scope nat_scope.
Notation ext := DistAttnBwdProofs.ext.
(** the channel of a slot in the packed state *)
Definition ech (Ck : nat) (s : nat * nat) : nat := match fst s with 3 => 1 + snd s | 4 => 1 + Ck + snd s | _ => 0 end.
(** what an entry with products [g] and key [k] adds to a slot, per unit of alpha *)
Definition ewt (Ck : nat) (g : R) (k : nat -> R) (s : nat * nat) : R := if fst s =? 0 then 1%R else ext Ck g k (ech Ck s).
Lemma ewt_val : forall Ck g k s, fst s < 5 -> fst s <> 1 -> (3 <= fst s -> snd s < Ck) -> ewt Ck g k s = match fst s with 0 => 1%R | 2 => g | 3 => k (snd s) | _ => (g * k (snd s))%R end.
Proof.
  intros Ck g k [i x] Hi Ne Hx. cbn [fst snd] in *. unfold ewt, ech, ext. cbn [fst snd]. destruct i as [|[|[|[|[|]]]]]; try lia; cbn [Nat.eqb]; [reflexivity|reflexivity| |].
  - specialize (Hx ltac:(lia)). replace (1 + x =? 0) with false by reflexivity. rewrite (proj2 (Nat.leb_le _ _)) by lia. f_equal. lia.
  - specialize (Hx ltac:(lia)). replace (1 + Ck + x =? 0) with false by reflexivity. rewrite (proj2 (Nat.leb_gt _ _)) by lia. f_equal. f_equal. lia.
Qed.

Lemma flat_nil2 : forall A B C (q : list B) (l : list A), flat_map (fun _ => flat_map (fun _ => @nil C) q) l = [].
Proof. intros. assert (E : flat_map (fun _ : B => @nil C) q = []) by (induction q as [|y q IH]; [reflexivity|exact IH]). rewrite E. induction l as [|x l IH]; [reflexivity|exact IH]. Qed.

Section Ctx.
Variables (NW V nloc nci nco H W : nat) (B Ho Wo : nat) (as_in : bool) (nq : nat) (quad : nat -> R) (kf vf qf df : fld).
Notation BD := (32 * NW). Notation Ck := (V * nci). Notation Cv := (V * nco). Notation cells := (B * Ho * Wo).
Hypotheses (HNW : 1 <= NW <= 32) (HV : 1 <= V) (Hnl : 1 <= nloc) (Hci : (nloc - 1) * BD <= nci <= nloc * BD) (Hco : as_in = true -> (nloc - 1) * BD <= nco <= nloc * BD).
Notation cin := (bin_chans BD V nloc nci). Notation cout := (bout_chans BD V nloc nco as_in).
Notation slots := (slots NW V nloc nci). Notation fslots := (fslots NW V nloc nci). Notation bnch := (bnch V nci). Notation barr := (barr V nci B Ho Wo). Notation farr := (farr V nci B Ho Wo). Notation boff := (boff V nci). Notation baddr := (baddr V nci B Ho Wo).
Variables (b ho wo : nat) (act : list (nat * entry)) (pk pv pq pdy pw : nat * nat).
Notation cell := (cell_of Ho Wo b ho wo).
Notation prog pre fin step := (bprog V nci nco act cin cout pk pv pq pdy pw (q_at V nci Ho Wo b ho wo) (dy_at V nco Ho Wo b ho wo) (kk V nci H W b) (vv V nco H W b) pre fin step).
Definition psc (x : item) : R := dot Ck (qf b ho wo) (kf b (fst (x_pt x)) (snd (x_pt x))).
Definition pgv (x : item) : R := dot Cv (df b ho wo) (vf b (fst (x_pt x)) (snd (x_pt x))).
Definition pk_of (x : item) : nat -> R := kf b (fst (x_pt x)) (snd (x_pt x)).
Variables (k : kernel) (mid : nat).
Notation inp := (k_in k). Notation N := (k_insize k).
Notation own := (bown NW V nci nco mid act). Notation pub := (bpub V nci nco false act).
Definition cell_hyps : Prop :=
  (b < B /\ ho < Ho /\ wo < Wo /\ length act <= mid) /\ (forall x, In x (listed act) -> x_lane x < BD) /\ (forall x, In x (listed act) -> x_hi x < nq) /\ (forall x, In x (listed act) -> fst (x_pt x) < H /\ snd (x_pt x) < W) /\
  (forall x, In x (listed act) -> reads inp N pk (k_at V nci H W b (x_pt x)) Ck (kf b (fst (x_pt x)) (snd (x_pt x)))) /\
  (forall x, In x (listed act) -> reads inp N pv (v_at V nco H W b (x_pt x)) Cv (vf b (fst (x_pt x)) (snd (x_pt x)))) /\
  reads inp N pq (q_at V nci Ho Wo b ho wo) Ck (qf b ho wo) /\ reads inp N pdy (dy_at V nco Ho Wo b ho wo) Cv (df b ho wo) /\ reads inp N pw 0 nq quad /\ bscratch V nci nco mid <= k_shared k.
Hypothesis (HC : cell_hyps).
Lemma pcell_lt : cell < cells.
Proof. destruct HC as ((H1 & H2 & H3 & _) & _). now apply cell_of_lt. Qed.
Lemma prog_good : forall kind hl g pre fin step, (forall t, t < BD -> Forall (fine k own pub kind hl false g t) (pre t)) -> (forall x t, In x (listed act) -> t < BD -> Forall (fine k own pub kind hl true g t) (step x t)) -> (forall t, t < BD -> Forall (fine k own pub kind hl true g t) (fin t)) ->
  fgood k NW own pub kind hl g false (prog pre fin step).
Proof.
  intros kind hl g pre fin step. destruct HC as ((C1 & C2 & C3 & C4) & C5 & C6 & C7 & C8 & C9 & C10 & C11 & C12 & C13).
  exact (bgroup_good k NW V nci nco mid g kind hl false act HNW HV C4 cin cout pk pv pq pdy pw _ _ nq _ _ (Kf kf b) (Kf vf b) (qf b ho wo) (df b ho wo) quad (bin_covers NW V nloc nci HV Hnl Hci) (bout_covers NW V nloc nco as_in HNW HV Hnl Hco) C10 C11 C12 C8 C9 C6 C13 pre fin step).
Qed.
Lemma prog_trace : forall pre fin step (LI : nat -> list item -> (nat -> R) -> Prop) FT,
  (forall t d rg rg', (forall r, keep r -> rg' r = rg r) -> LI t d rg -> LI t d rg') ->
  (forall t m, t < BD -> let m' := lrun inp (pre t) m in snd m' = [] /\ LI t [] (fst (fst m'))) ->
  (forall d x r t rg sh, listed act = d ++ x :: r -> t < BD -> LI t d rg -> rg r_dot = psc x -> rg r_gd = pgv x -> sh (bw_sh V nci nco (fst x)) = quad (x_hi x) -> let m := lrun inp (step x t) (rg, sh) in snd m = [] /\ snd (fst m) = sh /\ LI t (d ++ [x]) (fst (fst m))) ->
  (forall t rg sh, t < BD -> LI t (listed act) rg -> snd (lrun inp (fin t) (rg, sh)) = FT t) ->
  forall st, ftrace inp BD own pub (prog pre fin step) st = flat_map FT (seq 0 BD).
Proof.
  intros pre fin step LI FT LIf HI HS HF st. destruct HC as ((C1 & C2 & C3 & C4) & C5 & C6 & C7 & C8 & C9 & C10 & C11 & C12 & C13).
  etransitivity; [refine (bgroup_trace k NW V nci nco mid false act HNW HV C4 C5 cin cout pk pv pq pdy pw _ _ nq _ _ (Kf kf b) (Kf vf b) (qf b ho wo) (df b ho wo) quad (bin_covers NW V nloc nci HV Hnl Hci) (bout_covers NW V nloc nco as_in HNW HV Hnl Hco) C10 C11 C12 C8 C9 C6 C13 pre fin step LI (fun _ _ => []) FT LIf HI _ HF st)|].
  - intros d x r t rg sh E Ht I1 E1 E2 E3 _ _. now apply (HS d x r t rg sh).
  - transitivity ([] ++ flat_map FT (seq 0 BD)); [|reflexivity]. f_equal. apply flat_nil2.
Qed.

(** ** Short rows *)
Section State.
Variables (ninf : R) (base : nat) (out : nat -> R) (st0 : bst).
Hypotheses (RS : forall i, i < 5 -> reads inp N (base + fst (barr i), snd (barr i)) 0 (snd (barr i)) (fun a => out (fst (barr i) + a))).
Hypothesis (HO : forall s, fst s < 5 -> snd s < bnch (fst s) -> out (baddr cell s) = bval ninf st0 s).
Hypothesis (Habove : forall m, b_max st0 = Some m -> (ninf < m)%R).
Hypothesis (Hscr : forall x, In x (listed act) -> (ninf < psc x)%R).
Definition pvis (st : bst) (x : item) : bst := bring_entry (psc x) (pgv x) (quad (x_hi x)) (pk_of x) st.
Definition Pd (d : list item) : bst := fold_left pvis d st0.
Lemma Pd_step : forall d x, Pd (d ++ [x]) = bring_entry (psc x) (pgv x) (quad (x_hi x)) (pk_of x) (Pd d).
Proof. intros. unfold Pd. rewrite fold_left_app. reflexivity. Qed.
Lemma Pd_above : forall d m, (forall x, In x d -> In x (listed act)) -> b_max (Pd d) = Some m -> (ninf < m)%R.
Proof.
  intros d. induction d as [|x d IH] using rev_ind; intros m Hd E; [now apply Habove|]. rewrite Pd_step in E. unfold bring_entry in E. cbn [b_max] in E. assert (Sx : (ninf < psc x)%R) by (apply Hscr, Hd, in_elt).
  destruct (b_max (Pd d)) as [m0|] eqn:E0; injection E as <-; [|exact Sx]. assert (Q := Rmax_r m0 (psc x)). lra.
Qed.
Definition PLI (t : nat) (d : list item) (rg : nat -> R) : Prop := rg r_sum = b_sum (Pd d) /\ rg r_max = as_num ninf (b_max (Pd d)) /\ rg r_int = b_int (Pd d) /\ forall c, In c (cin t) -> rg (r_lk c) = b_k (Pd d) c /\ rg (r_lkvw c) = b_kvw (Pd d) c.
Definition s_pre (t : nat) : list instr := [get_s base (b_ssum B Ho Wo) r_sum cell; get_s base (b_smax B Ho Wo) r_max cell; get_s base (b_sint B Ho Wo) r_int cell] ++
  flat_map (fun c => [get_s base (b_sk V nci B Ho Wo) (r_lk c) (bk_at V nci Ho Wo b ho wo c); get_s base (b_skvw V nci B Ho Wo) (r_lkvw c) (bk_at V nci Ho Wo b ho wo c)]) (cin t).
Definition s_step (x : item) (t : nat) : list instr := bgrow V nci nco ninf (fst x) ++
  flat_map (fun c => [get pk r_t (k_at V nci H W b (x_pt x) + c); ISet (r_lk c) (fun r => r r_exp * r (r_lk c) + r r_alpha * r r_t)%R; ISet (r_lkvw c) (fun r => r r_exp * r (r_lkvw c) + r r_ag * r r_t)%R]) (cin t) ++ [ISet r_max (fun r => r r_new)].
Definition s_fin (t : nat) : list instr := map (fun s => set_out (barr (fst s)) (boff cell s) (fun r => r (rg_of s))) (slots t).
Definition sprog1 : list fstep := prog s_pre s_fin s_step.
Lemma s_expand : expand BD (bscratch V nci nco mid) sprog1 = p1_body BD V nloc nci nco H W B Ho Wo as_in ninf mid base pk pv pq pdy pw b ho wo act.
Proof.
  unfold sprog1, bprog, p1_body. cbv zeta. rewrite !expand_app, expand_flat. unfold expand at 1 3. cbn [flat_map expand1 app]. f_equal. f_equal. f_equal.
  - apply flat_map_ext. intros [i [l [hi p]]]. unfold bentry, p1_entry, bring_sum, bdseg, bdots, s_step, x_pt, the_sum. cbn [expand flat_map expand1 app fst snd]. rewrite <- ?app_assoc. reflexivity.
  - f_equal. f_equal. apply functional_extensionality. intros t. unfold s_fin, CudaRingBwdProofs6.slots. rewrite map_fin. reflexivity.
Qed.
Lemma gets3 : forall i r, i < 3 -> get_s base (barr i) r cell = IGet r (base + fst (barr i) + cell) /\ inp (base + fst (barr i) + cell) = bval ninf st0 (i, 0) /\ base + fst (barr i) + cell < N.
Proof.
  intros i r Hi. assert (L := pcell_lt). assert (Lb : cell < snd (barr i)) by (destruct i as [|[|[|]]]; try lia; exact L). destruct (RS i ltac:(lia) cell Lb) as (A1 & A2 & A3). cbn [fst snd plus] in *. split; [unfold get_s, get; cbn [fst snd]; now rewrite (proj2 (Nat.ltb_lt _ _) Lb)|]. split; [|exact A2]. rewrite A3.
  rewrite <- (HO (i, 0)); [|cbn [fst]; lia|unfold CudaRingBwdProofs6.bnch; cbn [fst snd]; rewrite (proj2 (Nat.ltb_lt _ _) Hi); lia]. unfold CudaRingBwdProofs6.baddr, CudaRingBwdProofs6.boff. cbn [fst snd]. now rewrite (proj2 (Nat.ltb_lt _ _) Hi).
Qed.
Lemma RSk : forall i, 3 <= i < 5 -> reads inp N (base + fst (barr i), snd (barr i)) (cell * Ck) Ck (fun c => bval ninf st0 (i, c)).
Proof.
  intros i Hi c Hc. assert (L := pcell_lt). assert (Lb : cell * Ck + c < snd (barr i)). { assert (cell * Ck + c < cells * Ck) by nia. destruct i as [|[|[|[|[|]]]]]; try lia; exact H0. }
  destruct (RS i ltac:(lia) _ Lb) as (A1 & A2 & A3). cbn [fst snd plus] in *. split; [exact A1|]. split; [exact A2|]. rewrite A3.
  rewrite <- (HO (i, c)); [|cbn [fst]; lia|unfold CudaRingBwdProofs6.bnch; cbn [fst snd]; rewrite (proj2 (Nat.ltb_ge _ _)) by lia; exact Hc]. unfold CudaRingBwdProofs6.baddr, CudaRingBwdProofs6.boff. cbn [fst snd]. now rewrite (proj2 (Nat.ltb_ge _ _)) by lia.
Qed.
Notation cC := (bin_covers NW V nloc nci HV Hnl Hci).
Lemma s_pre_run : forall t m, t < BD -> let m' := lrun inp (s_pre t) m in snd m' = [] /\ PLI t [] (fst (fst m')).
Proof.
  intros t [rg sh] Ht m'. subst m'. unfold s_pre. destruct (gets3 0 r_sum ltac:(lia)) as (G1 & G2 & _). destruct (gets3 1 r_max ltac:(lia)) as (G3 & G4 & _). destruct (gets3 2 r_int ltac:(lia)) as (G5 & G6 & _). cbn [CudaRingBwdProofs6.barr] in *. rewrite G1, G3, G5. cbn [app]. rewrite !lrun_cons. cbn [reg_of sh_of emit fst snd app]. rewrite G2, G4, G6.
  set (rg0 := put r_int _ _). assert (E1 : rg0 r_sum = b_sum st0 /\ rg0 r_max = as_num ninf (b_max st0) /\ rg0 r_int = b_int st0) by (unfold rg0; pe; auto). clearbody rg0.
  destruct (load2 inp N _ _ (cell * Ck) (cell * Ck) Ck _ _ (cin t) rg0 sh ltac:(intros c Hc; now apply (cC t Ht)) (RSk 3 ltac:(lia)) (RSk 4 ltac:(lia))) as (L1 & L2 & L3 & L4).
  split; [exact L1|]. unfold PLI. cbn [Pd fold_left]. destruct E1 as (E1 & E2 & E3).
  split; [etransitivity; [apply L3; unfold CudaAttnModel.r_sum; lia|exact E1]|]. split; [etransitivity; [apply L3; unfold CudaAttnModel.r_max; lia|exact E2]|]. split; [etransitivity; [apply L3; unfold r_int; lia|exact E3]|]. intros c Hc. exact (L4 c Hc).
Qed.
Lemma PLI_keep : forall t d rg rg', (forall r, keep r -> rg' r = rg r) -> PLI t d rg -> PLI t d rg'.
Proof.
  intros t d rg rg' E (H1 & H2 & H3 & H4). assert (Kk : forall r, 13 <= r \/ r = 3 \/ r = 4 -> rg' r = rg r) by (intros r Hr; apply E; unfold keep, r_t, r_u, r_dot, r_gd, r_w; lia). unfold PLI. rewrite !Kk by (unfold CudaAttnModel.r_sum, CudaAttnModel.r_max, r_int; lia). split; [exact H1|]. split; [exact H2|]. split; [exact H3|]. intros c Hc. rewrite !Kk by (unfold r_lk, r_lkvw; lia). now apply H4.
Qed.
Lemma s_step_run : forall d x r t rg sh, listed act = d ++ x :: r -> t < BD -> PLI t d rg -> rg r_dot = psc x -> rg r_gd = pgv x -> sh (bw_sh V nci nco (fst x)) = quad (x_hi x) ->
  let m := lrun inp (s_step x t) (rg, sh) in snd m = [] /\ snd (fst m) = sh /\ PLI t (d ++ [x]) (fst (fst m)).
Proof.
  intros d x r t rg sh E Ht (I1 & I2 & I3 & I4) Ed Eg Hw m. subst m. assert (Hx : In x (listed act)) by (rewrite E; apply in_elt). assert (Hd : forall y, In y d -> In y (listed act)) by (intros y Hy; rewrite E, in_app_iff; now left).
  destruct HC as (_ & _ & _ & _ & RK & _). unfold s_step. rewrite lrun_app. cbn [fst snd]. destruct (bgrow_run inp V nci nco ninf (fst x) rg sh) as (G1 & G2 & G3 & G4 & G5 & G6 & G7 & G8 & G9). destruct (fst (lrun inp (bgrow V nci nco ninf (fst x)) (rg, sh))) as [rg1 sh1] eqn:Em. cbn [fst snd] in *. subst sh1. rewrite G1. cbn [app].
  assert (Emx : Rmax (rg r_max) (rg r_dot) = match b_max (Pd d) with None => psc x | Some m => Rmax m (psc x) end). { rewrite I2, Ed. destruct (b_max (Pd d)); cbn [as_num]; [reflexivity|]. apply Rmax_right. specialize (Hscr x Hx). lra. }
  assert (Eex : (if Req_EM_T (rg r_max) ninf then 0%R else exp (rg r_max - Rmax (rg r_max) (rg r_dot))) = exp_diff (b_max (Pd d)) (match b_max (Pd d) with None => psc x | Some m => Rmax m (psc x) end)).
  { rewrite Emx, I2. unfold exp_diff. destruct (b_max (Pd d)) as [m0|] eqn:Em0; cbn [as_num]. - assert (L := Pd_above d m0 Hd Em0). destruct (Req_EM_T m0 ninf) as [Q|Q]; [lra|reflexivity]. - destruct (Req_EM_T ninf ninf) as [Q|Q]; [reflexivity|congruence]. }
  rewrite Eex in G5, G6, G7. rewrite Emx in G3, G4, G6, G7, G8. rewrite Ed, Hw in G4, G6, G7, G8. rewrite Eg in G7, G8. set (mx := match b_max (Pd d) with None => psc x | Some m => Rmax m (psc x) end) in *. set (ex := exp_diff (b_max (Pd d)) mx) in *. set (al := (exp (psc x - mx) * quad (x_hi x))%R) in *.
  rewrite lrun_app.
  destruct (update2 inp N pk (k_at V nci H W b (x_pt x)) Ck (pk_of x) (fun c r => r r_exp * r (r_lk c) + r r_alpha * r r_t)%R (fun c r => r r_exp * r (r_lkvw c) + r r_ag * r r_t)%R
     (fun c => ex * b_k (Pd d) c + al * pk_of x c)%R (fun c => ex * b_kvw (Pd d) c + al * pgv x * pk_of x c)%R (cin t) rg1 sh (proj1 (cC t Ht)) ltac:(intros c Hc; now apply (cC t Ht)) (RK x Hx)) as (U1 & U2 & U3 & U4).
  - intros c q Hc Q1 Q2 Q3. rewrite Q2, Q3, !Q1 by (unfold r_exp, r_alpha; lia). rewrite G5, G4, G9 by (unfold r_lk; lia). now rewrite (proj1 (I4 c Hc)).
  - intros c q Hc Q1 Q2 Q3. rewrite Q2, Q3, !Q1 by (unfold r_exp, r_ag; lia). rewrite G5, G8, G9 by (unfold r_lkvw; lia). now rewrite (proj2 (I4 c Hc)).
  - cbn [app]. set (m1 := lrun inp _ (rg1, sh)) in *. rewrite (surjective_pairing (fst m1)). lr. rewrite U1. split; [reflexivity|]. split; [exact U2|].
    unfold PLI. rewrite Pd_step. unfold bring_entry. cbn [b_sum b_max b_int b_k b_kvw as_num]. fold mx. fold ex. fold al. rewrite put_eq. rewrite !put_ne by (unfold CudaAttnModel.r_max, CudaAttnModel.r_sum, r_int; lia).
    rewrite !U3 by (unfold CudaAttnModel.r_new, CudaAttnModel.r_sum, r_int; lia). split; [rewrite G6, I1; ring|]. split; [exact G3|]. split; [rewrite G7, I3; ring|]. intros c Hc. rewrite !put_ne by (unfold CudaAttnModel.r_max, r_lk, r_lkvw; lia). exact (U4 c Hc).
Qed.
Definition s_FT (t : nat) : list upd := map (fun s => (baddr cell s, USet, bval ninf (Pd (listed act)) s)) (slots t).
Lemma s_fin_run : forall t rg sh, t < BD -> PLI t (listed act) rg -> snd (lrun inp (s_fin t) (rg, sh)) = s_FT t.
Proof.
  intros t rg sh Ht (I1 & I2 & I3 & I4). unfold s_fin, s_FT. assert (Lc := pcell_lt). etransitivity; [apply (put_slots inp None barr (boff cell))|].
  - intros s Hs. apply (slots_in NW V nloc nci HNW HV Hnl Hci t s Ht) in Hs. destruct Hs as (S1 & S2 & _). now apply (boff_lt V nci B Ho Wo cell s Lc).
  - apply map_ext_in. intros s Hs. unfold CudaRingBwdProofs6.baddr. f_equal. assert (Hs' := Hs). apply (slots_in NW V nloc nci HNW HV Hnl Hci t s Ht) in Hs. destruct Hs as (S1 & S2 & S3). destruct s as [i x]. cbn [fst snd] in *. unfold rg_of, bval. cbn [fst snd].
    destruct i as [|[|[|[|[|]]]]]; try lia; auto; apply I4; apply (cC t Ht); auto.
Qed.
Lemma s_trace : forall st, ftrace inp BD own pub sprog1 st = flat_map s_FT (seq 0 BD).
Proof. exact (prog_trace s_pre s_fin s_step PLI s_FT PLI_keep s_pre_run s_step_run s_fin_run). Qed.
Lemma s_good : forall kind (hl : nat -> nat * nat -> Prop) g, (forall a, kind a = None) -> k_outsize k = bsize V nci B Ho Wo -> (forall t s, t < BD -> In s (slots t) -> hl (baddr cell s) (g, t)) -> fgood k NW own pub kind hl g false sprog1.
Proof.
  intros kind hl g Ek Eo Hh. assert (Lc := pcell_lt). apply prog_good.
  - intros t Ht. unfold s_pre. cbn [app]. destruct (gets3 0 r_sum ltac:(lia)) as (G1 & _ & G2). destruct (gets3 1 r_max ltac:(lia)) as (G3 & _ & G4). destruct (gets3 2 r_int ltac:(lia)) as (G5 & _ & G6). cbn [CudaRingBwdProofs6.barr] in *. rewrite G1, G3, G5.
    assert (FG : forall r a, a < N -> fine k own pub kind hl false g t (IGet r a)) by (intros r a La; split; [apply Nat.ltb_lt; exact La|]; split; [|exact I]; split; [reflexivity|]; intros a0; split; intros []).
    do 3 (constructor; [apply FG; assumption|]). apply Forall_flat. intros c Hc. assert (Lk : c < Ck) by (now apply (cC t Ht)). fl.
    + exact (fine_get k own pub kind hl false g t inp _ (cell * Ck) Ck _ (r_lk c) c (RSk 3 ltac:(lia)) Lk).
    + exact (fine_get k own pub kind hl false g t inp _ (cell * Ck) Ck _ (r_lkvw c) c (RSk 4 ltac:(lia)) Lk).
  - intros x t Hx Ht. destruct HC as ((_ & _ & _ & Hm) & _ & _ & _ & RK & _ & _ & _ & _ & Hs). unfold s_step, bgrow. cbn [app]. fl; try apply fine_set. { now apply bweight_fine. }
    apply Forall_app. split; [|fl; apply fine_set]. apply Forall_flat. intros c Hc. fl; try apply fine_set. refine (fine_get k own pub kind hl true g t inp pk _ Ck _ r_t c (RK x Hx) _). now apply (cC t Ht).
  - intros t Ht. unfold s_fin. apply Forall_forall. intros i Hi. apply in_map_iff in Hi. destruct Hi as (s & <- & Hs). assert (Hs' := Hs). apply (slots_in NW V nloc nci HNW HV Hnl Hci t s Ht) in Hs. destruct Hs as (S1 & S2 & _). destruct (boff_lt V nci B Ho Wo cell s Lc S1 S2) as [L1 L2].
    apply fine_out; auto; [rewrite Eo; exact L2|]. now apply Hh.
Qed.
End State.

(** ** Long rows: the sums *)
Section Final.
Variables (pm : nat * nat) (mx : nat -> R).
Hypotheses (RM : reads inp N pm 0 cells mx).
Definition fal (x : item) : R := (exp (psc x - mx cell) * quad (x_hi x))%R.
Definition fval (d : list item) (s : nat * nat) : R := rlsum (fun x => fal x * ewt Ck (pgv x) (pk_of x) s)%R d.
Definition f_pre (t : nat) : list instr := [ISet r_sum (fun _ => 0%R); ISet r_int (fun _ => 0%R); get pm r_max cell] ++ flat_map (fun c => [ISet (r_lk c) (fun _ => 0%R); ISet (r_lkvw c) (fun _ => 0%R)]) (cin t).
Definition f_step (x : item) (t : nat) : list instr := [ILoad r_w (bw_sh V nci nco (fst x)); ISet r_alpha (fun r => exp (r r_dot - r r_max) * r r_w)%R; ISet r_ag (fun r => r r_alpha * r r_gd)%R;
                  ISet r_sum (fun r => r r_sum + r r_alpha)%R; ISet r_int (fun r => r r_int + r r_ag)%R] ++
     flat_map (fun c => [get pk r_t (k_at V nci H W b (x_pt x) + c); ISet (r_lk c) (fun r => r (r_lk c) + r r_alpha * r r_t)%R; ISet (r_lkvw c) (fun r => r (r_lkvw c) + r r_ag * r r_t)%R]) (cin t).
Definition f_fin (t : nat) : list instr := map (fun s => add_out AAdd (farr (fst s)) (boff cell s) (fun r => r (rg_of s))) (fslots t).
Definition fprog1 : list fstep := prog f_pre f_fin f_step.
Lemma f_expand : expand BD (bscratch V nci nco mid) fprog1 = p1_final_body BD V nloc nci nco H W B Ho Wo as_in mid pk pv pq pdy pw pm b ho wo act.
Proof.
  unfold fprog1, bprog, p1_final_body. cbv zeta. rewrite !expand_app, expand_flat. unfold expand at 1 3. cbn [flat_map expand1 app]. f_equal. f_equal. f_equal.
  - apply flat_map_ext. intros [i [l [hi p]]]. unfold bentry, p1_final_entry, bring_sum, bdseg, bdots, f_step, x_pt, the_sum. cbn [expand flat_map expand1 app fst snd]. rewrite <- ?app_assoc. reflexivity.
  - f_equal. f_equal. apply functional_extensionality. intros t. unfold f_fin, CudaRingBwdProofs6.fslots. rewrite map_fin. reflexivity.
Qed.
Definition FLI (t : nat) (d : list item) (rg : nat -> R) : Prop := rg r_max = mx cell /\ rg r_sum = fval d (0, 0) /\ rg r_int = fval d (2, 0) /\ forall c, In c (cin t) -> rg (r_lk c) = fval d (3, c) /\ rg (r_lkvw c) = fval d (4, c).
Lemma fval_snoc : forall d x s, fval (d ++ [x]) s = (fval d s + fal x * ewt Ck (pgv x) (pk_of x) s)%R.
Proof. intros. unfold fval. rewrite (lsum_app RT). cbn [lsum_ fold_right]. ring. Qed.
Notation cC := (bin_covers NW V nloc nci HV Hnl Hci).
Lemma f_pre_run : forall t m, t < BD -> let m' := lrun inp (f_pre t) m in snd m' = [] /\ FLI t [] (fst (fst m')).
Proof.
  intros t [rg sh] Ht m'. subst m'. assert (Lc := pcell_lt). unfold f_pre. rewrite (get_0 inp N pm cells mx r_max cell RM Lc). assert (Em := proj2 (proj2 (RM cell Lc))). cbn [plus] in Em. cbn [app]. rewrite !lrun_cons. cbn [reg_of sh_of emit fst snd app]. rewrite Em.
  set (rg0 := put r_max _ _). assert (E1 : rg0 r_sum = 0%R /\ rg0 r_max = mx cell /\ rg0 r_int = 0%R) by (unfold rg0; pe; auto). clearbody rg0.
  destruct (zero2 inp (cin t) rg0 sh) as (L1 & L2 & L3 & L4). split; [exact L1|]. unfold FLI. destruct E1 as (E1 & E2 & E3).
  split; [etransitivity; [apply L3; unfold CudaAttnModel.r_max; lia|exact E2]|]. split; [etransitivity; [apply L3; unfold CudaAttnModel.r_sum; lia|exact E1]|]. split; [etransitivity; [apply L3; unfold r_int; lia|exact E3]|]. intros c Hc. exact (L4 c Hc).
Qed.
Lemma FLI_keep : forall t d rg rg', (forall r, keep r -> rg' r = rg r) -> FLI t d rg -> FLI t d rg'.
Proof.
  intros t d rg rg' E (H1 & H2 & H3 & H4). assert (Kk : forall r, 13 <= r \/ r = 3 \/ r = 4 -> rg' r = rg r) by (intros r Hr; apply E; unfold keep, r_t, r_u, r_dot, r_gd, r_w; lia). unfold FLI. rewrite !Kk by (unfold CudaAttnModel.r_sum, CudaAttnModel.r_max, r_int; lia). split; [exact H1|]. split; [exact H2|]. split; [exact H3|]. intros c Hc. rewrite !Kk by (unfold r_lk, r_lkvw; lia). now apply H4.
Qed.
Lemma f_step_run : forall d x r t rg sh, listed act = d ++ x :: r -> t < BD -> FLI t d rg -> rg r_dot = psc x -> rg r_gd = pgv x -> sh (bw_sh V nci nco (fst x)) = quad (x_hi x) ->
  let m := lrun inp (f_step x t) (rg, sh) in snd m = [] /\ snd (fst m) = sh /\ FLI t (d ++ [x]) (fst (fst m)).
Proof.
  intros d x r t rg sh E Ht (I1 & I2 & I3 & I4) Ed Eg Hw m. subst m. assert (Hx : In x (listed act)) by (rewrite E; apply in_elt).
  destruct HC as (_ & _ & _ & _ & RK & _). unfold f_step. cbn [app]. rewrite !lrun_cons. cbn [reg_of sh_of emit fst snd app]. set (rg1 := put r_int _ _).
  assert (P1 : rg1 r_max = mx cell /\ rg1 r_alpha = fal x /\ rg1 r_ag = (fal x * pgv x)%R /\ rg1 r_sum = (fval d (0%nat, 0%nat) + fal x)%R /\ rg1 r_int = (fval d (2%nat, 0%nat) + fal x * pgv x)%R).
  { unfold rg1, fal. pe. rewrite Hw, Ed, Eg, I1, I2, I3. repeat split; reflexivity. }
  assert (P2 : forall i, 14 <= i -> rg1 i = rg i) by (intros i Hi; unfold rg1; rewrite !put_ne by (unfold r_int, CudaAttnModel.r_sum, r_ag, r_alpha, r_w; lia); reflexivity). clearbody rg1. destruct P1 as (P1 & P3 & P4 & P5 & P6).
  destruct (update2 inp N pk (k_at V nci H W b (x_pt x)) Ck (pk_of x) (fun c r => r (r_lk c) + r r_alpha * r r_t)%R (fun c r => r (r_lkvw c) + r r_ag * r r_t)%R
     (fun c => fval d (3%nat, c) + fal x * pk_of x c)%R (fun c => fval d (4%nat, c) + fal x * pgv x * pk_of x c)%R (cin t) rg1 sh (proj1 (cC t Ht)) ltac:(intros c Hc; now apply (cC t Ht)) (RK x Hx)) as (U1 & U2 & U3 & U4).
  - intros c q Hc Q1 Q2 Q3. rewrite Q2, Q3, !Q1 by (unfold r_alpha; lia). rewrite P3, P2 by (unfold r_lk; lia). now rewrite (proj1 (I4 c Hc)).
  - intros c q Hc Q1 Q2 Q3. rewrite Q2, Q3, !Q1 by (unfold r_ag; lia). rewrite P4, P2 by (unfold r_lkvw; lia). now rewrite (proj2 (I4 c Hc)).
  - split; [exact U1|]. split; [exact U2|]. unfold FLI. rewrite !fval_snoc. rewrite !(ewt_val Ck _ _ (0, 0)), !(ewt_val Ck _ _ (2, 0)) by (cbn [fst snd]; lia). cbn [fst snd].
    split; [etransitivity; [apply U3; unfold CudaAttnModel.r_max; lia|exact P1]|]. split; [etransitivity; [apply U3; unfold CudaAttnModel.r_sum; lia|rewrite P5; ring]|]. split; [etransitivity; [apply U3; unfold r_int; lia|rewrite P6; ring]|].
    intros c Hc. assert (Lk : c < Ck) by (now apply (cC t Ht)). rewrite !fval_snoc. rewrite !ewt_val by (cbn [fst snd]; lia). cbn [fst snd]. destruct (U4 c Hc) as [U5 U6]. split; [exact U5|]. etransitivity; [exact U6|]. ring.
Qed.
Definition f_FT (t : nat) : list upd := map (fun s => (fst (farr (fst s)) + boff cell s, UAtom AAdd, fval (listed act) s)) (fslots t).
Lemma f_fin_run : forall t rg sh, t < BD -> FLI t (listed act) rg -> snd (lrun inp (f_fin t) (rg, sh)) = f_FT t.
Proof.
  intros t rg sh Ht (I1 & I2 & I3 & I4). unfold f_fin, f_FT. assert (Lc := pcell_lt). etransitivity; [apply (put_slots inp (Some AAdd) farr (boff cell))|].
  - intros s Hs. apply (fslots_in NW V nloc nci t s Ht) in Hs. destruct Hs as [Ne Hs]. apply (slots_in NW V nloc nci HNW HV Hnl Hci t s Ht) in Hs. destruct Hs as (S1 & S2 & _). now apply (foff_lt V nci B Ho Wo cell s Lc).
  - apply map_ext_in. intros s Hs. f_equal. apply (fslots_in NW V nloc nci t s Ht) in Hs. destruct Hs as [Ne Hs]. apply (slots_in NW V nloc nci HNW HV Hnl Hci t s Ht) in Hs. destruct Hs as (S1 & S2 & S3). destruct s as [i x]. unfold CudaRingBwdProofs6.bnch in S2. cbn [fst snd] in *. unfold rg_of. cbn [fst snd].
    destruct i as [|[|[|[|[|]]]]]; try lia; cbn [Nat.ltb Nat.leb] in S2; try (assert (x = 0) by lia; subst x; auto); try (apply I4; apply (cC t Ht); auto).
Qed.
Lemma f_trace : forall st, ftrace inp BD own pub fprog1 st = flat_map f_FT (seq 0 BD).
Proof. exact (prog_trace f_pre f_fin f_step FLI f_FT FLI_keep f_pre_run f_step_run f_fin_run). Qed.
Lemma f_good : forall kind (hl : nat -> nat * nat -> Prop) g, (forall a, kind a = Some AAdd) -> k_outsize k = 2 * cells + 2 * (cells * Ck) -> fgood k NW own pub kind hl g false fprog1.
Proof.
  intros kind hl g Ek Eo. assert (Lc := pcell_lt). apply prog_good.
  - intros t Ht. unfold f_pre. cbn [app]. fl; try apply fine_set; [exact (fine_get0 k own pub kind hl false g t inp pm cells mx r_max cell RM Lc)|]. apply Forall_flat. intros c Hc. fl; apply fine_set.
  - intros x t Hx Ht. destruct HC as ((_ & _ & _ & Hm) & _ & _ & _ & RK & _ & _ & _ & _ & Hs). unfold f_step. cbn [app]. fl; try apply fine_set. { now apply bweight_fine. }
    apply Forall_flat. intros c Hc. fl; try apply fine_set. refine (fine_get k own pub kind hl true g t inp pk _ Ck _ r_t c (RK x Hx) _). now apply (cC t Ht).
  - intros t Ht. unfold f_fin. apply Forall_forall. intros i Hi. apply in_map_iff in Hi. destruct Hi as (s & <- & Hs). apply (fslots_in NW V nloc nci t s Ht) in Hs. destruct Hs as [Ne Hs]. apply (slots_in NW V nloc nci HNW HV Hnl Hci t s Ht) in Hs. destruct Hs as (S1 & S2 & _). destruct (foff_lt V nci B Ho Wo cell s Lc S1 Ne S2) as [L1 L2]. destruct (boff_lt V nci B Ho Wo cell s Lc S1 S2) as [_ L3].
    apply fine_add; auto. rewrite Eo. unfold bsize in L3. lia.
Qed.
End Final.
End Ctx.
