(** The backward ring kernels, pass 1: one group. *)
From Coq Require Import List Arith Lia Bool ZArith Reals Lra Permutation FunctionalExtensionality.
From Verif Require Import TensorModel TensorProofs BigSum DiscoModel DiscoSortProofs DistAttnModel DistAttnBwdModel DistAttnProofs AttnModel AttnCoreProofs GpuModel GpuSpec GpuProofs GpuProofs2 WarpProofs CudaDiscoModel CudaWarpModel WarpSumProofs CudaFwdProofs CudaAttnModel CudaAttnProofs CudaAttnLaneProofs CudaAttnFwdProofs CudaAttnFwdProofs2 WarpKernelProofs CudaKeyProofs CudaLoopProofs CudaAttnUpModel CudaAttnBwdModel CudaAttnUpProofs2 CudaAttnUpProofs4 CudaRescaleModel CudaRescaleSpec GroupKernelProofs CudaRingUpSpec CudaRingModel CudaRingProofs CudaRingProofs2 CudaRingProofs6 CudaRingBwdModel CudaRingBwdProofs CudaRingBwdProofs2.
From Verif Require Import AttnSpec.
Import ListNotations.
Local Open Scope nat_scope.
Notation upd := (nat * uop * R)%type (only parsing).
Notation entry := (nat * (nat * nat))%type (only parsing).
Notation item := (nat * (nat * (nat * (nat * nat))))%type (only parsing).
Notation r_sum := CudaAttnModel.r_sum. Notation r_max := CudaAttnModel.r_max. Notation r_new := CudaAttnModel.r_new.

(** ** Loops over both local arrays *)
Section Lanes.
Variables (inp : nat -> R) (N : nat).
Lemma load2 : forall pa pb ba bb n fa fb l rg sh, (forall c, In c l -> c < n) -> reads inp N pa ba n fa -> reads inp N pb bb n fb ->
  let m := lrun inp (flat_map (fun c => [get pa (r_lk c) (ba + c); get pb (r_lkvw c) (bb + c)]) l) (rg, sh) in
  snd m = [] /\ snd (fst m) = sh /\ (forall r, r < 14 -> fst (fst m) r = rg r) /\ forall c, In c l -> fst (fst m) (r_lk c) = fa c /\ fst (fst m) (r_lkvw c) = fb c.
Proof.
  intros pa pb ba bb n fa fb l rg sh Hl HA HB m. subst m.
  destruct (lrun_loop _ inp (fun c => [get pa (r_lk c) (ba + c); get pb (r_lkvw c) (bb + c)]) (fun _ => []) (fun d m => snd m = sh /\ (forall r, r < 14 -> fst m r = rg r) /\ forall c, In c d -> fst m (r_lk c) = fa c /\ fst m (r_lkvw c) = fb c) l (rg, sh)) as [(I1 & I2 & I3) I4].
  - split; [reflexivity|]. split; [auto|]. intros c [].
  - intros d x r [rg1 sh1] E (I1 & I2 & I3). cbn [fst snd] in *. assert (Hx : x < n) by (apply Hl; rewrite E; apply in_elt). rewrite (get_reads inp N pa ba n fa _ x HA Hx), (get_reads inp N pb bb n fb _ x HB Hx).
    destruct (HA x Hx) as (_ & _ & Ea). destruct (HB x Hx) as (_ & _ & Eb). lr. split; [|reflexivity]. split; [exact I1|]. split.
    + intros r0 Hr. rewrite !put_ne by (unfold r_lk, r_lkvw; lia). auto.
    + intros c Hc. destruct (Nat.eq_dec c x) as [->|Ne].
      * rewrite put_eq. rewrite put_ne by (unfold r_lk, r_lkvw; lia). rewrite put_eq. auto.
      * rewrite !put_ne by (unfold r_lk, r_lkvw; lia). apply I3. apply in_app_iff in Hc. destruct Hc as [Hc|[->|[]]]; [exact Hc|congruence].
  - rewrite I4, flat_map_nil. auto.
Qed.
Lemma zero2 : forall l rg sh, let m := lrun inp (flat_map (fun c => [ISet (r_lk c) (fun _ => 0%R); ISet (r_lkvw c) (fun _ => 0%R)]) l) (rg, sh) in
  snd m = [] /\ snd (fst m) = sh /\ (forall r, r < 14 -> fst (fst m) r = rg r) /\ forall c, In c l -> fst (fst m) (r_lk c) = 0%R /\ fst (fst m) (r_lkvw c) = 0%R.
Proof.
  intros l rg sh m. subst m.
  destruct (lrun_loop _ inp (fun c => [ISet (r_lk c) (fun _ => 0%R); ISet (r_lkvw c) (fun _ => 0%R)]) (fun _ => []) (fun d m => snd m = sh /\ (forall r, r < 14 -> fst m r = rg r) /\ forall c, In c d -> fst m (r_lk c) = 0%R /\ fst m (r_lkvw c) = 0%R) l (rg, sh)) as [(I1 & I2 & I3) I4].
  - split; [reflexivity|]. split; [auto|]. intros c [].
  - intros d x r [rg1 sh1] E (I1 & I2 & I3). cbn [fst snd] in *. lr. split; [|reflexivity]. split; [exact I1|]. split.
    + intros r0 Hr. rewrite !put_ne by (unfold r_lk, r_lkvw; lia). auto.
    + intros c Hc. destruct (Nat.eq_dec c x) as [->|Ne].
      * rewrite put_eq. rewrite put_ne by (unfold r_lk, r_lkvw; lia). rewrite put_eq. auto.
      * rewrite !put_ne by (unfold r_lk, r_lkvw; lia). apply I3. apply in_app_iff in Hc. destruct Hc as [Hc|[->|[]]]; [exact Hc|congruence].
  - rewrite I4, flat_map_nil. auto.
Qed.
(** both arrays updated with the key *)
Lemma update2 : forall p b n f (F G : nat -> (nat -> R) -> R) (FV GV : nat -> R) l rg sh, NoDup l -> (forall c, In c l -> c < n) -> reads inp N p b n f ->
  (forall c r, In c l -> (forall i, 3 <= i < 14 -> r i = rg i) -> r r_t = f c -> r (r_lk c) = rg (r_lk c) -> F c r = FV c) ->
  (forall c r, In c l -> (forall i, 3 <= i < 14 -> r i = rg i) -> r r_t = f c -> r (r_lkvw c) = rg (r_lkvw c) -> G c r = GV c) ->
  let m := lrun inp (flat_map (fun c => [get p r_t (b + c); ISet (r_lk c) (F c); ISet (r_lkvw c) (G c)]) l) (rg, sh) in
  snd m = [] /\ snd (fst m) = sh /\ (forall r, 3 <= r < 14 -> fst (fst m) r = rg r) /\ forall c, In c l -> fst (fst m) (r_lk c) = FV c /\ fst (fst m) (r_lkvw c) = GV c.
Proof.
  intros p b n f F G FV GV l rg sh ND Hl HR HF HG m. subst m.
  destruct (lrun_loop _ inp (fun c => [get p r_t (b + c); ISet (r_lk c) (F c); ISet (r_lkvw c) (G c)]) (fun _ => [])
    (fun d m => snd m = sh /\ (forall r, 3 <= r < 14 -> fst m r = rg r) /\ (forall c, In c d -> fst m (r_lk c) = FV c /\ fst m (r_lkvw c) = GV c) /\ forall c, ~ In c d -> fst m (r_lk c) = rg (r_lk c) /\ fst m (r_lkvw c) = rg (r_lkvw c)) l (rg, sh)) as [(I1 & I2 & I3 & I4) I5].
  - cbn [fst snd]. split; [reflexivity|]. split; [auto|]. split; [intros c []|auto].
  - intros d x r0 [rg1 sh1] E (I1 & I2 & I3 & I4). cbn [fst snd] in *. subst sh1. assert (Il : In x l) by (rewrite E; apply in_elt). assert (Hx := Hl x Il). rewrite (get_reads inp N p b n f r_t x HR Hx). lr. split; [|reflexivity]. split; [reflexivity|].
    destruct (HR x Hx) as (_ & _ & Ef). assert (Nx : ~ In x d) by (rewrite E in ND; apply NoDup_remove_2 in ND; rewrite in_app_iff in ND; tauto).
    set (rt := put r_t _ rg1). assert (E1 : F x rt = FV x). { apply HF; [exact Il|intros i Hi; unfold rt; rewrite put_ne by (unfold r_t; lia); auto|unfold rt; rewrite put_eq; exact Ef|unfold rt; rewrite put_ne by (unfold r_lk, r_t; lia); now apply I4]. }
    rewrite E1. assert (E2 : G x (put (r_lk x) (FV x) rt) = GV x). { apply HG; [exact Il|intros i Hi; unfold rt; rewrite !put_ne by (unfold r_lk, r_t; lia); auto|unfold rt; rewrite put_ne by (unfold r_lk, r_t; lia); rewrite put_eq; exact Ef|unfold rt; rewrite !put_ne by (unfold r_lk, r_lkvw, r_t; lia); now apply I4]. }
    rewrite E2. unfold rt. clear E1 E2.
    split; [|split].
    + intros r Hr. rewrite !put_ne by (unfold r_lk, r_lkvw, r_t; lia). auto.
    + intros c Hc. destruct (Nat.eq_dec c x) as [->|Ne].
      * rewrite put_eq. rewrite put_ne by (unfold r_lk, r_lkvw; lia). rewrite put_eq. auto.
      * apply in_app_iff in Hc. destruct Hc as [Hc|[<-|[]]]; [|contradiction]. rewrite !put_ne by (unfold r_lk, r_lkvw, r_t; lia). auto.
    + intros c Hc. rewrite in_app_iff in Hc. assert (c <> x) by (intros ->; apply Hc; right; now left). rewrite !put_ne by (unfold r_lk, r_lkvw, r_t; lia). apply I4. tauto.
  - split; [rewrite I5; apply flat_map_nil|auto].
Qed.
Lemma bgrow_run : forall V nci nco ninf i rg sh, let m := lrun inp (bgrow V nci nco ninf i) (rg, sh) in let mx := Rmax (rg r_max) (rg r_dot) in let ex := (if Req_EM_T (rg r_max) ninf then 0 else exp (rg r_max - mx))%R in let al := (exp (rg r_dot - mx) * sh (bw_sh V nci nco i))%R in
  snd m = [] /\ snd (fst m) = sh /\ fst (fst m) r_new = mx /\ fst (fst m) r_alpha = al /\ fst (fst m) r_exp = ex /\ fst (fst m) r_sum = (rg r_sum * ex + al)%R /\ fst (fst m) r_int = (rg r_int * ex + al * rg r_gd)%R /\ fst (fst m) r_ag = (al * rg r_gd)%R /\ forall r, 14 <= r -> fst (fst m) r = rg r.
Proof.
  intros. subst m. unfold bgrow. lr. split; [reflexivity|]. split; [reflexivity|]. do 6 (split; [unfold put; cbn [Nat.eqb r_t r_u r_dot CudaAttnModel.r_new r_alpha r_exp CudaAttnModel.r_sum CudaAttnModel.r_max r_w r_gd r_ag r_int]; reflexivity|]).
  intros r Hr. rewrite !put_ne by (unfold CudaAttnModel.r_new, r_alpha, r_exp, CudaAttnModel.r_sum, r_w, r_int, r_ag; lia). reflexivity.
Qed.
End Lanes.

(** ** What a thread writes: a list of pairs (array, channel) *)
Definition rg_of (s : nat * nat) : nat := match fst s with 0 => r_sum | 1 => r_max | 2 => r_int | 3 => r_lk (snd s) | _ => r_lkvw (snd s) end.
Definition bval (ninf : R) (st : bst) (s : nat * nat) : R := match fst s with 0 => b_sum st | 1 => as_num ninf (b_max st) | 2 => b_int st | 3 => b_k st (snd s) | _ => b_kvw st (snd s) end.
Section Slots.
Variables (NW V nloc nci B Ho Wo : nat).
Notation BD := (32 * NW). Notation Ck := (V * nci). Notation cells := (B * Ho * Wo).
Notation cin := (bin_chans BD V nloc nci).
Hypotheses (HNW : 1 <= NW <= 32) (HV : 1 <= V) (Hnl : 1 <= nloc) (Hci : (nloc - 1) * BD <= nci <= nloc * BD).
Definition bnch (i : nat) : nat := if i <? 3 then 1 else Ck.
Definition slots (t : nat) : list (nat * nat) := (if t =? 0 then [(0, 0); (1, 0); (2, 0)] else []) ++ flat_map (fun c => [(3, c); (4, c)]) (cin t).
(** the same without the maxima *)
Definition fslots (t : nat) : list (nat * nat) := (if t =? 0 then [(0, 0); (2, 0)] else []) ++ flat_map (fun c => [(3, c); (4, c)]) (cin t).
Lemma bown0 : forall x, x < 1 -> chan_own BD V x = 0.
Proof using HNW HV. clear - HNW HV. intros x Hx. assert (x = 0) by lia. subst x. unfold chan_own. rewrite Nat.div_0_l by lia. apply Nat.mod_0_l. lia. Qed.
Lemma slots_in : forall t s, t < BD -> (In s (slots t) <-> fst s < 5 /\ snd s < bnch (fst s) /\ chan_own BD V (snd s) = t).
Proof using HNW HV Hnl Hci.
  intros t [i x] Ht. unfold slots. rewrite in_app_iff, in_flat_map. cbn [fst snd]. assert (C := bin_covers NW V nloc nci HV Hnl Hci t Ht). split.
  - intros [Q|(c & Hc & [E|[E|[]]])].
    + destruct (Nat.eqb_spec t 0) as [->|]; [|destruct Q]. assert (E0 := bown0 0 ltac:(lia)). destruct Q as [E|[E|[E|[]]]]; injection E as <- <-; unfold bnch; cbn; repeat split; try lia; exact E0.
    + injection E as <- <-. apply C in Hc. unfold bnch. cbn [Nat.ltb Nat.leb]. repeat split; try lia; tauto.
    + injection E as <- <-. apply C in Hc. unfold bnch. cbn [Nat.ltb Nat.leb]. repeat split; try lia; tauto.
  - intros (Hi & Hx & Eo). unfold bnch in Hx. destruct (Nat.ltb_spec i 3) as [L|L].
    + left. rewrite bown0 in Eo by exact Hx. subst t. cbn [Nat.eqb]. assert (x = 0) by lia. subst x. destruct i as [|[|[|]]]; [| | |lia]; cbn [In]; auto.
    + right. exists x. split; [apply C; auto|]. destruct i as [|[|[|[|[|]]]]]; try lia; cbn [In]; auto.
Qed.
Lemma fslots_in : forall t s, t < BD -> (In s (fslots t) <-> fst s <> 1 /\ In s (slots t)).
Proof using Type.
  clear HNW HV Hnl Hci.
  intros t [i x] Ht. unfold slots, fslots. rewrite !in_app_iff, !in_flat_map. cbn [fst snd]. split.
  - intros [Q|Q]; [destruct (t =? 0); [|destruct Q]; destruct Q as [E|[E|[]]]; injection E as <- <-; split; try lia; left; cbn [In]; auto|]. split; [|now right]. destruct Q as (c & _ & [E|[E|[]]]); injection E as <- <-; lia.
  - intros [Ne [Q|Q]]; [|now right]. left. destruct (t =? 0); [|destruct Q]. destruct Q as [E|[E|[E|[]]]]; injection E as <- <-; [now left|lia|right; now left].
Qed.
(** where: the array, the offset for the cell [u] *)
Definition barr (i : nat) : nat * nat := match i with 0 => b_ssum B Ho Wo | 1 => b_smax B Ho Wo | 2 => b_sint B Ho Wo | 3 => b_sk V nci B Ho Wo | _ => b_skvw V nci B Ho Wo end.
Definition farr (i : nat) : nat * nat := match i with 0 => bf_sum B Ho Wo | 2 => bf_int B Ho Wo | 3 => bf_k V nci B Ho Wo | _ => bf_kvw V nci B Ho Wo end.
Definition boff (u : nat) (s : nat * nat) : nat := if fst s <? 3 then u else u * Ck + snd s.
Definition baddr (u : nat) (s : nat * nat) : nat := fst (barr (fst s)) + boff u s.
Lemma boff_lt : forall u s, u < cells -> fst s < 5 -> snd s < bnch (fst s) -> boff u s < snd (barr (fst s)) /\ baddr u s < bsize V nci B Ho Wo.
Proof using Type.
  clear HNW HV Hnl Hci.
  intros u [i x] Hu Hi Hx. unfold bnch in Hx. cbn [fst snd] in *. unfold baddr, boff. cbn [fst snd]. assert (Q : x < Ck -> u * Ck + x < cells * Ck) by (intros; nia).
  destruct i as [|[|[|[|[|]]]]]; try lia; cbn [barr b_ssum b_smax b_sint b_sk b_skvw fst snd Nat.ltb Nat.leb] in *; unfold bsize; try specialize (Q Hx); lia.
Qed.
Lemma foff_lt : forall u s, u < cells -> fst s < 5 -> fst s <> 1 -> snd s < bnch (fst s) -> boff u s < snd (farr (fst s)) /\ cells + (fst (farr (fst s)) + boff u s) = baddr u s.
Proof using Type.
  clear HNW HV Hnl Hci.
  intros u [i x] Hu Hi Ne Hx. unfold bnch in Hx. cbn [fst snd] in *. unfold baddr, boff. cbn [fst snd]. assert (Q : x < Ck -> u * Ck + x < cells * Ck) by (intros; nia).
  destruct i as [|[|[|[|[|]]]]]; try lia; cbn [farr barr b_ssum b_smax b_sint b_sk b_skvw bf_sum bf_int bf_k bf_kvw fst snd Nat.ltb Nat.leb] in *; try specialize (Q Hx); lia.
Qed.
Lemma baddr_inj : forall u s u' s', u < cells -> fst s < 5 -> snd s < bnch (fst s) -> u' < cells -> fst s' < 5 -> snd s' < bnch (fst s') -> baddr u s = baddr u' s' -> u = u' /\ s = s'.
Proof using Type.
  clear HNW HV Hnl Hci.
  intros u [i x] u' [i' x'] Hu Hi Hx Hu' Hi' Hx' E. unfold bnch in Hx, Hx'. unfold baddr, boff in E. cbn [fst snd] in *.
  assert (Q : x < Ck -> u * Ck + x < cells * Ck) by (intros; nia). assert (Q' : x' < Ck -> u' * Ck + x' < cells * Ck) by (intros; nia).
  assert (J : x < Ck -> x' < Ck -> u * Ck + x = u' * Ck + x' -> u = u' /\ x = x'). { intros L L' E'. destruct (split_div Ck u x L) as [A1 A2]. destruct (split_div Ck u' x' L') as [A3 A4]. rewrite E' in A1, A2. split; congruence. }
  destruct i as [|[|[|[|[|]]]]]; try lia; destruct i' as [|[|[|[|[|]]]]]; try lia; cbn [barr b_ssum b_smax b_sint b_sk b_skvw fst snd Nat.ltb Nat.leb] in *; try specialize (Q Hx); try specialize (Q' Hx'); try (exfalso; lia); try (split; [lia|f_equal; lia]).
  all: destruct (J Hx Hx' ltac:(lia)) as [-> ->]; auto.
Qed.
Lemma map_fin : forall X (g : nat * nat -> X) t l, map g ((if t =? 0 then l else []) ++ flat_map (fun c => [(3, c); (4, c)]) (cin t)) = (if t =? 0 then map g l else []) ++ flat_map (fun c => [g (3, c); g (4, c)]) (cin t).
Proof using Type. intros X g t l. rewrite map_app. f_equal; [destruct (t =? 0); reflexivity|]. induction (cin t) as [|c cs IH]; [reflexivity|]. cbn [flat_map app map]. now rewrite IH. Qed.
End Slots.
(** writing or adding the slots *)
Lemma put_slots : forall inp (o : option aop) (arr : nat -> nat * nat) (off : nat * nat -> nat) l rg sh, (forall s, In s l -> off s < snd (arr (fst s))) ->
  snd (lrun inp (map (fun s => match o with None => set_out (arr (fst s)) (off s) (fun r => r (rg_of s)) | Some a => add_out a (arr (fst s)) (off s) (fun r => r (rg_of s)) end) l) (rg, sh)) =
  map (fun s => (fst (arr (fst s)) + off s, match o with None => USet | Some a => UAtom a end, rg (rg_of s))) l.
Proof.
  intros inp o arr off l rg sh Hl. rewrite map_flat.
  destruct (lrun_loop _ inp (fun s => [match o with None => set_out (arr (fst s)) (off s) (fun r => r (rg_of s)) | Some a => add_out a (arr (fst s)) (off s) (fun r => r (rg_of s)) end]) (fun s => [(fst (arr (fst s)) + off s, match o with None => USet | Some a => UAtom a end, rg (rg_of s))]) (fun _ m => fst m = rg) l (rg, sh)) as [_ L2]; [reflexivity| |rewrite L2; symmetry; apply map_flat].
  intros d x r [rg1 sh1] E EI. cbn [fst] in EI. subst rg1. assert (Hx : off x < snd (arr (fst x))) by (apply Hl; rewrite E; apply in_elt). destruct o as [a|]; [rewrite add_in by auto|rewrite set_in by auto]; lr; auto.
Qed.
