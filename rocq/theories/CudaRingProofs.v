(** The gather-direction ring kernels: the common shape of a group.  It reads the query and the
    weights of its entries to shared memory, synchronises, and goes through the entries. *)
From Coq Require Import List Arith Lia Bool Reals Lra Permutation FunctionalExtensionality.
From Verif Require Import TensorModel TensorProofs BigSum GpuModel GpuSpec GpuProofs GpuProofs2 WarpProofs CudaDiscoModel CudaWarpModel WarpSumProofs CudaFwdProofs CudaAttnModel CudaAttnProofs CudaAttnLaneProofs WarpKernelProofs CudaKeyProofs CudaLoopProofs GroupKernelProofs CudaRingModel.
Import ListNotations.
Local Open Scope nat_scope.
Notation upd := (nat * uop * R)%type (only parsing).
Notation lanes := (nat -> (nat -> R) * (nat -> R)) (only parsing).
Notation item := (nat * (nat * (nat * (nat * nat))))%type (only parsing).
Definition x_lane (x : item) : nat := fst (snd x).
Definition x_hi (x : item) : nat := fst (snd (snd x)).
Definition x_pt (x : item) : nat * nat := snd (snd (snd x)).

Lemma listed_in : forall (act : list (nat * (nat * (nat * nat)))) (x : item) d, In x (listed act) -> fst x < length act /\ nth (fst x) act d = snd x.
Proof.
  intros act [i e] d H. unfold listed in H. assert (Q : forall s, In (i, e) (combine (seq s (length act)) act) -> s <= i /\ i - s < length act /\ nth (i - s) act d = e).
  { clear H. induction act as [|a act IH]; intros s H; [destruct H|]. cbn [length seq combine] in H. destruct H as [H|H].
    - injection H as <- <-. rewrite Nat.sub_diag. cbn. repeat split; lia.
    - destruct (IH (Datatypes.S s) H) as (Q1 & Q2 & Q3). replace (i - s) with (Datatypes.S (i - Datatypes.S s)) by lia. cbn [nth length]. repeat split; auto; lia. }
  destruct (Q 0 H) as (_ & Q2 & Q3). rewrite Nat.sub_0_r in *. auto.
Qed.
Lemma listed_same : forall act (x y : item), In x (listed act) -> In y (listed act) -> fst x = fst y -> x = y.
Proof. intros act x y Hx Hy E. destruct (listed_in act x (0, (0, (0, 0))) Hx) as [_ A]. destruct (listed_in act y (0, (0, (0, 0))) Hy) as [_ C]. rewrite E in A. destruct x, y. cbn [fst snd] in *. congruence. Qed.
Lemma listed_map : forall act, map snd (listed act) = act.
Proof.
  intros act. unfold listed. assert (Q : forall s, map snd (combine (seq s (length act)) act) = act). { induction act as [|a act IH]; intros s; [reflexivity|]. cbn [length seq combine map snd]. now rewrite IH. } apply Q.
Qed.

Section Group.
Variables (k : kernel) (NW V nci mid g : nat) (kind : nat -> option aop) (holds : nat -> nat * nat -> Prop) (act : list (nat * (nat * (nat * nat)))).
Notation BD := (32 * NW). Notation Ck := (V * nci). Notation inp := (k_in k). Notation N := (k_insize k).
Definition rown (a : nat) : nat := if a <? Ck then chan_own BD V a else if a <? Ck + length act then fst (nth (a - Ck) act (0, (0, (0, 0)))) else if a <? Ck + mid then 0 else BD.
Definition rpub (a : nat) : bool := (Ck <=? a) && (a <? Ck + length act).
Hypotheses (HNW : 1 <= NW <= 32) (HV : 1 <= V) (Hmid : length act <= mid) (Hlane : forall x, In x (listed act) -> x_lane x < BD).
Lemma rown_high : forall a, scratch V nci mid <= a -> BD <= rown a.
Proof. intros a H. unfold scratch in H. unfold rown. rewrite !(proj2 (Nat.ltb_ge _ _)) by lia. lia. Qed.
Lemma rown_chan : forall c, c < Ck -> rown c = chan_own BD V c /\ rpub c = false.
Proof. intros c H. unfold rown, rpub. rewrite (proj2 (Nat.ltb_lt _ _) H). split; [reflexivity|]. rewrite (proj2 (Nat.leb_gt _ _)) by lia. reflexivity. Qed.
Lemma rown_w : forall x, In x (listed act) -> rown (w_sh V nci (fst x)) = x_lane x /\ rpub (w_sh V nci (fst x)) = true /\ w_sh V nci (fst x) < scratch V nci mid.
Proof.
  intros x H. destruct (listed_in act x (0, (0, (0, 0))) H) as [L E]. unfold rown, rpub, w_sh, scratch. rewrite (proj2 (Nat.ltb_ge _ _)) by lia. rewrite (proj2 (Nat.ltb_lt _ _)) by lia. rewrite (proj2 (Nat.leb_le _ _)) by lia.
  replace (Ck + fst x - Ck) with (fst x) by lia. rewrite E. repeat split. lia.
Qed.
Lemma rpub_own : forall a, rpub a = true -> rown a < BD.
Proof.
  intros a H. unfold rpub in H. apply andb_true_iff in H. destruct H as [H1 H2]. apply Nat.leb_le in H1. apply Nat.ltb_lt in H2. set (i := a - Ck). assert (Hi : i < length act) by (unfold i; lia).
  assert (Hx : In (i, nth i act (0, (0, (0, 0)))) (listed act)). { unfold listed. assert (E : nth i (combine (seq 0 (length act)) act) (0, (0, (0, (0, 0)))) = (i, nth i act (0, (0, (0, 0))))) by (rewrite combine_nth by (now rewrite seq_length); now rewrite seq_nth). rewrite <- E. apply nth_In. rewrite combine_length, seq_length. lia. }
  destruct (rown_w _ Hx) as (E & _). assert (L := Hlane _ Hx). unfold w_sh in E. cbn [fst] in E. replace (Ck + i) with a in E by (unfold i; lia). rewrite E. exact L.
Qed.

(** ** Loading *)
Variables (chans : nat -> list nat) (pq pw : nat * nat) (qb nq : nat) (q quad : nat -> R).
Hypotheses (Hch : covers BD Ck (chan_own BD V) chans) (RQ : reads inp N pq qb Ck q).
Lemma load_run : forall t rg sh, t < BD -> let m := lrun inp (load_q pq chans qb t) (rg, sh) in
  snd m = [] /\ (forall r, 3 <= r -> fst (fst m) r = rg r) /\ forall c, In c (chans t) -> snd (fst m) c = q c.
Proof.
  intros t rg sh Ht m. subst m. unfold load_q. destruct (copy_cells inp N pq qb Ck q (chans t) rg sh ltac:(intros x Hx; now apply (Hch t Ht)) RQ) as (A1 & A2 & A3 & _). auto.
Qed.
Hypothesis (RW : reads inp N pw 0 nq quad).
Hypothesis (Hhi : forall x, In x (listed act) -> x_hi x < nq).
Lemma stash_run : forall t rg sh, let m := lrun inp (stash V nci pw act t) (rg, sh) in
  snd m = [] /\ (forall r, r <> r_w -> fst (fst m) r = rg r) /\ (forall a, a < Ck -> snd (fst m) a = sh a) /\ forall x, In x (listed act) -> x_lane x = t -> snd (fst m) (w_sh V nci (fst x)) = quad (x_hi x).
Proof.
  intros t rg sh m. subst m. unfold stash.
  destruct (lrun_loop _ inp (fun x : item => if fst (snd x) =? t then [get pw r_w (fst (snd (snd x))); IStore (w_sh V nci (fst x)) (fun r => r r_w)] else []) (fun _ => [])
    (fun d m => (forall r, r <> r_w -> fst m r = rg r) /\ (forall a, a < Ck -> snd m a = sh a) /\ forall x, In x d -> x_lane x = t -> snd m (w_sh V nci (fst x)) = quad (x_hi x)) (listed act) (rg, sh)) as [(I1 & I2 & I3) I4].
  - split; [auto|]. split; [auto|]. intros x [].
  - intros d x r [rg1 sh1] E (I1 & I2 & I3). cbn [fst snd] in *. assert (Hx : In x (listed act)) by (rewrite E; apply in_elt). destruct (Nat.eqb_spec (fst (snd x)) t) as [Et|Et].
    + change (fst (snd (snd x))) with (0 + x_hi x). rewrite (get_reads inp N pw 0 nq quad r_w (x_hi x) RW (Hhi x Hx)). destruct (RW (x_hi x) (Hhi x Hx)) as (_ & _ & Ef). lr. split; [|reflexivity]. split; [intros r1 Hr; rewrite put_ne by auto; auto|]. split; [intros a Ha; rewrite put_ne by (unfold w_sh; lia); auto|].
      intros y Hy Hly. unfold put. destruct (Nat.eqb_spec (w_sh V nci (fst y)) (w_sh V nci (fst x))) as [Ew|Ew].
      * assert (y = x) by (apply (listed_same act); [rewrite E; apply in_app_iff in Hy; rewrite in_app_iff; destruct Hy as [Hy|[<-|[]]]; [now left|right; now left]|exact Hx|unfold w_sh in Ew; lia]). subst y. rewrite Nat.eqb_refl. exact Ef.
      * apply in_app_iff in Hy. destruct Hy as [Hy|[<-|[]]]; [|congruence]. now apply I3.
    + lr. split; [|reflexivity]. split; [auto|]. split; [auto|]. intros y Hy Hly. apply in_app_iff in Hy. destruct Hy as [Hy|[<-|[]]]; [now apply I3|]. unfold x_lane in Hly. contradiction.
  - split; [rewrite I4; apply flat_map_nil|auto].
Qed.
Notation ok ph t := (fine k rown rpub kind holds ph g t).
Hypothesis (Hsh : scratch V nci mid <= k_shared k).
Lemma load_fine : forall t, t < BD -> Forall (ok false t) (load_q pq chans qb t).
Proof.
  intros t Ht. unfold load_q. apply Forall_flat. intros c Hc. apply (Hch t Ht) in Hc. destruct Hc as [Hc Eo]. destruct (rown_chan c Hc) as [E1 E2]. fl; [apply (fine_get k rown rpub kind holds false g t inp pq qb Ck q r_t c RQ Hc)|].
  apply fine_store; [unfold scratch in Hsh; lia|]. split; [congruence|discriminate].
Qed.
Lemma stash_fine : forall t, t < BD -> Forall (ok false t) (stash V nci pw act t).
Proof.
  intros t Ht. unfold stash. apply Forall_flat. intros x Hx. destruct (Nat.eqb_spec (fst (snd x)) t) as [Et|]; [|constructor]. destruct (rown_w x Hx) as (E1 & E2 & E3). fl; [apply (fine_get0 k rown rpub kind holds false g t inp pw nq quad r_w _ RW (Hhi x Hx))|].
  apply fine_store; [lia|]. split; [unfold x_lane in E1; congruence|discriminate].
Qed.
Lemma weight_fine : forall t x r, In x (listed act) -> ok true t (ILoad r (w_sh V nci (fst x))).
Proof. intros t x r Hx. destruct (rown_w x Hx) as (E1 & E2 & E3). apply fine_load; [lia|]. right. auto. Qed.

(** ** The entries *)
Variables (pk : nat * nat) (kb : item -> nat) (K : item -> nat -> R).
Hypothesis (RK : forall x, In x (listed act) -> reads inp N pk (kb x) Ck (K x)).
Definition dot_seg (x : item) (t : nat) : list instr := ISet r_dot (fun _ => 0%R) :: flat_map (fun c => [ILoad r_t c; get pk r_u (kb x + c); ISet r_dot (fun r => r r_dot + r r_t * r r_u)%R]) (chans t).
Definition sc (x : item) : R := rsum Ck (fun c => q c * K x c)%R.
Variables (init fin : nat -> list instr) (step : item -> nat -> list instr).
Definition gentry (x : item) : list fstep := [FSeg (dot_seg x); FSum r_dot; FSeg (step x)].
Definition gprog : list fstep := [FSeg init; FShare] ++ flat_map gentry (listed act) ++ [FSeg fin].
Lemma group_good : (forall t, t < BD -> Forall (ok false t) (init t)) -> (forall x t, In x (listed act) -> t < BD -> Forall (ok true t) (step x t)) -> (forall t, t < BD -> Forall (ok true t) (fin t)) -> fgood k NW rown rpub kind holds g false gprog.
Proof.
  intros HI HS HF. cbn [gprog app fgood]. split; [exact HI|]. apply fgood_app.
  - intros y Hy. apply in_flat_map in Hy. destruct Hy as (x & _ & [<-|[<-|[<-|[]]]]); discriminate.
  - apply fgood_flat. intros x Hx. split; [intros y [<-|[<-|[<-|[]]]]; discriminate|]. cbn [gentry fgood]. split; [|split; [|exact I]]; intros t Ht; [|now apply HS].
    unfold dot_seg. constructor; [apply fine_set|]. apply Forall_flat. intros c Hc. apply (Hch t Ht) in Hc. destruct Hc as [Hc Eo]. destruct (rown_chan c Hc) as [E1 E2].
    fl; [apply fine_load; [unfold scratch in Hsh; lia|left; congruence]|apply (fine_get k rown rpub kind holds true g t inp pk (kb x) Ck (K x) r_u c (RK x Hx) Hc)|apply fine_set].
  - cbn [fgood]. auto.
Qed.
Variables (wts : bool) (wt : item -> R) (LI : nat -> list item -> (nat -> R) -> Prop) (FT : nat -> list upd).
Hypothesis (LIf : forall t d rg rg', (forall r, 3 <= r -> rg' r = rg r) -> LI t d rg -> LI t d rg').
Hypothesis (HI : forall t m, t < BD -> let m' := lrun inp (init t) m in snd m' = [] /\ (forall c, In c (chans t) -> snd (fst m') c = q c) /\
  (wts = true -> forall x, In x (listed act) -> x_lane x = t -> snd (fst m') (w_sh V nci (fst x)) = wt x) /\ LI t [] (fst (fst m'))).
Hypothesis (HS : forall d x r t rg sh, listed act = d ++ x :: r -> t < BD -> LI t d rg -> rg r_dot = sc x -> (wts = true -> sh (w_sh V nci (fst x)) = wt x) ->
  let m := lrun inp (step x t) (rg, sh) in snd m = [] /\ snd (fst m) = sh /\ LI t (d ++ [x]) (fst (fst m))).
Hypothesis (HF : forall t rg sh, t < BD -> LI t (listed act) rg -> snd (lrun inp (fin t) (rg, sh)) = FT t).
Definition sinv (d : list item) (st : lanes) : Prop := forall t, t < BD -> (forall c, In c (chans t) -> snd (st t) c = q c) /\
  (wts = true -> forall x, In x (listed act) -> snd (st t) (w_sh V nci (fst x)) = wt x) /\ LI t d (fst (st t)).
Notation fend := (fend inp BD rown rpub). Notation ftrace := (ftrace inp BD rown rpub).
Lemma begin_run : forall st, sinv [] (fend [FSeg init; FShare] st) /\ ftrace [FSeg init; FShare] st = [].
Proof.
  intros st. cbn [WarpKernelProofs.fend fold_left fstate WarpKernelProofs.ftrace ftrace1 app]. split.
  - intros t Ht. unfold shared_out. rewrite (proj2 (Nat.ltb_lt _ _) Ht). cbn [fst snd]. rewrite (after_in inp BD init st t Ht). destruct (HI t (st t) Ht) as (_ & H2 & H3 & H4). split; [|split; [|exact H4]].
    + intros c Hc. assert (Lc : c < Ck) by (now apply (Hch t Ht) in Hc). rewrite (proj2 (rown_chan c Lc)). auto.
    + intros Ew x Hx. destruct (rown_w x Hx) as (E1 & E2 & _). rewrite E2, E1. assert (Lx := Hlane x Hx). rewrite (after_in inp BD init st _ Lx). now apply (HI (x_lane x) (st (x_lane x)) Lx).
  - rewrite !app_nil_r. apply quiet. intros t Ht. apply (HI t (st t) Ht).
Qed.
Lemma gentry_run : forall d x r st, listed act = d ++ x :: r -> sinv d st -> sinv (d ++ [x]) (fend (gentry x) st) /\ ftrace (gentry x) st = [].
Proof.
  intros d x r st E HI0. assert (Hx : In x (listed act)) by (rewrite E; apply in_elt). cbn [gentry WarpKernelProofs.fend fold_left fstate WarpKernelProofs.ftrace ftrace1 app].
  assert (Hd : forall t, t < BD -> let m := lrun inp (dot_seg x t) (st t) in snd m = [] /\ snd (fst m) = snd (st t) /\ fst (fst m) r_dot = rlsum (fun c => q c * K x c)%R (chans t) /\ forall r, 3 <= r -> fst (fst m) r = fst (st t) r).
  { intros t Ht. destruct (HI0 t Ht) as (I1 & _). destruct (st t) as [rg sh]. cbn [fst snd] in *. unfold dot_seg. destruct (dot_load inp N pk (kb x) Ck (K x) (chans t) rg sh) as (D1 & D2 & D3 & D4); [intros c Hc; now apply (Hch t Ht)|now apply RK|].
    split; [exact D1|]. split; [exact D2|]. split; [|exact D4]. transitivity (rlsum (fun c => sh c * K x c)%R (chans t)); [exact D3|]. apply lsum_ext. intros c Hc. now rewrite I1. }
  set (st1 := after inp BD (dot_seg x) st). set (st2 := after_sum BD r_dot st1).
  assert (H1 : forall t, t < BD -> snd (st1 t) = snd (st t) /\ fst (st1 t) r_dot = rlsum (fun c => q c * K x c)%R (chans t) /\ forall r, 3 <= r -> fst (st1 t) r = fst (st t) r).
  { intros t Ht. unfold st1. rewrite after_in by exact Ht. now destruct (Hd t Ht) as (_ & A). }
  assert (Hs : rsum BD (fun t => fst (st1 t) r_dot) = sc x).
  { unfold sc. rewrite <- (covers_sum BD Ck (chan_own BD V) chans) by (try exact Hch; intros; apply chan_own_lt; lia). apply bsum_ext. intros t Ht. now apply H1. }
  assert (Hu : forall t, t < BD -> let m := lrun inp (step x t) (st2 t) in snd m = [] /\ snd (fst m) = snd (st t) /\ LI t (d ++ [x]) (fst (fst m))).
  { intros t Ht. unfold st2. rewrite after_sum_in by exact Ht. rewrite Hs. destruct (H1 t Ht) as (E1 & E2 & E3). rewrite E1. destruct (HI0 t Ht) as (I1 & I2 & I3).
    apply (HS d x r t _ _ E Ht).
    - apply (LIf t d (fst (st t))); [|exact I3]. intros r0 Hr. rewrite put_ne by (unfold r_dot; lia). now apply E3.
    - apply put_eq.
    - intros Ew. now apply I2. }
  split.
  - intros t Ht. rewrite after_in by exact Ht. destruct (Hu t Ht) as (_ & U2 & U3). rewrite U2. destruct (HI0 t Ht) as (I1 & I2 & _). auto.
  - rewrite app_nil_r. rewrite !quiet; [reflexivity| |]; intros t Ht; [apply (Hu t Ht)|apply (Hd t Ht)].
Qed.
Lemma group_trace : forall st, ftrace gprog st = flat_map FT (seq 0 BD).
Proof.
  intros st. unfold gprog. rewrite ftrace_app. destruct (begin_run st) as [I0 E0]. rewrite E0. cbn [app]. rewrite ftrace_app.
  destruct (floop inp BD rown rpub _ gentry (fun _ => []) sinv (listed act) _ I0) as [I1 E1]; [intros d x r s E H; now apply (gentry_run d x r)|].
  rewrite E1, flat_map_nil. cbn [app WarpKernelProofs.ftrace ftrace1]. rewrite app_nil_r. apply flat_map_in_ext. intros t Ht. apply in_seq in Ht. destruct (I1 t ltac:(lia)) as (_ & _ & I3).
  set (m := fend _ _ t) in *. rewrite (surjective_pairing m). apply HF; [lia|exact I3].
Qed.
End Group.
