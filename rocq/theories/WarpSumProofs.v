(** What the sums over warps and blocks compute; the channels of the threads. *)
From Coq Require Import List Arith Lia Bool Reals Lra FunctionalExtensionality.
From Verif Require Import TensorModel TensorProofs BigSum GpuModel GpuSpec GpuProofs GpuProofs2 WarpProofs CudaWarpModel.
Import ListNotations.
Local Open Scope nat_scope.

(** ** Exchanges within a warp *)
Lemma land_low : forall w j, j < 32 -> Nat.land (w * 32) j = 0.
Proof.
  intros w j Hj. apply Nat.bits_inj_0. intros n. rewrite Nat.land_spec. change 32 with (2 ^ 5). destruct (Nat.lt_ge_cases n 5).
  - now rewrite Nat.mul_pow2_bits_low.
  - rewrite <- (Nat.mod_small j (2 ^ 5)) by exact Hj. rewrite Nat.mod_pow2_bits_high by auto. apply andb_false_r.
Qed.
Definition stages := [16; 8; 4; 2; 1].
Lemma lxor_small : forall i j, In i stages -> j < 32 -> Nat.lxor j i < 32.
Proof.
  intros i j Hi Hj. assert (Q : forallb (fun i => forallb (fun j => Nat.lxor j i <? 32) (seq 0 32)) stages = true) by (vm_compute; reflexivity).
  rewrite forallb_forall in Q. specialize (Q i Hi). rewrite forallb_forall in Q. apply Nat.ltb_lt. apply Q. apply in_seq. lia.
Qed.
Lemma lxor_warp : forall w j i, In i stages -> j < 32 -> Nat.lxor (w * 32 + j) i = w * 32 + Nat.lxor j i.
Proof.
  intros w j i Hi Hj. rewrite (Nat.add_nocarry_lxor _ _ (land_low w j Hj)), Nat.lxor_assoc. symmetry. apply Nat.add_nocarry_lxor. apply land_low. now apply lxor_small.
Qed.
Lemma split32 : forall t, t = t / warp_size * 32 + t mod warp_size /\ t mod warp_size < 32.
Proof. intros t. unfold warp_size. pose proof (Nat.div_mod t 32). pose proof (Nat.mod_upper_bound t 32). lia. Qed.
Lemma div32 : forall w j, j < 32 -> (w * 32 + j) / warp_size = w.
Proof. intros. unfold warp_size. rewrite Nat.div_add_l by lia. rewrite Nat.div_small by lia. lia. Qed.
Lemma mod32 : forall w j, j < 32 -> (w * 32 + j) mod warp_size = j.
Proof. intros. unfold warp_size. rewrite Nat.add_comm, Nat.mod_add by lia. now apply Nat.mod_small. Qed.

Section Sum.
Variables (inp : nat -> R) (NW : nat).
Notation nT := (32 * NW).
Lemma lt_warp : forall t, t < nT <-> t / warp_size < NW.
Proof. intros t. unfold warp_size. split; intros H; [apply Nat.div_lt_upper_bound; lia|]. pose proof (Nat.div_mod t 32). pose proof (Nat.mod_upper_bound t 32). nia. Qed.
Lemma shf_stage : forall who r i rg sh out, In i stages ->
  run_step inp nT (rg, sh, out) (Shf who (fun t all => put r (all t r + all (Nat.lxor t i) r)%R (all t))) =
  (fun t => if (t <? nT) && who (t / warp_size) then put r (rg t r + rg (Nat.lxor t i) r)%R (rg t) else rg t, sh, out).
Proof.
  intros who r i rg sh out Hi. cbn [run_step]. f_equal. f_equal. apply functional_extensionality. intros t. destruct (Nat.ltb_spec t nT) as [Ht|]; [|reflexivity]. cbn [andb]. destruct (who _); [|reflexivity].
  destruct (split32 t) as [Et Hm]. unfold warp_regs. rewrite (proj2 (Nat.ltb_lt t nT)), Nat.eqb_refl by auto. cbn [andb].
  assert (X : Nat.lxor t i / warp_size = t / warp_size). { rewrite Et at 1. rewrite lxor_warp by auto. apply div32. now apply lxor_small. }
  rewrite X, Nat.eqb_refl. assert (Nat.lxor t i < nT) by (apply lt_warp; rewrite X; now apply lt_warp). rewrite (proj2 (Nat.ltb_lt _ _)) by auto. reflexivity.
Qed.
Definition xs_step (l : list nat) (i : nat) : list nat := l ++ map (Nat.lxor i) l.
Definition xs : list nat := fold_left xs_step stages [0].
Definition st1 (v : nat -> R) (i : nat) : nat -> R := fun j => (v j + v (Nat.lxor j i))%R.
Lemma stage_sum : forall v l i j, st1 (fun j => rlsum (fun s => v (Nat.lxor j s)) l) i j = rlsum (fun s => v (Nat.lxor j s)) (xs_step l i).
Proof.
  intros v l i j. unfold st1, xs_step. rewrite (lsum_app RT), lsum_map. f_equal. apply lsum_ext. intros s _. now rewrite Nat.lxor_assoc.
Qed.
Lemma stages_sum : forall v is l j, fold_left st1 is (fun j => rlsum (fun s => v (Nat.lxor j s)) l) j = rlsum (fun s => v (Nat.lxor j s)) (fold_left xs_step is l).
Proof.
  intros v is. induction is as [|i is IH]; intros l j; [reflexivity|]. cbn [fold_left]. rewrite <- IH. f_equal. f_equal. apply functional_extensionality. intros j'. apply stage_sum.
Qed.
Lemma xs_perm : forall j, j < 32 -> Permutation.Permutation (map (Nat.lxor j) xs) (seq 0 32).
Proof.
  intros j Hj.
  assert (Q : forallb (fun j => forallb (fun x => x <? 32) (map (Nat.lxor j) xs) && if list_eq_dec Nat.eq_dec (nodup Nat.eq_dec (map (Nat.lxor j) xs)) (map (Nat.lxor j) xs) then true else false) (seq 0 32) = true) by (vm_compute; reflexivity).
  rewrite forallb_forall in Q. specialize (Q j ltac:(apply in_seq; lia)). apply andb_true_iff in Q. destruct Q as [Q1 Q2]. destruct (list_eq_dec _ _ _) as [Q3|]; [|discriminate]. apply Permutation.NoDup_Permutation_bis.
  - rewrite <- Q3. apply NoDup_nodup.
  - rewrite seq_length, map_length. apply Nat.leb_le. vm_compute. reflexivity.
  - intros x Hx. rewrite forallb_forall in Q1. specialize (Q1 x Hx). apply Nat.ltb_lt in Q1. apply in_seq. lia.
Qed.
Lemma butterfly : forall (v : nat -> R) j, j < 32 -> fold_left st1 stages v j = rsum 32 v.
Proof.
  intros v j Hj. transitivity (fold_left st1 stages (fun j => rlsum (fun s => v (Nat.lxor j s)) [0]) j).
  { f_equal. f_equal. apply functional_extensionality. intros j'. cbn [lsum_ fold_right]. rewrite Nat.lxor_0_r. ring. }
  rewrite stages_sum. change (fold_left xs_step stages [0]) with xs. rewrite <- (lsum_map _ _ (Nat.lxor j) v). rewrite (lsum_perm RT _ v _ _ (xs_perm j Hj)). apply (lsum_seq RT).
Qed.
Lemma st1_ext : forall is j (v v' : nat -> R), incl is stages -> j < 32 -> (forall j, j < 32 -> v j = v' j) -> fold_left st1 is v j = fold_left st1 is v' j.
Proof.
  induction is as [|i is IH]; intros j v v' Hin Hj Hv; [auto|]. cbn [fold_left]. apply IH; [intros x Hx; apply Hin; now right|exact Hj|].
  intros j' Hj'. unfold st1. rewrite !Hv; auto. apply lxor_small; [apply Hin; now left|auto].
Qed.
(** the values of register r after the stages *)
Lemma warp_sum_run : forall who r rg sh out, exists rg', run_prog inp nT (warp_sum who r) (rg, sh, out) = (rg', sh, out) /\
  forall t, rg' t = if (t <? nT) && who (t / warp_size) then put r (rsum 32 (fun j => rg (t / warp_size * 32 + j) r)) (rg t) else rg t.
Proof.
  intros who r rg sh out. unfold warp_sum, run_prog. fold stages.
  assert (G : forall is, incl is stages -> forall rg, exists rg', fold_left (run_step inp nT) (map (fun i => Shf who (fun t all => put r (all t r + all (Nat.lxor t i) r)%R (all t))) is) (rg, sh, out) = (rg', sh, out) /\
     forall t, rg' t = if (t <? nT) && who (t / warp_size) then put r (fold_left st1 is (fun j => rg (t / warp_size * 32 + j) r) (t mod warp_size)) (rg t) else rg t).
  { induction is as [|i is IH]; intros Hin rg0.
    - exists rg0. split; [reflexivity|]. intros t. destruct (_ && _); [|reflexivity]. cbn [fold_left]. destruct (split32 t) as [<- _]. now rewrite put_same.
    - cbn [map fold_left]. rewrite shf_stage by (apply Hin; now left). destruct (IH (fun x Hx => Hin x (or_intror Hx)) (fun t => if (t <? nT) && who (t / warp_size) then put r (rg0 t r + rg0 (Nat.lxor t i) r)%R (rg0 t) else rg0 t)) as (rg' & E & H).
      exists rg'. split; [exact E|]. intros t. rewrite H. destruct ((t <? nT) && who (t / warp_size)) eqn:Q; [|reflexivity]. rewrite put_put. f_equal.
      destruct (split32 t) as [Et Hm]. apply andb_true_iff in Q. destruct Q as [Q1 Q2]. apply Nat.ltb_lt in Q1.
      apply st1_ext; [intros x Hx; apply Hin; now right|exact Hm|]. intros j Hj. rewrite div32, Q2 by auto. assert (Y : t / warp_size * 32 + j < nT) by (apply lt_warp; rewrite div32 by auto; now apply lt_warp). rewrite (proj2 (Nat.ltb_lt _ _)) by auto. cbn [andb].
      rewrite put_eq. unfold st1. now rewrite lxor_warp by (auto; apply Hin; now left). }
  destruct (G stages (incl_refl _) rg) as (rg' & E & H). exists rg'. split; [exact E|]. intros t. rewrite H. destruct (_ && _); [|reflexivity]. f_equal. apply butterfly. apply split32.
Qed.

(** ** Sums over a block *)
Lemma seg_pure : forall p F rg sh out, (forall t rg out, t < nT -> run_instrs inp (p t) (rg, sh, out) = (F t rg, sh, out)) ->
  run_step inp nT (rg, sh, out) (Seg p) = (fun t => if t <? nT then F t (rg t) else rg t, sh, out).
Proof.
  intros p F rg sh out H. cbn [run_step]. assert (G : forall n, n <= nT -> fold_left (turn1 inp p) (seq 0 n) (rg, sh, out) = (fun t => if t <? n then F t (rg t) else rg t, sh, out)).
  { induction n as [|n IH]; intros Hn; [reflexivity|]. rewrite seq_S, fold_left_app, IH by lia. cbn [fold_left plus]. unfold turn1. rewrite Nat.ltb_irrefl, H by lia. f_equal. f_equal. apply functional_extensionality. intros t.
    unfold put. destruct (Nat.eqb_spec t n) as [->|]; [now rewrite (proj2 (Nat.ltb_lt n (Datatypes.S n))) by lia|]. destruct (Nat.ltb_spec t n), (Nat.ltb_spec t (Datatypes.S n)); auto; lia. }
  apply G. lia.
Qed.
Lemma seg_store : forall p St rg sh out, (forall t rg sh out, run_instrs inp (p t) (rg, sh, out) = (rg, St t rg sh, out)) ->
  run_step inp nT (rg, sh, out) (Seg p) = (rg, fold_left (fun sh t => St t (rg t) sh) (seq 0 nT) sh, out).
Proof.
  intros p St rg sh out H. cbn [run_step]. generalize (seq 0 nT). intros l. revert sh. induction l as [|t l IH]; intros sh; [reflexivity|]. cbn [fold_left]. unfold turn1 at 2. rewrite H, put_same. apply IH.
Qed.
Lemma bar_run : forall rg sh out, run_step inp nT (rg, sh, out) (Bar (fun t all => all t)) = (rg, sh, out).
Proof. intros. cbn [run_step]. f_equal. f_equal. apply functional_extensionality. intros t. now destruct (t <? nT). Qed.
Lemma shf_id : forall who rg sh out, run_step inp nT (rg, sh, out) (Shf who (fun t all => all t)) = (rg, sh, out).
Proof.
  intros. cbn [run_step]. f_equal. f_equal. apply functional_extensionality. intros t. destruct (t <? nT) eqn:E; [|reflexivity]. cbn [andb]. destruct (who _); [|reflexivity]. unfold warp_regs. now rewrite E, Nat.eqb_refl.
Qed.
Lemma heads_store : forall sc r (rg : nat -> nat -> R) sh, let sh' := fold_left (fun sh t => if t mod warp_size =? 0 then put (sc + t / warp_size) (rg t r) sh else sh) (seq 0 nT) sh in
  (forall w, w < NW -> sh' (sc + w) = rg (w * 32) r) /\ (forall a, (a < sc \/ sc + NW <= a) -> sh' a = sh a).
Proof.
  intros sc r rg sh. cbv zeta.
  assert (G : forall n, n <= nT -> let sh' := fold_left (fun sh t => if t mod warp_size =? 0 then put (sc + t / warp_size) (rg t r) sh else sh) (seq 0 n) sh in
     (forall w, w * 32 < n -> sh' (sc + w) = rg (w * 32) r) /\ (forall a, (a < sc \/ sc + NW <= a) -> sh' a = sh a)).
  { induction n as [|n IH]; intros Hn; cbv zeta; [split; [intros; lia|reflexivity]|]. destruct (IH ltac:(lia)) as [I1 I2]. rewrite seq_S, fold_left_app. cbn [fold_left plus]. set (s0 := fold_left _ _ _) in *. clearbody s0. destruct (split32 n) as [En Hm].
    destruct (Nat.eqb_spec (n mod warp_size) 0) as [E|E].
    - split.
      + intros w Hw. unfold put. destruct (Nat.eqb_spec (sc + w) (sc + n / warp_size)) as [Ew|Nw]; [f_equal; lia|]. apply I1. lia.
      + intros a Ha. rewrite put_ne; auto. assert (n / warp_size < NW) by (apply lt_warp; lia). lia.
    - split; [|exact I2]. intros w Hw. apply I1. lia. }
  destruct (G nT (le_n _)) as [G1 G2]. split; [intros; apply G1; lia|exact G2].
Qed.
Theorem block_sum_run : forall sc r rg sh out, 1 <= NW <= 32 -> exists rg' sh', run_prog inp nT (block_sum NW sc r) (rg, sh, out) = (rg', sh', out) /\
  (forall a, (a < sc \/ sc + NW <= a) -> sh' a = sh a) /\ forall t, rg' t = if t <? nT then put r (rsum nT (fun t' => rg t' r)) (rg t) else rg t.
Proof.
  intros sc r rg sh out HN. unfold block_sum. destruct (warp_sum_run (fun _ => true) r rg sh out) as (rg1 & E1 & H1).
  unfold run_prog in *. rewrite fold_left_app, E1. destruct (Nat.ltb_spec 1 NW) as [Hl|Hl].
  2: { assert (NW = 1) by lia. exists rg1, sh. split; [reflexivity|]. split; [reflexivity|]. intros t. rewrite H1, andb_true_r. destruct (Nat.ltb_spec t nT) as [Ht|]; [|reflexivity]. f_equal.
       replace nT with 32 by lia. rewrite (proj1 (Nat.div_small_iff t warp_size ltac:(discriminate)) ltac:(lia)) || replace (t / warp_size) with 0 by (symmetry; apply Nat.div_small; unfold warp_size; lia). reflexivity. }
  rewrite fold_left_app. cbn [fold_left].
  rewrite (seg_store _ (fun t rg sh => if t mod warp_size =? 0 then put (sc + t / warp_size) (rg r) sh else sh)) by (intros t rg0 sh0 out0; destruct (t mod warp_size =? 0); reflexivity).
  destruct (heads_store sc r rg1 sh) as [S1 S2]. set (sh1 := fold_left _ _ sh) in *. clearbody sh1. rewrite bar_run.
  rewrite (seg_pure _ (fun t rg => if t / warp_size =? 0 then put r (if t mod warp_size <? NW then sh1 (sc + t mod warp_size) else 0%R) rg else rg)).
  2: { intros t rg0 out0 Ht. destruct (t / warp_size =? 0); [|reflexivity]. destruct (t mod warp_size <? NW); reflexivity. }
  match goal with |- context [fold_left _ _ (?x, sh1, out)] => set (rg2 := x) end. destruct (warp_sum_run (fun w => w =? 0) r rg2 sh1 out) as (rg3 & E3 & H3). unfold run_prog in E3. rewrite fold_left_app, E3. cbn [fold_left]. rewrite shf_id.
  rewrite (seg_store _ (fun t rg sh => if (t / warp_size =? 0) && (t mod warp_size =? 0) then put sc (rg r) sh else sh)) by (intros t rg0 sh0 out0; destruct (_ && _); reflexivity).
  set (tot := rsum nT (fun t' => rg t' r)).
  assert (T0 : rg3 0 r = tot).
  { rewrite H3. rewrite (proj2 (Nat.ltb_lt 0 nT)), (Nat.div_small 0 warp_size) by (unfold warp_size; lia). cbn [andb Nat.eqb]. rewrite put_eq.
    assert (Et : tot = rsum NW (fun w => rsum 32 (fun j => rg (w * 32 + j) r))) by (unfold tot; rewrite (Nat.mul_comm 32 NW); apply (bsum_mul_range RT)).
    assert (Y : forall f, rsum 32 f = (rsum NW f + rsum (32 - NW) (fun i => f (NW + i)%nat))%R) by (intros f; rewrite <- (bsum_split RT); f_equal; lia).
    rewrite Et, (Y (fun j => rg2 (0 * 32 + j) r)). rewrite (bsum_zero' RT (32 - NW)).
    - rewrite Rplus_0_r. apply bsum_ext. intros w Hw. unfold rg2. rewrite (proj2 (Nat.ltb_lt _ nT)) by lia. cbn [Nat.mul plus]. rewrite (Nat.div_small w warp_size), (Nat.mod_small w warp_size) by (unfold warp_size; lia). cbn [Nat.eqb].
      rewrite put_eq, (proj2 (Nat.ltb_lt w NW)) by lia. rewrite S1, H1 by lia. rewrite (proj2 (Nat.ltb_lt _ nT)) by lia. cbn [andb]. rewrite put_eq. pose proof (div32 w 0 ltac:(lia)) as D. rewrite Nat.add_0_r in D. now rewrite D.
    - intros j Hj. unfold rg2. rewrite (proj2 (Nat.ltb_lt _ nT)) by lia. cbn [Nat.mul plus]. rewrite (Nat.div_small _ warp_size), (Nat.mod_small _ warp_size) by (unfold warp_size; lia). cbn [Nat.eqb].
      rewrite put_eq. destruct (Nat.ltb_spec (NW + j) NW); [lia|reflexivity]. }
  match goal with |- context [fold_left ?F (seq 0 nT) sh1] => set (sh2 := fold_left F (seq 0 nT) sh1); assert (S3 : sh2 sc = tot /\ forall a, (a < sc \/ sc + NW <= a) -> sh2 a = sh a) end.
  { unfold sh2. assert (G : forall n, 1 <= n -> fold_left (fun sh t => if (t / warp_size =? 0) && (t mod warp_size =? 0) then put sc (rg3 t r) sh else sh) (seq 0 n) sh1 = put sc tot sh1).
    { induction n as [|n IH]; intros Hn; [lia|]. destruct n as [|n]; [cbn; now rewrite T0|]. rewrite seq_S, fold_left_app, IH by lia. cbn [fold_left plus]. destruct (split32 (Datatypes.S n)) as [En _].
      destruct (Nat.eqb_spec (Datatypes.S n / warp_size) 0), (Nat.eqb_spec (Datatypes.S n mod warp_size) 0); cbn [andb]; try reflexivity. exfalso. lia. }
    rewrite G by lia. split; [apply put_eq|]. intros a Ha. rewrite put_ne by lia. auto. }
  clearbody sh2. destruct S3 as [S3 S4]. rewrite bar_run. rewrite (seg_pure _ (fun t rg => put r tot rg)) by (intros t rg0 out0 Ht; cbn; now rewrite S3). rewrite bar_run.
  eexists. exists sh2. split; [reflexivity|]. split; [exact S4|]. intros t. destruct (Nat.ltb_spec t nT) as [Ht|Ht].
  - assert (X : forall rg0, rg3 t = put r (rg0 t) (rg t) -> put r tot (rg3 t) = put r tot (rg t)) by (intros rg0 ->; apply put_put).
    rewrite H3. unfold rg2. apply Nat.ltb_lt in Ht. rewrite Ht, H1, Ht. cbn [andb]. destruct (t / warp_size =? 0); rewrite !put_put; reflexivity.
  - rewrite H3. unfold rg2. apply Nat.ltb_ge in Ht. rewrite Ht, H1, Ht. reflexivity.
Qed.
End Sum.
