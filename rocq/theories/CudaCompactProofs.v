From Coq Require Import List Arith NArith Bool Lia Permutation.
From Verif Require Import CudaCompactModel.
Import ListNotations.
Local Open Scope nat_scope.

Lemma setbits_spec : forall (pred : nat -> bool) l m i, N.testbit (fold_left (fun m l => if pred l then N.setbit m (N.of_nat l) else m) l m) (N.of_nat i) = N.testbit m (N.of_nat i) || (existsb (fun j => (j =? i) && pred j) l).
Proof.
  induction l as [|a l IH]; intros m i; cbn [fold_left existsb]; [now rewrite orb_false_r|]. rewrite IH. destruct (pred a) eqn:Ea.
  - rewrite N.setbit_eqb. destruct (Nat.eqb_spec a i).
    + subst. rewrite N.eqb_refl. cbn. now rewrite orb_true_r.
    + replace (N.eqb (N.of_nat a) (N.of_nat i)) with false by (symmetry; apply N.eqb_neq; lia). cbn. reflexivity.
  - now rewrite andb_false_r.
Qed.
Lemma ballot_spec : forall pred i, i < 32 -> N.testbit (ballot pred) (N.of_nat i) = pred i.
Proof.
  intros pred i Hi. unfold ballot. rewrite setbits_spec, N.bits_0. cbn [orb]. destruct (pred i) eqn:E.
  - apply existsb_exists. exists i. split; [apply in_seq; lia|]. now rewrite Nat.eqb_refl, E.
  - apply not_true_is_false. intros H. apply existsb_exists in H as [j [_ H]]. apply andb_true_iff in H as [A B]. apply Nat.eqb_eq in A. congruence.
Qed.
Lemma filter_seq_ext : forall (f g : nat -> bool) a n, (forall i, a <= i < a + n -> f i = g i) -> filter f (seq a n) = filter g (seq a n).
Proof. intros f g a n H. apply filter_ext_in. intros i Hi. apply in_seq in Hi. apply H. lia. Qed.
Lemma filter_none : forall (f : nat -> bool) a n, (forall i, a <= i < a + n -> f i = false) -> filter f (seq a n) = [].
Proof. intros f a n H. rewrite (filter_seq_ext f (fun _ => false)) by exact H. now induction (seq a n). Qed.
Lemma warp_compact_spec : forall pred lane, lane < 32 -> warp_compact pred lane = (length (filter pred (seq 0 lane)), length (filter pred (seq 0 32))).
Proof.
  intros pred lane Hl. unfold warp_compact, popc, lanemask_lt. f_equal.
  - replace 32 with (lane + (32 - lane)) by lia. rewrite seq_app, filter_app, app_length. rewrite (filter_none _ (0 + lane)).
    + cbn [length]. rewrite Nat.add_0_r. f_equal. apply filter_seq_ext. intros i Hi. rewrite N.land_spec, ballot_spec, N.ones_spec_low by lia. apply andb_true_r.
    + intros i Hi. rewrite N.land_spec, N.ones_spec_high by lia. apply andb_false_r.
  - f_equal. apply filter_seq_ext. intros i Hi. apply ballot_spec. lia.
Qed.

Definition psum (v : nat -> nat) (n : nat) : nat := list_sum (map v (seq 0 n)).
Lemma psum_0 : forall v, psum v 0 = 0.
Proof. reflexivity. Qed.
Lemma psum_S : forall v n, psum v (S n) = psum v n + v n.
Proof. intros. unfold psum. rewrite seq_S, map_app, list_sum_app. cbn. lia. Qed.
Lemma shfl_scan_spec : forall v nwarp turns i val, 1 <= i -> (forall l, val l + psum v (S l - i) = psum v (S l)) -> nwarp <= i + turns -> forall l, l < nwarp -> shfl_scan turns nwarp i val l = psum v (S l).
Proof.
  intros v nwarp. induction turns as [|k IH]; intros i val Hi Hv Hn l Hl; cbn [shfl_scan].
  - specialize (Hv l). replace (S l - i) with 0 in Hv by lia. rewrite psum_0 in Hv. lia.
  - destruct (Nat.ltb_spec i nwarp).
    + apply IH; [lia| |lia|exact Hl]. intros j. destruct (Nat.leb_spec i j).
      * assert (A := Hv j). assert (B := Hv (j - i)). replace (S j - i) with (S (j - i)) in A by lia. replace (S (j - i) - i) with (S j - i * 2) in B by lia. lia.
      * specialize (Hv j). replace (S j - i * 2) with (S j - i) by lia. exact Hv.
    + specialize (Hv l). replace (S l - i) with 0 in Hv by lia. rewrite psum_0 in Hv. lia.
Qed.
Lemma seq_shift_filter : forall (pred : nat -> bool) a n, length (filter (fun l => pred (a + l)) (seq 0 n)) = length (filter pred (seq a n)).
Proof.
  intros pred a n. revert a. induction n as [|n IH]; intros a; [reflexivity|]. rewrite !seq_S, !filter_app, !app_length, IH. cbn. now destruct (pred (a + n)).
Qed.
Lemma warps_before : forall (pred : nat -> bool) w, psum (fun w => length (filter (fun l => pred (w * 32 + l)) (seq 0 32))) w = length (filter pred (seq 0 (w * 32))).
Proof.
  intros pred. induction w as [|w IH]; [reflexivity|]. rewrite psum_S, IH. replace (S w * 32) with (w * 32 + 32) by lia. rewrite seq_app, filter_app, app_length. f_equal. apply seq_shift_filter.
Qed.
Lemma psum_shift : forall v n nw, S n <= nw -> psum (fun l => if (0 <? l) && (l <? nw) then v (l - 1) else 0) (S n) = psum v n.
Proof.
  intros v n nw H. induction n as [|n IH]; [reflexivity|]. rewrite psum_S, IH by lia. rewrite psum_S. f_equal. replace (0 <? S n) with true by reflexivity. replace (S n <? nw) with true by (symmetry; apply Nat.ltb_lt; lia). cbn [andb]. f_equal. lia.
Qed.
Lemma psum_ext : forall v w n, (forall i, v i = w i) -> psum v n = psum w n.
Proof. intros v w n H. unfold psum. f_equal. apply map_ext. exact H. Qed.

Theorem compact_spec : forall BD pred t, BD mod 32 = 0 -> t < BD -> 1 <= BD -> compact BD pred t = (length (filter pred (seq 0 t)), length (filter pred (seq 0 BD))).
Proof.
  intros BD pred t Hm Ht H1. assert (E := Nat.div_mod BD 32 ltac:(lia)). rewrite Hm in E. unfold compact. destruct (Nat.ltb_spec 32 BD).
  - assert (T := Nat.div_mod t 32 ltac:(lia)). assert (M := Nat.mod_upper_bound t 32 ltac:(lia)). set (w := t / 32) in *. set (x := t mod 32) in *. set (nw := BD / 32) in *.
    assert (Hw : w < nw) by lia. cbv zeta. f_equal. rewrite warp_compact_spec by exact M. cbn [fst].
    rewrite (shfl_scan_spec (fun lid => if (0 <? lid) && (lid <? nw) then snd (warp_compact (fun l => pred ((lid - 1) * 32 + l)) 0) else 0)); [|lia| |lia|exact Hw].
    + rewrite (psum_shift (fun w => snd (warp_compact (fun l => pred (w * 32 + l)) 0))) by lia.
      rewrite (psum_ext _ (fun w => length (filter (fun l => pred (w * 32 + l)) (seq 0 32)))) by (intros; rewrite warp_compact_spec by lia; reflexivity).
      rewrite warps_before. rewrite T. replace (32 * w + x) with (w * 32 + x) by lia. rewrite seq_app, filter_app, app_length, seq_shift_filter. cbn [plus]. lia.
    + intros l. rewrite psum_S. replace (S l - 1) with l by lia. lia.
  - assert (BD = 32) by lia. subst BD. apply warp_compact_spec. exact Ht.
Qed.
(** the places of the threads that found something are 0, 1, ... without gap, in the order of the threads *)
Lemma map_filter_places : forall (pred : nat -> bool) n, map (fun t => length (filter pred (seq 0 t))) (filter pred (seq 0 n)) = seq 0 (length (filter pred (seq 0 n))).
Proof.
  intros pred. induction n as [|n IH]; [reflexivity|]. rewrite seq_S, filter_app, map_app, IH, app_length. cbn [filter plus]. destruct (pred n); cbn [map length]; [|now rewrite Nat.add_0_r, app_nil_r].
  rewrite seq_app. reflexivity.
Qed.
Theorem compact_places : forall BD pred, BD mod 32 = 0 -> 1 <= BD -> map (fun t => fst (compact BD pred t)) (filter pred (seq 0 BD)) = seq 0 (length (filter pred (seq 0 BD))).
Proof.
  intros BD pred Hm H1. rewrite <- map_filter_places. apply map_ext_in. intros t Ht. apply filter_In in Ht as [Ht _]. apply in_seq in Ht. now rewrite compact_spec by lia.
Qed.
