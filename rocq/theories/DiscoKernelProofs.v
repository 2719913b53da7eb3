(** The CPU and the reference kernels compute the specified sums. *)
From Coq Require Import List Arith Lia Bool Reals Lra Permutation Sorted.
From Verif Require Import TensorModel TensorProofs BigSum DiscoModel DiscoSpec DiscoSortProofs DiscoRunProofs.
Import ListNotations.
Local Open Scope nat_scope.

Definition runs_ok (rs : list (list entry)) : Prop :=
  (forall r, In r rs -> r <> []) /\ (forall r, In r rs -> same_key r).

(** ** Forward *)
Section Fwd.
Variables (Wi Wo pscale : nat).
Hypothesis (HWo : 1 <= Wo) (HW : Wi = pscale * Wo) (HWi : 1 <= Wi).
Variable inp : nat -> nat -> R.

Definition fterm (w : nat) (e : entry) : R := (pv e * inp (col e / Wi)%nat ((col e mod Wi + pscale * w) mod Wi)%nat)%R.

Lemma dbl_mod : forall j, j < 2 * Wi -> (if j <? Wi then j else j - Wi) = j mod Wi.
Proof.
  intros. destruct (Nat.ltb_spec j Wi); [symmetry; apply Nat.mod_small; auto|].
  replace j with ((j - Wi) + 1 * Wi) at 2 by lia. rewrite Nat.mod_add by lia. symmetry. apply Nat.mod_small. lia.
Qed.

Definition fwd_inv (st : fwd_st) : Prop :=
  forall h, f_prev st = Some h -> forall j, j < 2 * Wi -> f_sh st j = inp h (j mod Wi).
Lemma fwd_entry_inv : forall st e, fwd_inv st ->
  fwd_inv (fwd_entry Wi Wo pscale inp st e) /\
  forall w, w < Wo -> f_tmp (fwd_entry Wi Wo pscale inp st e) w = (f_tmp st w + fterm w e)%R.
Proof.
  intros st e I. unfold fwd_entry. set (hi := col e / Wi). set (wi := col e mod Wi).
  set (fresh := fun j => if j <? Wi then inp hi j else if j <? 2 * Wi then inp hi (j - Wi) else f_sh st j).
  assert (Fr : forall j, j < 2 * Wi -> fresh j = inp hi (j mod Wi)).
  { intros j Hj. unfold fresh. rewrite <- dbl_mod by auto. destruct (Nat.ltb_spec j Wi); [reflexivity|].
    destruct (Nat.ltb_spec j (2 * Wi)); [reflexivity|lia]. }
  set (sh := match f_prev st with Some h => if h =? hi then f_sh st else fresh | None => fresh end).
  assert (Sh : forall j, j < 2 * Wi -> sh j = inp hi (j mod Wi)).
  { intros j Hj. unfold sh. destruct (f_prev st) as [h|] eqn:E; [|apply Fr; auto].
    destruct (Nat.eqb_spec h hi); [subst h; apply I; auto|apply Fr; auto]. }
  split.
  - intros h Hh. cbn [f_prev] in Hh. injection Hh as <-. intros. cbn [f_sh]. apply Sh; auto.
  - intros w Hw. cbn [f_tmp]. destruct (Nat.ltb_spec w Wo); [|lia]. unfold fterm. fold hi wi.
    rewrite Sh; [reflexivity|]. assert (wi < Wi) by (apply Nat.mod_upper_bound; lia). nia.
Qed.
Lemma fwd_run : forall l st, fwd_inv st ->
  forall w, w < Wo -> f_tmp (fold_left (fwd_entry Wi Wo pscale inp) l st) w = (f_tmp st w + rlsum (fterm w) l)%R.
Proof.
  induction l; intros; simpl; [rewrite Rplus_0_r; reflexivity|].
  destruct (fwd_entry_inv st a H). rewrite IHl by auto. rewrite H2 by auto. ring.
Qed.

Definition fwd_g (s : (nat -> R) * (nat -> nat -> nat -> R)) (e0 : entry) (r : list entry) : (nat -> R) * (nat -> nat -> nat -> R) :=
  let f := fold_left (fwd_entry Wi Wo pscale inp) r (mkF None (fst s) (fun _ => 0%R)) in
  (f_sh f, fun k t w => if (k =? ker e0) && (t =? row e0) && (w <? Wo) then f_tmp f w else snd s k t w).
Definition run_step {S} (g : S -> entry -> list entry -> S) (s : S) (r : list entry) : S :=
  match r with e0 :: _ => g s e0 r | [] => s end.
Lemma fold_left_ext : forall A B (f g : A -> B -> A) l s, (forall s x, f s x = g s x) -> fold_left f l s = fold_left g l s.
Proof. intros A B f g l. induction l; intros; simpl; auto. rewrite H. apply IHl; auto. Qed.

Lemma fwd_rows_runs : forall rs junk, (forall r, In r rs -> r <> []) -> 
  fwd_plane Wi Wo pscale (starts 0 rs) (concat rs) junk inp = Some (snd (fold_left (run_step fwd_g) rs (junk, fun _ _ _ => 0%R))).
Proof.
  intros rs junk NE. unfold fwd_plane.
  transitivity (do s <- Some (fold_left (run_step fwd_g) rs (junk, fun _ _ _ => 0%R)); Some (snd s)); [|reflexivity].
  f_equal. unfold run_step.
  rewrite <- (fold_runs _ fwd_g rs (junk, fun _ _ _ => 0%R) (starts 0 rs) (concat rs) NE eq_refl eq_refl).
  apply fold_left_ext. intros [[sh out]|] r; [|reflexivity]. unfold fwd_row. cbn [bindo].
  destruct (nth_error _ _); reflexivity.
Qed.

(** the value at (k, t, w): the run headed by (k, t), if any *)
Lemma fwd_runs_val : forall rs s k t w, w < Wo -> NoDup (heads rs) -> (forall r, In r rs -> same_key r /\ r <> []) ->
  (In (k, t) (heads rs) -> snd s k t w = 0%R) ->
  snd (fold_left (run_step fwd_g) rs s) k t w =
  (snd s k t w + rlsum (fun e => if (ker e =? k) && (row e =? t) then fterm w e else 0%R) (concat rs))%R.
Proof.
  induction rs as [|r rs IH]; intros s k t w Hw ND SK Z.
  - simpl. rewrite Rplus_0_r. reflexivity.
  - cbn [fold_left concat]. inversion ND; subst. destruct (SK r (or_introl eq_refl)) as [Kr Nr].
    destruct r as [|e0 r]; [congruence|]. cbn [run_step].
    rewrite (lsum_app RT).
    assert (E : rlsum (fun e => if (ker e =? k) && (row e =? t) then fterm w e else 0%R) (e0 :: r) =
                if (ker e0 =? k) && (row e0 =? t) then rlsum (fterm w) (e0 :: r) else 0%R).
    { destruct ((ker e0 =? k) && (row e0 =? t)) eqn:E.
      - apply lsum_ext. intros e He. specialize (Kr e e0 He (or_introl eq_refl)). unfold key in Kr. injection Kr as -> ->. rewrite E. reflexivity.
      - transitivity (rlsum (fun _ : entry => 0%R) (e0 :: r)); [|apply (lsum_zero RT)].
        apply lsum_ext. intros e He. specialize (Kr e e0 He (or_introl eq_refl)). unfold key in Kr. injection Kr as -> ->. rewrite E. reflexivity. }
    rewrite E.
    assert (V : snd (fwd_g s e0 (e0 :: r)) k t w =
                if (ker e0 =? k) && (row e0 =? t) then rlsum (fterm w) (e0 :: r) else snd s k t w).
    { unfold fwd_g. cbn [snd]. rewrite (Nat.eqb_sym k), (Nat.eqb_sym t).
      destruct (Nat.ltb_spec w Wo); [|lia]. rewrite andb_true_r.
      destruct ((ker e0 =? k) && (row e0 =? t)); [|reflexivity].
      rewrite fwd_run; [cbn [f_tmp]; ring| |auto]. intros h Hh. discriminate. }
    destruct ((ker e0 =? k) && (row e0 =? t)) eqn:E0.
    + apply andb_true_iff in E0. destruct E0 as [A B]. apply Nat.eqb_eq in A. apply Nat.eqb_eq in B. subst k t.
      assert (Z0 : snd s (ker e0) (row e0) w = 0%R) by (apply Z; left; reflexivity). rewrite Z0.
      change (snd (fold_left (run_step fwd_g) rs (fwd_g s e0 (e0 :: r))) (ker e0) (row e0) w = 
              (0 + (rlsum (fterm w) (e0 :: r) + rlsum (fun e => if (ker e =? ker e0) && (row e =? row e0) then fterm w e else 0%R) (concat rs)))%R).
      assert (Q : forall rs s', ~ In (key e0) (heads rs) -> (forall r, In r rs -> r <> []) ->
         snd (fold_left (run_step fwd_g) rs s') (ker e0) (row e0) w = snd s' (ker e0) (row e0) w).
      { clear -Hw. induction rs as [|r rs IH]; intros s' Hn Ne; [reflexivity|]. simpl in Hn. cbn [fold_left].
        rewrite IH; [|tauto|intros; apply Ne; right; auto].
        destruct r as [|x r]; [exfalso; apply (Ne []); [left|]; reflexivity|].
        unfold run_step, fwd_g; cbn [snd].
        destruct ((ker e0 =? ker x) && (row e0 =? row x)) eqn:E; [|reflexivity].
        exfalso. apply andb_true_iff in E. destruct E as [A B]. apply Nat.eqb_eq in A. apply Nat.eqb_eq in B.
        apply Hn. left. unfold key. congruence. }
      rewrite Q; [|exact H1|intros; apply SK; right; auto]. rewrite V.
      assert (Zs : rlsum (fun e => if (ker e =? ker e0) && (row e =? row e0) then fterm w e else 0%R) (concat rs) = 0%R).
      { transitivity (rlsum (fun _ : entry => 0%R) (concat rs)); [|apply (lsum_zero RT)].
        apply lsum_ext. intros e He. apply in_concat in He. destruct He as (r' & Hr' & He).
        destruct ((ker e =? ker e0) && (row e =? row e0)) eqn:Ee; [|reflexivity].
        exfalso. apply andb_true_iff in Ee. destruct Ee as [A B]. apply Nat.eqb_eq in A. apply Nat.eqb_eq in B.
        apply H1. destruct (SK r' (or_intror Hr')) as [Kr' Nr']. destruct r' as [|x r']; [congruence|].
        apply in_map_iff. exists (x :: r'). split; [|auto]. rewrite (Kr' x e (or_introl eq_refl) He). unfold key. congruence. }
      rewrite Zs. ring.
    + rewrite IH; auto; [|intros; apply SK; right; auto|].
      * rewrite V. ring.
      * intros Hin. rewrite V. apply Z. right; auto.
Qed.
End Fwd.

Lemma fwd_plane_spec : forall Wi Wo pscale junk inp rs, 1 <= Wo -> Wi = pscale * Wo -> 1 <= Wi ->
  runs_ok rs -> NoDup (heads rs) ->
  exists out, fwd_plane Wi Wo pscale (starts 0 rs) (concat rs) junk inp = Some out /\
    forall k t w, w < Wo -> out k t w = disco_sum Wi pscale (concat rs) inp k t w.
Proof.
  intros Wi Wo pscale junk inp rs H1 H2 H3 [NE SK] ND. eexists. split; [apply fwd_rows_runs; auto|].
  intros k t w Hw. rewrite (fwd_runs_val Wi Wo pscale H1 H2 H3) by (auto; intros; simpl; auto).
  simpl. rewrite Rplus_0_l. reflexivity.
Qed.

(** ** Backward *)
Section Bwd.
Variables (Wi Wo ps : nat).
Hypothesis (HWi : 1 <= Wi) (Hps : 1 <= ps) (HW : Wo = ps * Wi).

Definition pos1 (i : nat) : nat := i mod ps * (2 * Wi) + i / ps.
Definition pos2 (i : nat) : nat := i mod ps * (2 * Wi) + Wi + i / ps.
Definition buf (sh : nat -> R) (j : nat) : R := (sh (pos1 j) + sh (pos2 j))%R.
Definition clean (sh : nat -> R) : Prop := forall i, i < Wo -> sh (pos1 i) = 0%R /\ sh (pos2 i) = 0%R.

Lemma dm : forall i, i = ps * (i / ps) + i mod ps /\ i mod ps < ps.
Proof. intros. split; [apply Nat.div_mod; lia|apply Nat.mod_upper_bound; lia]. Qed.
Lemma idx_lt : forall i, i < Wo -> i / ps < Wi.
Proof. intros. apply Nat.div_lt_upper_bound; lia. Qed.
Lemma pos_inj1 : forall i j, i < Wo -> j < Wo -> pos1 i = pos1 j -> i = j.
Proof.
  unfold pos1. intros i j Hi Hj E. pose proof (idx_lt i Hi). pose proof (idx_lt j Hj).
  destruct (dm i), (dm j). assert (i mod ps = j mod ps) by nia. nia.
Qed.
Lemma pos_inj2 : forall i j, i < Wo -> j < Wo -> pos2 i = pos2 j -> i = j.
Proof. intros. apply pos_inj1; auto. unfold pos1, pos2 in *. lia. Qed.
Lemma pos_ne : forall i j, i < Wo -> j < Wo -> pos1 i <> pos2 j.
Proof.
  unfold pos1, pos2. intros i j Hi Hj E. pose proof (idx_lt i Hi). pose proof (idx_lt j Hj).
  destruct (dm i), (dm j). destruct (Nat.lt_trichotomy (i mod ps) (j mod ps)) as [L|[L|L]]; nia.
Qed.

Lemma flush_loop : forall n sh out ho, n <= Wo ->
  let st := fold_left (flush_step Wi ps ho) (seq 0 n) (sh, out) in
  (forall i, i < n -> fst st (pos1 i) = 0%R /\ fst st (pos2 i) = 0%R) /\
  (forall i, n <= i < Wo -> fst st (pos1 i) = sh (pos1 i) /\ fst st (pos2 i) = sh (pos2 i)) /\
  (forall h j, snd st h j = if (h =? ho) && (j <? n) then (out h j + buf sh j)%R else out h j).
Proof.
  induction n; intros sh out ho Hn.
  - cbn. repeat split; intros; try lia. rewrite andb_false_r. reflexivity.
  - rewrite seq_S, fold_left_app. cbn [fold_left Nat.add].
    specialize (IHn sh out ho ltac:(lia)). cbn zeta in *.
    destruct (fold_left (flush_step Wi ps ho) (seq 0 n) (sh, out)) as [sh' out']. cbn [fst snd] in IHn.
    destruct IHn as (Z & U & O). cbn [flush_step fst snd].
    assert (P1 : n mod ps * (2 * Wi) + n / ps = pos1 n) by reflexivity.
    assert (P2 : n mod ps * (2 * Wi) + Wi + n / ps = pos2 n) by reflexivity.
    unfold flush_step. cbn [fst snd]. rewrite P1, P2.
    assert (Pn : n / ps * ps + n mod ps = n) by (destruct (dm n); lia). rewrite Pn.
    split; [|split].
    + intros i Hi. destruct (Nat.eq_dec i n) as [->|].
      * split; [|apply aset_same]. rewrite aset_other by (apply pos_ne; lia). apply aset_same.
      * destruct (Z i ltac:(lia)) as [Z1 Z2]. split.
        -- rewrite !aset_other; auto; [intro E; apply pos_inj1 in E; lia|apply pos_ne; lia].
        -- rewrite !aset_other; auto; [intro E; symmetry in E; revert E; apply pos_ne; lia|intro E; apply pos_inj2 in E; lia].
    + intros i Hi. split.
      * rewrite !aset_other; [apply U; lia|intro E; apply pos_inj1 in E; lia|apply pos_ne; lia].
      * rewrite !aset_other; [apply U; lia|intro E; symmetry in E; revert E; apply pos_ne; lia|intro E; apply pos_inj2 in E; lia].
    + intros h j. unfold aset at 1. destruct (Nat.eqb_spec h ho).
      * subst h. unfold aset. destruct (Nat.eqb_spec j n).
        -- subst j. rewrite O. rewrite Nat.ltb_irrefl, andb_false_r. destruct (U n ltac:(lia)) as [-> ->].
           destruct (Nat.ltb_spec n (S n)); [|lia]. reflexivity.
        -- rewrite O, Nat.eqb_refl. cbn [andb]. destruct (Nat.ltb_spec j n), (Nat.ltb_spec j (S n)); try lia; reflexivity.
      * cbn [andb]. rewrite O. destruct (Nat.eqb_spec h ho); [congruence|reflexivity].
Qed.
Lemma flush_spec : forall sh out ho,
  let st := flush Wi ps ho (sh, out) in
  clean (fst st) /\ (forall h j, snd st h j = if (h =? ho) && (j <? Wo) then (out h j + buf sh j)%R else out h j).
Proof.
  intros. unfold st, flush. replace (Wi * ps) with Wo by lia.
  destruct (flush_loop Wo sh out ho (le_n _)) as (Z & _ & O). split; auto.
Qed.

(** which inputs reach column j *)
Lemma reach : forall wo q j, wo < Wo -> q < Wi -> j < Wo ->
  ((wo + ps * q) mod Wo =? j) = ((wo mod ps =? j mod ps) && (q =? (j / ps + (Wi - wo / ps)) mod Wi)).
Proof.
  intros wo q j Hw Hq Hj. destruct (dm wo) as [Ew Lw]. destruct (dm j) as [Ej Lj].
  pose proof (idx_lt wo Hw). pose proof (idx_lt j Hj).
  set (d0 := wo / ps) in *. set (l0 := wo mod ps) in *. set (idx := j / ps) in *. set (lane := j mod ps) in *.
  assert (E : (wo + ps * q) mod Wo = ps * ((d0 + q) mod Wi) + l0).
  { symmetry. apply Nat.mod_unique with (q := (d0 + q) / Wi).
    - pose proof (Nat.mod_upper_bound (d0 + q) Wi ltac:(lia)). nia.
    - pose proof (Nat.div_mod (d0 + q) Wi ltac:(lia)). nia. }
  rewrite E.
  assert (F : (d0 + q) mod Wi = idx <-> q = (idx + (Wi - d0)) mod Wi).
  { split; intro.
    - apply Nat.mod_unique with (q := if d0 <=? idx then 1 else 0); [auto|].
      destruct (Nat.lt_ge_cases (d0 + q) Wi).
      + rewrite Nat.mod_small in H1 by auto. destruct (Nat.leb_spec d0 idx); lia.
      + assert ((d0 + q) mod Wi = d0 + q - Wi).
        { symmetry. apply Nat.mod_unique with (q := 1); lia. }
        destruct (Nat.leb_spec d0 idx); lia.
    - subst q. symmetry. destruct (Nat.lt_ge_cases (idx + (Wi - d0)) Wi).
      + rewrite (Nat.mod_small (idx + (Wi - d0)) Wi) by auto. apply Nat.mod_unique with (q := 1); lia.
      + assert ((idx + (Wi - d0)) mod Wi = idx - d0).
        { symmetry. apply Nat.mod_unique with (q := 1); lia. }
        rewrite H2. apply Nat.mod_unique with (q := 0); lia. }
  destruct (Nat.eqb_spec l0 lane).
  - cbn [andb]. destruct (Nat.eqb_spec q ((idx + (Wi - d0)) mod Wi)).
    + apply Nat.eqb_eq. apply F in e0. rewrite e0. lia.
    + apply Nat.eqb_neq. intro X. apply n. apply F. nia.
  - cbn [andb]. apply Nat.eqb_neq. intro X. apply n. nia.
Qed.

Definition bterm (row_in : nat -> R) (e : entry) (j : nat) : R :=
  (pv e * rsum Wi (fun q => if (col e mod Wo + ps * q) mod Wo =? j then row_in q else 0))%R.
Lemma bterm_val : forall row_in e j, j < Wo -> bterm row_in e j =
  if (col e mod Wo) mod ps =? j mod ps then (pv e * row_in ((j / ps + (Wi - (col e mod Wo) / ps)) mod Wi)%nat)%R else 0%R.
Proof.
  intros. unfold bterm. assert (col e mod Wo < Wo) by (apply Nat.mod_upper_bound; lia).
  rewrite (bsum_ext (r0 := 0%R) (add := Rplus) Wi _ (fun q => if (col e mod Wo) mod ps =? j mod ps then if q =? (j / ps + (Wi - (col e mod Wo) / ps)) mod Wi then row_in q else 0%R else 0%R)).
  2:{ intros q Hq. rewrite reach by auto. destruct (_ =? j mod ps); reflexivity. }
  destruct (_ =? j mod ps).
  - rewrite (bsum_delta_f RT); [reflexivity|]. apply Nat.mod_upper_bound; lia.
  - rewrite (bsum_zero RT). ring.
Qed.

Lemma buf_add : forall sh e row_in j, j < Wo ->
  let wo := col e mod Wo in let base := wo mod ps * (2 * Wi) + wo / ps in
  buf (fun p => if (base <=? p) && (p <? base + Wi) then (sh p + pv e * row_in (p - base)%nat)%R else sh p) j = (buf sh j + bterm row_in e j)%R.
Proof.
  intros sh e row_in j Hj wo base. rewrite bterm_val by auto. fold wo. unfold buf.
  assert (Hw : wo < Wo) by (apply Nat.mod_upper_bound; lia).
  pose proof (idx_lt wo Hw) as D0. pose proof (idx_lt j Hj) as DJ. destruct (dm wo) as [Ew Lw]. destruct (dm j) as [Ej Lj].
  set (d0 := wo / ps) in *. set (l0 := wo mod ps) in *.
  unfold pos1, pos2. set (idx := j / ps) in *. set (lane := j mod ps) in *.
  destruct (Nat.eqb_spec l0 lane) as [EL|NL].
  - rewrite <- EL. unfold base.
    destruct (Nat.lt_ge_cases idx d0) as [L|L].
    + destruct (Nat.leb_spec (l0 * (2 * Wi) + d0) (l0 * (2 * Wi) + idx)); [lia|].
      destruct (Nat.leb_spec (l0 * (2 * Wi) + d0) (l0 * (2 * Wi) + Wi + idx)); [|lia].
      destruct (Nat.ltb_spec (l0 * (2 * Wi) + Wi + idx) (l0 * (2 * Wi) + d0 + Wi)); [|lia]. cbn [andb].
      replace (l0 * (2 * Wi) + Wi + idx - (l0 * (2 * Wi) + d0)) with (idx + (Wi - d0)) by lia.
      rewrite Nat.mod_small by lia. ring.
    + destruct (Nat.leb_spec (l0 * (2 * Wi) + d0) (l0 * (2 * Wi) + idx)); [|lia].
      destruct (Nat.ltb_spec (l0 * (2 * Wi) + idx) (l0 * (2 * Wi) + d0 + Wi)); [|lia].
      destruct (Nat.ltb_spec (l0 * (2 * Wi) + Wi + idx) (l0 * (2 * Wi) + d0 + Wi)); [lia|].
      rewrite andb_false_r. cbn [andb].
      assert (EM : (idx + (Wi - d0)) mod Wi = l0 * (2 * Wi) + idx - (l0 * (2 * Wi) + d0)).
      { symmetry. apply Nat.mod_unique with (q := 1); lia. }
      rewrite EM. ring.
  - assert (N1 : forall x, x < 2 * Wi -> (base <=? lane * (2 * Wi) + x) && (lane * (2 * Wi) + x <? base + Wi) = false).
    { intros x Hx. unfold base. destruct (Nat.lt_trichotomy l0 lane) as [L|[L|L]]; [|congruence|].
      - apply andb_false_iff. right. apply Nat.ltb_ge. nia.
      - apply andb_false_iff. left. apply Nat.leb_gt. nia. }
    rewrite N1 by lia. rewrite <- Nat.add_assoc, N1 by lia. ring.
Qed.

Definition total (st : bwd_st) (h j : nat) : R :=
  (b_out st h j + match b_prev st with Some h' => if (h =? h')%nat then buf (b_sh st) j else 0 | None => 0 end)%R.
Definition binv (st : bwd_st) : Prop := b_prev st = None -> clean (b_sh st).

Lemma clean_buf : forall sh j, clean sh -> j < Wo -> buf sh j = 0%R.
Proof. intros. unfold buf. destruct (H j H0) as [-> ->]. ring. Qed.

Lemma bwd_entry_total : forall row_in st e, binv st ->
  binv (bwd_entry Wi Wo ps row_in st e) /\
  forall h j, j < Wo -> total (bwd_entry Wi Wo ps row_in st e) h j =
    (total st h j + if (col e / Wo =? h)%nat then bterm row_in e j else 0)%R.
Proof.
  intros row_in st e I. unfold bwd_entry.
  set (st1 := match b_prev st with Some h => _ | None => _ end).
  assert (P1 : b_prev st1 = Some (col e / Wo)).
  { unfold st1. destruct (b_prev st) as [h|] eqn:E; [|reflexivity].
    destruct (Nat.eqb_spec h (col e / Wo)); [congruence|]. destruct (flush Wi ps h _); reflexivity. }
  assert (T1 : forall h j, j < Wo -> total st1 h j = total st h j).
  { intros h j Hj. unfold total. rewrite P1. unfold st1. destruct (b_prev st) as [h'|] eqn:E.
    - destruct (Nat.eqb_spec h' (col e / Wo)).
      + subst h'. reflexivity.
      + pose proof (flush_spec (b_sh st) (b_out st) h') as [CL O]. destruct (flush Wi ps h' _) as [sh out]. cbn [fst snd] in *.
        cbn [b_out b_sh]. rewrite O, (clean_buf sh) by auto. destruct (Nat.ltb_spec j Wo); [|lia].
        destruct (Nat.eqb_spec h h'); cbn [andb]; destruct (h =? col e / Wo); ring.
    - cbn [b_out b_sh]. rewrite (clean_buf (b_sh st)) by auto. destruct (h =? col e / Wo); ring. }
  split; [intro X; cbn in X; congruence|].
  intros h j Hj. rewrite <- T1 by auto. unfold total. cbn [b_out b_prev b_sh]. rewrite P1.
  rewrite (Nat.eqb_sym (col e / Wo) h). destruct (h =? col e / Wo); [|ring].
  rewrite (buf_add (b_sh st1) e row_in j Hj). ring.
Qed.
Lemma bwd_run_total : forall row_in l st, binv st ->
  binv (fold_left (bwd_entry Wi Wo ps row_in) l st) /\
  forall h j, j < Wo -> total (fold_left (bwd_entry Wi Wo ps row_in) l st) h j =
    (total st h j + rlsum (fun e => if (col e / Wo =? h)%nat then bterm row_in e j else 0) l)%R.
Proof.
  induction l as [|e l IH]; intros st I; cbn [fold_left].
  - split; auto. intros. cbn [lsum_ fold_right]. ring.
  - destruct (bwd_entry_total row_in st e I) as [I1 T1]. destruct (IH _ I1) as [I2 T2]. split; auto.
    intros h j Hj. rewrite T2, T1 by auto. cbn [lsum_ fold_right]. unfold lsum_. ring.
Qed.

Variable inp : nat -> nat -> nat -> R.
Definition bwd_g (s : bwd_st) (e0 : entry) (r : list entry) : bwd_st := fold_left (bwd_entry Wi Wo ps (inp (ker e0) (row e0))) r s.
Lemma bwd_runs_total : forall rs st, binv st -> (forall r, In r rs -> same_key r) ->
  binv (fold_left (run_step bwd_g) rs st) /\
  forall h j, j < Wo -> total (fold_left (run_step bwd_g) rs st) h j =
    (total st h j + rlsum (fun e => if (col e / Wo =? h)%nat then bterm (inp (ker e) (row e)) e j else 0) (concat rs))%R.
Proof.
  induction rs as [|r rs IH]; intros st I SK; cbn [fold_left concat].
  - split; auto. intros. cbn [lsum_ fold_right]. ring.
  - destruct r as [|e0 r].
    + cbn [run_step app]. apply IH; auto. intros; apply SK; right; auto.
    + destruct (bwd_run_total (inp (ker e0) (row e0)) (e0 :: r) st I) as [I1 T1].
      destruct (IH _ I1 (fun q Hq => SK q (or_intror Hq))) as [I2 T2].
      split; [exact I2|]. intros h j Hj. change (run_step bwd_g st (e0 :: r)) with (bwd_g st e0 (e0 :: r)).
      unfold bwd_g at 2. rewrite T2, T1 by auto. rewrite (lsum_app RT).
      rewrite Rplus_assoc. f_equal. f_equal. apply lsum_ext. intros e He.
      specialize (SK _ (or_introl eq_refl) e e0 He (or_introl eq_refl)). unfold key in SK. injection SK as -> ->. reflexivity.
Qed.
Lemma bwd_plane_runs : forall rs sh, (forall r, In r rs -> r <> []) -> (forall r, In r rs -> same_key r) -> clean sh ->
  exists st, bwd_plane Wi Wo ps (starts 0 rs) (concat rs) inp sh = Some st /\ clean (fst st) /\
    forall h j, j < Wo -> snd st h j = disco_adjoint_sum Wo ps Wi (concat rs) inp h j.
Proof.
  intros rs sh NE SK CL. unfold bwd_plane.
  assert (E : fold_left (bwd_row Wi Wo ps (starts 0 rs) (concat rs) inp) (seq 0 (length (starts 0 rs) - 1)) (Some (mkB None sh (fun _ _ => 0%R)))
     = Some (fold_left (run_step bwd_g) rs (mkB None sh (fun _ _ => 0%R)))).
  { unfold run_step. rewrite <- (fold_runs _ bwd_g rs _ (starts 0 rs) (concat rs) NE eq_refl eq_refl).
    apply fold_left_ext. intros [s|] r; [|reflexivity]. unfold bwd_row. cbn [bindo]. destruct (nth_error _ _); reflexivity. }
  rewrite E. cbn [bindo].
  destruct (bwd_runs_total rs (mkB None sh (fun _ _ => 0%R)) (fun _ => CL) SK) as [I T].
  clear E. set (s := fold_left (run_step bwd_g) _ _) in *.
  assert (T' : forall h j, j < Wo -> total s h j = disco_adjoint_sum Wo ps Wi (concat rs) inp h j).
  { intros. rewrite T by auto. unfold total at 1. cbn. rewrite !Rplus_0_l. reflexivity. }
  eexists. split; [reflexivity|].
  destruct (b_prev s) as [h0|] eqn:P.
  - destruct (flush_spec (b_sh s) (b_out s) h0) as [CL' O]. split; [exact CL'|].
    intros h j Hj. rewrite O. rewrite <- T' by auto. unfold total. rewrite P.
    destruct (Nat.ltb_spec j Wo); [|lia]. destruct (h =? h0); cbn [andb]; ring.
  - split; [apply I; auto|]. intros h j Hj. rewrite <- T' by auto. unfold total. rewrite P. cbn [snd]. ring.
Qed.
End Bwd.

Lemma bwd_planes_spec : forall Wi Wo ps rs, 1 <= Wi -> 1 <= ps -> Wo = ps * Wi -> runs_ok rs -> forall planes sh, clean Wi Wo ps sh ->
  exists outs, bwd_planes Wi Wo ps (starts 0 rs) (concat rs) planes sh = Some outs /\ length outs = length planes /\
    forall n d d' h j, n < length planes -> j < Wo -> nth n outs d h j = disco_adjoint_sum Wo ps Wi (concat rs) (nth n planes d') h j.
Proof.
  intros Wi Wo ps rs H1 H2 H3 [NE SK]. induction planes as [|p planes IH]; intros sh CL.
  - exists []. split; [reflexivity|]. split; [reflexivity|]. intros; simpl in *; lia.
  - destruct (bwd_plane_runs Wi Wo ps H1 H2 H3 p rs sh NE SK CL) as (st & E & C' & V).
    destruct (IH _ C') as (outs & E' & L & V'). exists (snd st :: outs).
    cbn [bwd_planes]. rewrite E. cbn [bindo]. rewrite E'. split; [reflexivity|]. split; [simpl; lia|].
    intros n d d' h j Hn Hj. destruct n; cbn [nth]; [apply V; auto|]. apply V'; auto. simpl in Hn. lia.
Qed.
