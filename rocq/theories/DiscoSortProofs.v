(** The counting sort of preprocess_psi and the row offsets. *)
From Coq Require Import List Arith Lia Bool Reals Permutation Sorted.
From Verif Require Import TensorModel TensorProofs BigSum DiscoModel DiscoSpec.
Import ListNotations.
Local Open Scope nat_scope.

Definition kfilter (k : nat) (es : list entry) : list entry := filter (fun e => ker e =? k) es.
Definition kcnt (k : nat) (es : list entry) : nat := length (kfilter k es).
Definition ksorted (K : nat) (es : list entry) : list entry := flat_map (fun k => kfilter k es) (seq 0 K).

Lemma aset_same : forall A i (v : A) a, aset i v a i = v.
Proof. intros. unfold aset. rewrite Nat.eqb_refl. reflexivity. Qed.
Lemma aset_other : forall A i j (v : A) a, j <> i -> aset i v a j = a j.
Proof. intros. unfold aset. destruct (Nat.eqb_spec j i); congruence. Qed.

Lemma kfilter_app : forall k a b, kfilter k (a ++ b) = kfilter k a ++ kfilter k b.
Proof. intros. unfold kfilter. apply filter_app. Qed.

Lemma psi_hist_spec : forall es a k,
  fold_left (fun a e => aset (ker e) (S (a (ker e))) a) es a k = a k + kcnt k es.
Proof.
  induction es; intros; simpl; [unfold kcnt; simpl; lia|].
  rewrite IHes. unfold kcnt, kfilter; simpl. unfold aset.
  rewrite (Nat.eqb_sym (ker a) k).
  destruct (Nat.eqb_spec k (ker a)); subst; simpl; lia.
Qed.

Fixpoint prefix (a : nat -> nat) (k : nat) : nat := match k with 0 => 0 | S k => prefix a k + a k end.

Lemma psi_offsets_loop : forall a n,
  let st := fold_left (fun (st : nat * (nat -> nat)) i => let '(prev, a) := st in (a i, aset i (prev + a (i - 1)) a))
                 (seq 1 n) (a 0, aset 0 0 a) in
  fst st = a n /\ forall k, snd st k = if k <=? n then prefix a k else a k.
Proof.
  intros a n. induction n.
  - simpl. split; [reflexivity|]. intros k. unfold aset. destruct k; simpl; reflexivity.
  - rewrite seq_S, fold_left_app.
    set (st := fold_left _ (seq 1 n) _) in *. destruct st as [prev b]. simpl in IHn. destruct IHn as [E1 E2].
    cbn [fold_left]. rewrite Nat.add_comm, Nat.add_1_r. split.
    + cbn [fst]. rewrite E2. destruct (S n <=? n) eqn:E; [apply Nat.leb_le in E; lia|reflexivity].
    + intros k. cbn [snd]. unfold aset. destruct (Nat.eqb_spec k (S n)).
      * subst k. rewrite Nat.leb_refl. replace (S n - 1) with n by lia. rewrite E2, Nat.leb_refl, E1. simpl. lia.
      * rewrite E2. destruct (Nat.leb_spec k n), (Nat.leb_spec k (S n)); try lia; reflexivity.
Qed.

Lemma psi_offsets_spec : forall K a k, k < K -> psi_offsets K a k = prefix a k.
Proof.
  intros. unfold psi_offsets. destruct (psi_offsets_loop a (K - 1)) as [_ E]. rewrite E.
  destruct (Nat.leb_spec k (K - 1)); [reflexivity|lia].
Qed.

Lemma prefix_mono : forall a j k, j <= k -> prefix a j <= prefix a k.
Proof. induction 1; simpl; lia. Qed.
Lemma prefix_find : forall a K p, p < prefix a K -> exists k m, k < K /\ m < a k /\ p = prefix a k + m.
Proof.
  induction K; simpl; intros; [lia|].
  destruct (Nat.lt_ge_cases p (prefix a K)).
  - destruct (IHK _ H0) as (k & m & ? & ? & ?). exists k, m. repeat split; auto with arith.
  - exists K, (p - prefix a K). lia.
Qed.
Lemma prefix_inj : forall a k m k' m', m < a k -> m' < a k' -> prefix a k + m = prefix a k' + m' -> k = k' /\ m = m'.
Proof.
  intros. destruct (Nat.lt_trichotomy k k') as [L|[E|L]].
  - pose proof (prefix_mono a (S k) k' L). simpl in H2. lia.
  - subst. lia.
  - pose proof (prefix_mono a (S k') k L). simpl in H2. lia.
Qed.

Lemma kfilter_nth : forall k l1 e l2 d, ker e = k -> nth (kcnt k l1) (kfilter k (l1 ++ e :: l2)) d = e.
Proof.
  intros. rewrite kfilter_app. unfold kcnt. rewrite app_nth2, Nat.sub_diag by lia.
  unfold kfilter; simpl. rewrite H, Nat.eqb_refl. reflexivity.
Qed.

(** the scatter after processing [l1] *)
Lemma psi_scatter_loop : forall cnt K l2 l1 off out,
  (forall k, k < K -> kcnt k (l1 ++ l2) <= cnt k) ->
  (forall e, In e (l1 ++ l2) -> ker e < K) ->
  (forall k, k < K -> off k = prefix cnt k + kcnt k l1) ->
  (forall k m d, k < K -> m < kcnt k l1 -> out (prefix cnt k + m) = nth m (kfilter k l1) d) ->
  forall k m d, k < K -> m < kcnt k (l1 ++ l2) ->
  snd (fold_left (fun (st : (nat -> nat) * (nat -> entry)) e => let '(off, out) := st in
                    (aset (ker e) (S (off (ker e))) off, aset (off (ker e)) e out)) l2 (off, out)) (prefix cnt k + m)
  = nth m (kfilter k (l1 ++ l2)) d.
Proof.
  intros cnt K. induction l2 as [|e l2 IH]; intros l1 off out HC HK Ho Hout k m d Hk Hm.
  - simpl. rewrite app_nil_r in *. apply Hout; auto.
  - cbn [fold_left]. replace (l1 ++ e :: l2) with ((l1 ++ [e]) ++ l2) in * by (rewrite <- app_assoc; reflexivity).
    apply IH; auto.
    + intros k' Hk'. unfold kcnt. rewrite kfilter_app, app_length. unfold aset. simpl.
      rewrite (Nat.eqb_sym (ker e) k').
      destruct (Nat.eqb_spec k' (ker e)).
      * subst. rewrite Ho by auto. unfold kcnt; simpl. lia.
      * rewrite Ho by auto. unfold kcnt; simpl. lia.
    + intros k' m' d' Hk' Hm'.
      assert (Ke : ker e < K) by (apply HK; rewrite <- app_assoc; apply in_or_app; right; left; reflexivity).
      assert (Bd : forall j, j < K -> kcnt j (l1 ++ [e]) <= cnt j).
      { intros j Hj. specialize (HC j Hj). unfold kcnt in *. rewrite kfilter_app, app_length in HC. lia. }
      assert (SE : kcnt (ker e) (l1 ++ [e]) = S (kcnt (ker e) l1)).
      { unfold kcnt. rewrite kfilter_app, app_length. unfold kfilter at 2; simpl. rewrite Nat.eqb_refl. simpl. lia. }
      unfold aset. rewrite Ho by auto.
      destruct (Nat.eqb_spec (prefix cnt k' + m') (prefix cnt (ker e) + kcnt (ker e) l1)).
      * apply prefix_inj in e0; [|specialize (Bd k' Hk'); lia|specialize (Bd _ Ke); lia].
        destruct e0; subst k' m'. rewrite kfilter_app, app_nth2; unfold kcnt; [|lia].
        rewrite Nat.sub_diag. unfold kfilter; simpl. rewrite Nat.eqb_refl. reflexivity.
      * assert (m' < kcnt k' l1).
        { destruct (Nat.eq_dec k' (ker e)).
          - subst k'. rewrite SE in Hm'. assert (m' <> kcnt (ker e) l1) by (intro; subst; lia). lia.
          - unfold kcnt in *. rewrite kfilter_app, app_length in Hm'. unfold kfilter at 2 in Hm'. simpl in Hm'.
            destruct (Nat.eqb_spec (ker e) k'); [congruence|simpl in Hm'; lia]. }
        rewrite (Hout k' m' d' Hk' H). rewrite kfilter_app, app_nth1 by exact H. reflexivity.
Qed.

Lemma prefix_cnt_length : forall (es : list entry) K, length (ksorted K es) = prefix (fun k => kcnt k es) K.
Proof.
  intros es. unfold ksorted. induction K; [reflexivity|].
  rewrite seq_S, flat_map_app, app_length, IHK. simpl. rewrite app_nil_r. reflexivity.
Qed.
Lemma ksorted_nth : forall es K k m d, k < K -> m < kcnt k es ->
  nth (prefix (fun k => kcnt k es) k + m) (ksorted K es) d = nth m (kfilter k es) d.
Proof.
  intros es K. induction K; intros; [lia|].
  unfold ksorted. rewrite seq_S, flat_map_app. fold (ksorted K es). simpl. rewrite app_nil_r.
  destruct (Nat.eq_dec k K).
  - subst. rewrite app_nth2; rewrite prefix_cnt_length; [|lia]. f_equal. lia.
  - rewrite app_nth1; [apply IHK; lia|]. rewrite prefix_cnt_length.
    pose proof (prefix_mono (fun k => kcnt k es) (S k) K ltac:(lia)). simpl in H1. lia.
Qed.

Lemma ksorted_perm : forall K es, (forall e, In e es -> ker e < K) -> Permutation (ksorted K es) es.
Proof.
  intros K es. induction es as [|e es IH]; intros H.
  - unfold ksorted. clear. induction (seq 0 K); simpl; auto.
  - assert (He : ker e < K) by (apply H; left; reflexivity).
    rewrite <- IH at 2 by (intros; apply H; right; auto).
    unfold ksorted. replace K with (ker e + S (K - ker e - 1)) by lia.
    rewrite seq_app, !flat_map_app. cbn [Nat.add seq flat_map].
    assert (Q : forall l, ~ In (ker e) l -> flat_map (fun k => kfilter k (e :: es)) l = flat_map (fun k => kfilter k es) l).
    { induction l as [|a l IHl]; intros Hl; [reflexivity|]. cbn [flat_map]. rewrite IHl by (intro; apply Hl; right; auto). f_equal.
      unfold kfilter; cbn [filter]. destruct (Nat.eqb_spec (ker e) a); [exfalso; apply Hl; left; auto|reflexivity]. }
    rewrite Q by (rewrite in_seq; lia). rewrite Q by (rewrite in_seq; lia).
    unfold kfilter at 2. simpl. rewrite Nat.eqb_refl. fold (kfilter (ker e) es).
    simpl. symmetry. apply Permutation_middle.
Qed.

Lemma psi_sort_spec : forall junk K es, (forall e, In e es -> ker e < K) -> psi_sort junk K es = ksorted K es.
Proof.
  intros junk K es HK. unfold psi_sort.
  assert (L : length (ksorted K es) = length es) by (apply Permutation_length, ksorted_perm; auto).
  set (d := mkE 0 0 0 0%R).
  apply nth_ext with (d := psi_scatter junk (psi_offsets K (psi_hist es)) es 0) (d' := d).
  - rewrite map_length, seq_length. auto.
  - intros n Hn. rewrite map_length, seq_length in Hn.
    rewrite map_nth, seq_nth by auto. simpl.
    rewrite <- L, prefix_cnt_length in Hn.
    destruct (prefix_find _ _ _ Hn) as (k & m & Hk & Hm & ->).
    rewrite ksorted_nth by auto. unfold psi_scatter.
    apply (psi_scatter_loop (fun k => kcnt k es) K es [] _ _); auto.
    + intros j Hj. rewrite psi_offsets_spec by auto. unfold kcnt at 2; simpl. rewrite Nat.add_0_r.
      clear -Hj. assert (forall n, (forall i, i < n -> psi_hist es i = kcnt i es) ).
      { intros. unfold psi_hist. rewrite psi_hist_spec. reflexivity. }
      induction j; simpl; [reflexivity|]. rewrite IHj by lia. rewrite (H (S j)) by lia. reflexivity.
    + intros. unfold kcnt in H0; simpl in H0; lia.
Qed.

Lemma kfilter_ksorted : forall K es k, k < K -> kfilter k (ksorted K es) = kfilter k es.
Proof.
  intros K es k Hk. unfold ksorted.
  assert (Q : forall l, kfilter k (flat_map (fun j => kfilter j es) l) = flat_map (fun j => if j =? k then kfilter k es else []) l).
  { induction l; simpl; [reflexivity|]. rewrite kfilter_app, IHl. f_equal.
    unfold kfilter. clear. destruct (Nat.eqb_spec a k).
    - subst. induction es; simpl; [reflexivity|]. destruct (ker a =? k) eqn:E; simpl; rewrite ?E, ?IHes; reflexivity.
    - induction es; simpl; [reflexivity|]. destruct (Nat.eqb_spec (ker a0) a); simpl; [|auto].
      destruct (Nat.eqb_spec (ker a0) k); [congruence|auto]. }
  rewrite Q. clear Q. replace K with (k + S (K - k - 1)) by lia. rewrite seq_app, flat_map_app. cbn [Nat.add seq flat_map].
  rewrite Nat.eqb_refl.
  assert (Z : forall l, ~ In k l -> flat_map (fun j => if j =? k then kfilter k es else []) l = []).
  { induction l; simpl; intros; [reflexivity|]. destruct (Nat.eqb_spec a k); [exfalso; apply H; auto|]. simpl. apply IHl; tauto. }
  rewrite (Z (seq 0 k)), (Z (seq (S k) _)) by (rewrite in_seq; lia). simpl. apply app_nil_r.
Qed.

(** ** Runs *)

(** [cuts es]: the maximal runs of consecutive entries with the same row *)
Fixpoint cuts (es : list entry) : list (list entry) :=
  match es with
  | [] => []
  | e :: es' => match cuts es' with
                | (e' :: r) :: rs => if row e =? row e' then (e :: e' :: r) :: rs else [e] :: (e' :: r) :: rs
                | _ => [[e]]
                end
  end.
Lemma cuts_nonempty : forall es r, In r (cuts es) -> r <> [].
Proof.
  induction es; simpl; intros; [tauto|].
  destruct (cuts es) as [|[|e' q] rs] eqn:E; simpl in *.
  - destruct H as [<-|[]]. discriminate.
  - destruct H as [<-|[]]. discriminate.
  - destruct (row a =? row e'); simpl in H.
    + destruct H as [<-|H]; [discriminate|]. apply IHes; auto.
    + destruct H as [<-|[<-|H]]; try discriminate. apply IHes; auto.
Qed.
Lemma cuts_nil : forall es, cuts es = [] -> es = [].
Proof. destruct es; simpl; auto. destruct (cuts es) as [|[|? ?] ?]; try discriminate. destruct (_ =? _); discriminate. Qed.
Lemma cuts_concat : forall es, concat (cuts es) = es.
Proof.
  induction es; simpl; [reflexivity|].
  destruct (cuts es) as [|[|e' q] rs] eqn:E.
  - simpl in *. congruence.
  - exfalso. apply (cuts_nonempty es []); [rewrite E; left|]; reflexivity.
  - destruct (row a =? row e'); simpl in *; congruence.
Qed.
Lemma cuts_head : forall es, match cuts es with [] => es = [] | r :: _ => hd_error r = hd_error es end.
Proof.
  intros. pose proof (cuts_concat es). destruct (cuts es) as [|r rs] eqn:E; [auto|].
  assert (r <> []) by (apply (cuts_nonempty es); rewrite E; left; reflexivity).
  destruct r; [congruence|]. simpl in H. rewrite <- H. reflexivity.
Qed.
Definition same_row (r : list entry) : Prop := forall e e', In e r -> In e' r -> row e = row e'.
Lemma cuts_same_row : forall es r, In r (cuts es) -> same_row r.
Proof.
  induction es; simpl; intros; [tauto|].
  assert (S1 : forall e : entry, same_row [e]) by (intros e x y [<-|[]] [<-|[]]; reflexivity).
  destruct (cuts es) as [|[|e' q] rs] eqn:E; simpl in *.
  - destruct H as [<-|[]]; auto.
  - destruct H as [<-|[]]; auto.
  - destruct (Nat.eqb_spec (row a) (row e')); simpl in H.
    + destruct H as [<-|H]; [|apply IHes; auto].
      assert (Sq : same_row (e' :: q)) by (apply IHes; auto).
      intros x y [<-|Hx] [<-|Hy]; try reflexivity.
      * rewrite e. apply Sq; [left; reflexivity|auto].
      * rewrite e. apply Sq; [auto|left; reflexivity].
      * apply Sq; auto.
    + destruct H as [<-|H]; [auto|]. apply IHes; auto.
Qed.

(** start positions of the runs, then the total length *)
Fixpoint starts {A} (o : nat) (rs : list (list A)) : list nat :=
  match rs with [] => [o] | r :: rs => o :: starts (o + length r) rs end.
Lemma starts_length : forall A (rs : list (list A)) o, length (starts o rs) = S (length rs).
Proof. intros A rs. induction rs; intros; simpl; auto. Qed.
Definition row_of (es : list entry) (i : nat) : nat := match nth_error es i with Some e => row e | None => 0 end.
Definition breaks (es : list entry) : list nat := filter (fun i => negb (row_of es (i - 1) =? row_of es i)) (seq 1 (length es - 1)).

Lemma filter_map_shift : forall (p : nat -> bool) a n, filter p (seq (S a) n) = map S (filter (fun i => p (S i)) (seq a n)).
Proof. intros. revert a. induction n; intros; simpl; [reflexivity|]. rewrite IHn. destruct (p (S a)); reflexivity. Qed.
Lemma starts_shift : forall A (rs : list (list A)) o, starts (S o) rs = map S (starts o rs).
Proof. intros A rs. induction rs; intros; simpl; [reflexivity|]. rewrite IHrs. reflexivity. Qed.

Lemma starts_cuts : forall es, starts 0 (cuts es) = match es with [] => [0] | _ => 0 :: breaks es ++ [length es] end.
Proof.
  induction es as [|e es IH]; [reflexivity|].
  destruct es as [|e1 es].
  { reflexivity. }
  pose proof (cuts_head (e1 :: es)) as CH. pose proof (cuts_nonempty (e1 :: es)) as NE.
  remember (e1 :: es) as l eqn:El.
  assert (Hb : breaks (e :: l) = if row e =? row e1 then map S (breaks l) else 1 :: map S (breaks l)).
  { subst l. unfold breaks. simpl length. rewrite !Nat.sub_succ, !Nat.sub_0_r.
    cbn [seq filter]. change (row_of (e :: e1 :: es) (1 - 1)) with (row e). change (row_of (e :: e1 :: es) 1) with (row e1).
    rewrite filter_map_shift.
    assert (Q : filter (fun i => negb (row_of (e :: e1 :: es) (S i - 1) =? row_of (e :: e1 :: es) (S i))) (seq 1 (length es)) =
                filter (fun i => negb (row_of (e1 :: es) (i - 1) =? row_of (e1 :: es) i)) (seq 1 (length es))).
    { apply filter_ext_in. intros i Hi. apply in_seq in Hi. destruct i; [lia|].
      rewrite !Nat.sub_succ, !Nat.sub_0_r. reflexivity. }
    rewrite Q. destruct (row e =? row e1); reflexivity. }
  rewrite Hb. clear Hb. simpl cuts.
  destruct (cuts l) as [|[|e' q] rs] eqn:E.
  - rewrite CH in El. discriminate.
  - exfalso. apply (NE []); [left|]; reflexivity.
  - rewrite El in CH; simpl in CH. injection CH as ->.
    destruct l; [discriminate|]. injection El as -> ->.
    simpl in IH. rewrite starts_shift in IH. injection IH as IH.
    destruct (row e =? row e1); simpl.
    + rewrite !starts_shift. rewrite IH. rewrite map_app. reflexivity.
    + rewrite !starts_shift, IH, map_app. reflexivity.
Qed.

(** the loop *)
Definition off_step (p : nat -> bool) (lim : nat) (st : option (nat * (nat -> nat))) (i : nat) : option (nat * (nat -> nat)) :=
  do s <- st; let '(nrows, roff) := s in
  if p i then Some (nrows, roff) else if lim <? S nrows then None else Some (S nrows, aset nrows i roff).
Lemma off_none : forall p lim l, fold_left (off_step p lim) l None = None.
Proof. induction l; simpl; auto. Qed.
Lemma row_offsets_loop : forall p lim l nrows roff,
  let b := filter (fun i => negb (p i)) l in
  match fold_left (off_step p lim) l (Some (nrows, roff)) with
  | Some (n, f) => n = nrows + length b /\ (b = [] \/ nrows + length b <= lim) /\
                   (forall j, j < nrows -> f j = roff j) /\ (forall j, j < length b -> f (nrows + j) = nth j b 0)
  | None => b <> [] /\ lim < nrows + length b
  end.
Proof.
  intros p lim. induction l as [|i l IH]; intros nrows roff; cbn [fold_left filter].
  - cbn. repeat split; auto; intros; lia.
  - change (off_step p lim (Some (nrows, roff)) i) with
      (if p i then Some (nrows, roff) else if lim <? S nrows then None else Some (S nrows, aset nrows i roff)).
    destruct (p i); cbn [negb]; [apply IH|].
    destruct (Nat.ltb_spec lim (S nrows)).
    + rewrite off_none. split; [discriminate|]. simpl. lia.
    + specialize (IH (S nrows) (aset nrows i roff)). cbn zeta in *.
      set (b := filter _ l) in *.
      destruct (fold_left (off_step p lim) l _) as [[n f]|].
      * destruct IH as (-> & D & A1 & A2). simpl length. repeat split.
        -- lia.
        -- right. destruct D as [->|]; simpl; lia.
        -- intros. rewrite A1 by lia. apply aset_other. lia.
        -- intros j Hj. destruct j; simpl.
           ++ rewrite Nat.add_0_r, A1 by lia. apply aset_same.
           ++ replace (nrows + S j) with (S nrows + j) by lia. apply A2. lia.
      * destruct IH. split; [discriminate|]. simpl. lia.
Qed.

Lemma psi_row_offsets_spec : forall K Ho es,
  psi_row_offsets K Ho es =
  if (length (cuts es) <=? 1) || (length (cuts es) <=? Ho * K)
  then Some (match es with [] => [0; 0] | _ => starts 0 (cuts es) end) else None.
Proof.
  intros. unfold psi_row_offsets. 
  change (fun i => match nth_error es i with Some e => row e | None => 0 end) with (row_of es). cbn zeta.
  pose proof (starts_length _ (cuts es) 0) as SL. rewrite starts_cuts in SL.
  destruct es as [|e es]; [reflexivity|].
  rewrite starts_cuts. set (l := e :: es) in *.
  assert (Lb : length (cuts l) = S (length (breaks l))).
  { cbn [length] in SL. rewrite app_length in SL. cbn [length] in SL. lia. }
  rewrite Lb.
  match goal with |- bindo (fold_left ?f _ _) _ = _ => change f with (off_step (fun i => row_of l (i - 1) =? row_of l i) (Ho * K)) end.
  pose proof (row_offsets_loop (fun i => row_of l (i - 1) =? row_of l i) (Ho * K) (seq 1 (length l - 1)) 1 (fun _ => 0)) as RL.
  cbn zeta in RL. cbv beta in RL. change (filter (fun i => negb (row_of l (i - 1) =? row_of l i)) (seq 1 (length l - 1))) with (breaks l) in RL.
  destruct (fold_left _ _ _) as [[n f]|].
  - destruct RL as (-> & D & A1 & A2). cbn [bindo].
    destruct ((S (length (breaks l)) <=? 1) || (S (length (breaks l)) <=? Ho * K)) eqn:C.
    2:{ apply orb_false_iff in C. destruct C as [C1 C2]. apply Nat.leb_gt in C1. apply Nat.leb_gt in C2.
        destruct D as [D|D]; [|lia]. change (breaks l = []) in D. rewrite D in C1. cbn in C1. lia. }
    f_equal. apply nth_ext with (d := 0) (d' := 0).
    + rewrite map_length, seq_length. simpl. rewrite app_length. simpl. lia.
    + rewrite map_length, seq_length. intros n Hn.
      match goal with |- nth n (map ?f ?q) 0 = _ => rewrite nth_indep with (d' := f 0) by (rewrite map_length, seq_length; auto); rewrite map_nth end.
      rewrite seq_nth by auto. simpl Nat.add. 
      destruct n.
      * rewrite aset_other by lia. apply A1. lia.
      * cbn [nth]. destruct (Nat.eq_dec n (length (breaks l))).
        -- subst n. rewrite aset_same. rewrite app_nth2, Nat.sub_diag by lia. reflexivity.
        -- rewrite aset_other by lia. change (S n) with (1 + n); rewrite (A2 n) by lia. rewrite app_nth1 by lia. reflexivity.
  - destruct RL as (D & L). cbn [bindo]. destruct (breaks l); [congruence|]. simpl length in *.
    destruct (Nat.leb_spec (S (S (length l0))) 1); [lia|].
    destruct (Nat.leb_spec (S (S (length l0))) (Ho * K)); [lia|reflexivity].
Qed.

(** slices between consecutive starts are the runs *)
Lemma starts_nth_bound : forall A (rs : list (list A)) o i, i <= length rs -> nth i (starts o rs) 0 = o + length (concat (firstn i rs)).
Proof.
  intros A rs. induction rs; intros; simpl in *; [destruct i; simpl; lia|].
  destruct i; simpl; [lia|]. rewrite IHrs by lia. rewrite app_length. lia.
Qed.
Lemma slice_starts : forall A (rs : list (list A)) i, i < length rs ->
  slice (concat rs) (nth i (starts 0 rs) 0) (nth (i + 1) (starts 0 rs) 0) = nth i rs [].
Proof.
  intros. rewrite !starts_nth_bound by lia. simpl. unfold slice.
  assert (E : rs = firstn i rs ++ nth i rs [] :: skipn (S i) rs).
  { clear -H. revert i H. induction rs; intros; simpl in *; [lia|]. destruct i; simpl; [reflexivity|]. f_equal. apply IHrs. lia. }
  assert (E2 : firstn (i + 1) rs = firstn i rs ++ [nth i rs []]).
  { clear -H. revert i H. induction rs; intros; simpl in *; [lia|]. destruct i; simpl; [reflexivity|]. f_equal. apply IHrs. lia. }
  rewrite E2, concat_app, app_length. simpl. rewrite app_nil_r.
  assert (EC : concat rs = concat (firstn i rs) ++ nth i rs [] ++ concat (skipn (S i) rs)) by (rewrite E at 1; rewrite concat_app; reflexivity).
  rewrite EC.
  rewrite skipn_app, skipn_all, Nat.sub_diag. simpl.
  replace (_ + _ - _) with (length (nth i rs [])) by lia.
  rewrite firstn_app, firstn_all, Nat.sub_diag. simpl. apply app_nil_r.
Qed.
Lemma head_starts : forall A (rs : list (list A)) i, i < length rs -> (forall r, In r rs -> r <> []) ->
  nth_error (concat rs) (nth i (starts 0 rs) 0) = hd_error (nth i rs []).
Proof.
  intros. rewrite starts_nth_bound by lia. simpl.
  assert (E : rs = firstn i rs ++ nth i rs [] :: skipn (S i) rs).
  { clear -H. revert i H. induction rs; intros; simpl in *; [lia|]. destruct i; simpl; [reflexivity|]. f_equal. apply IHrs. lia. }
  assert (EC : concat rs = concat (firstn i rs) ++ nth i rs [] ++ concat (skipn (S i) rs)) by (rewrite E at 1; rewrite concat_app; reflexivity).
  rewrite EC, nth_error_app2, Nat.sub_diag by lia. simpl.
  assert (nth i rs [] <> []) by (apply H0, nth_In; auto).
  destruct (nth i rs []); [congruence|reflexivity].
Qed.

(** a loop over row offsets is a loop over the runs *)
Lemma fold_runs : forall S (g : S -> entry -> list entry -> S) rs (s0 : S) (roff : list nat) es,
  (forall r, In r rs -> r <> []) -> es = concat rs -> roff = starts 0 rs ->
  fold_left (fun (st : option S) r =>
     do s <- st; let soff := nth r roff 0 in let eoff := nth (r + 1) roff 0 in
     do e0 <- nth_error es soff; Some (g s e0 (slice es soff eoff))) (seq 0 (length roff - 1)) (Some s0)
  = Some (fold_left (fun s r => match r with e0 :: _ => g s e0 r | [] => s end) rs s0).
Proof.
  intros S g rs s0 roff es NE -> ->. rewrite starts_length. simpl. rewrite Nat.sub_0_r.
  assert (H : forall n, n <= length rs ->
    fold_left (fun (st : option S) r =>
     do s <- st; let soff := nth r (starts 0 rs) 0 in let eoff := nth (r + 1) (starts 0 rs) 0 in
     do e0 <- nth_error (concat rs) soff; Some (g s e0 (slice (concat rs) soff eoff))) (seq 0 n) (Some s0)
    = Some (fold_left (fun s r => match r with e0 :: _ => g s e0 r | [] => s end) (firstn n rs) s0)).
  { induction n; intros; [reflexivity|].
    rewrite seq_S, fold_left_app, IHn by lia. cbn [fold_left bindo Nat.add].
    cbn zeta. rewrite head_starts by (auto; lia). rewrite slice_starts by lia.
    assert (E2 : firstn (Datatypes.S n) rs = firstn n rs ++ [nth n rs []]).
    { clear -H. revert n H. induction rs; intros; simpl in *; [lia|]. destruct n; simpl; [reflexivity|]. f_equal. apply IHrs. lia. }
    rewrite E2, fold_left_app. simpl.
    assert (nth n rs [] <> []) by (apply NE, nth_In; lia).
    destruct (nth n rs []); [congruence|reflexivity]. }
  rewrite H by lia. rewrite firstn_all. reflexivity.
Qed.
