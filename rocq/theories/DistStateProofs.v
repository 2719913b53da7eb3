From Coq Require Import List Arith Lia Bool ZArith Permutation.
From Verif Require Import TensorModel PrimModel DistStateModel.
Import ListNotations.

(** ** Registry *)
(** Invariant: an uninitialised registry holds no group. *)
Definition reg_inv (s : reg) : Prop := inited s = false -> polar s = None /\ azimuth s = None.
Lemma exec_inv : forall c s, reg_inv s -> reg_inv (snd (exec c s)).
Proof.
  intros [p a|] s H. simpl; intros E; discriminate.
  simpl. unfold finalize, reg_inv in *.
  repeat match goal with |- context [match ?x with _ => _ end] => destruct x eqn:? end; simpl in *; auto; intros; try discriminate; auto; try congruence.
Qed.
Lemma run_inv : forall h s, reg_inv s -> reg_inv (snd (run h s)).
Proof.
  induction h; simpl; intros s H; auto. pose proof (exec_inv a s H). destruct (exec a s) as [e s1]. simpl in *.
  specialize (IHh s1 H0). destruct (run h s1); auto.
Qed.
Lemma run_app : forall h1 h2 s, run (h1 ++ h2) s =
  let (e, s1) := run h1 s in let (e', s2) := run h2 s1 in (e || e', s2).
Proof.
  induction h1; simpl; intros. destruct (run h2 s); auto.
  destruct (exec a s) as [e s1]. rewrite IHh1. destruct (run h1 s1) as [e1 s2]. destruct (run h2 s2); auto.
  now rewrite orb_assoc.
Qed.
Lemma reg0_inv : reg_inv reg0. Proof. intros _; auto. Qed.

Lemma finalize_ok : forall s s', reg_inv s -> finalize s = (false, s') ->
  inited s' = false /\ polar s' = None /\ azimuth s' = None.
Proof.
  intros s s' Hi H. unfold finalize in H.
  repeat match goal with H : context [match ?x with _ => _ end] |- _ => destruct x eqn:? end;
   inversion H; subst; simpl; auto; split; auto.
Qed.

Lemma existsb_in : forall x l, existsb (Nat.eqb x) l = true <-> In x l.
Proof.
  intros. rewrite existsb_exists. split.
  - intros (y & Hy & E). apply Nat.eqb_eq in E. now subst.
  - intros H. exists x. split; auto. apply Nat.eqb_refl.
Qed.

(** The history-level reading: last call decides. *)
Theorem registry_last_call : forall h, fst (run h reg0) = false ->
  let s := snd (run h reg0) in
  match rev h with
  | [] => is_initialized s = false /\ polar s = None /\ azimuth s = None
  | CInit p a :: _ => is_initialized s = true /\ polar s = p /\ azimuth s = a
  | CFinalize :: _ => is_initialized s = false /\ polar s = None /\ azimuth s = None
  end.
Proof.
  intros h. destruct (rev h) as [|c t] eqn:E.
  - apply (f_equal (@rev _)) in E. rewrite rev_involutive in E. simpl in E; subst. simpl; auto.
  - apply (f_equal (@rev _)) in E. rewrite rev_involutive in E. simpl in E; subst.
    rewrite run_app. pose proof (run_inv (rev t) reg0 reg0_inv) as Hi.
    destruct (run (rev t) reg0) as [e s1]. simpl in Hi. destruct c.
    + simpl. auto.
    + simpl. destruct (finalize s1) as [e2 s2] eqn:Ef. simpl. rewrite orb_false_r. intros H.
      apply orb_false_iff in H. destruct H; subst. destruct (finalize_ok _ _ Hi Ef) as (A & B & C). auto.
Qed.

(** finalize raises only if a registered group has already been destroyed, or
    the same group is registered for both axes. *)
Theorem finalize_raises_iff : forall s, fst (finalize s) = true <->
  inited s = true /\
  ((exists g, polar s = Some g /\ In (gid g) (destroyed s)) \/
   (exists g, azimuth s = Some g /\ In (gid g) (destroyed s)) \/
   (exists g g', polar s = Some g /\ azimuth s = Some g' /\ gid g = gid g')).
Proof.
  intros s. unfold finalize, destroy.
  destruct (inited s). 2:{ simpl; split; [discriminate | intros [? _]; discriminate]. }
  destruct (polar s) as [g|]; destruct (azimuth s) as [g'|]; simpl.
  - destruct (existsb (Nat.eqb (gid g)) (destroyed s)) eqn:E1; simpl.
    + split; auto. intros _. split; auto. left. exists g. split; auto. now apply existsb_in.
    + destruct (Nat.eqb_spec (gid g') (gid g)) as [E2|E2]; simpl.
      * split; auto. intros _. split; auto. right; right. eauto.
      * destruct (existsb (Nat.eqb (gid g')) (destroyed s)) eqn:E3; simpl.
        -- split; auto. intros _. split; auto. right; left. exists g'. split; auto. now apply existsb_in.
        -- split; [discriminate|]. intros (_ & [(x & Hx & Hin)|[(x & Hx & Hin)|(x & y & Hx & Hy & Hxy)]]).
           ++ inversion Hx; subst. apply existsb_in in Hin. congruence.
           ++ inversion Hx; subst. apply existsb_in in Hin. congruence.
           ++ inversion Hx; inversion Hy; subst. congruence.
  - destruct (existsb (Nat.eqb (gid g)) (destroyed s)) eqn:E1; simpl.
    + split; auto. intros _. split; auto. left. exists g. split; auto. now apply existsb_in.
    + split; [discriminate|]. intros (_ & [(x & Hx & Hin)|[(x & Hx & Hin)|(x & y & Hx & Hy & Hxy)]]); try discriminate.
      inversion Hx; subst. apply existsb_in in Hin. congruence.
  - destruct (existsb (Nat.eqb (gid g')) (destroyed s)) eqn:E1; simpl.
    + split; auto. intros _. split; auto. right; left. exists g'. split; auto. now apply existsb_in.
    + split; [discriminate|]. intros (_ & [(x & Hx & Hin)|[(x & Hx & Hin)|(x & y & Hx & Hy & Hxy)]]); try discriminate.
      inversion Hx; subst. apply existsb_in in Hin. congruence.
  - split; [discriminate|]. intros (_ & [(x & Hx & Hin)|[(x & Hx & Hin)|(x & y & Hx & Hy & Hxy)]]); discriminate.
Qed.

Theorem finalize_uninit_noop : forall h, fst (run h reg0) = false ->
  is_initialized (snd (run h reg0)) = false -> finalize (snd (run h reg0)) = (false, snd (run h reg0)).
Proof.
  intros h _ H. unfold finalize. unfold is_initialized in H. rewrite H.
  destruct (snd (run h reg0)); simpl in *; subst; auto.
Qed.

(** ** Ring *)
Lemma index_of_nth : forall ranks r x, NoDup ranks -> nth_error ranks r = Some x -> index_of x ranks = Some r.
Proof.
  induction ranks; intros r x Hn Hr. destruct r; discriminate.
  inversion Hn; subst. destruct r; simpl in *.
  - inversion Hr; subst. now rewrite Nat.eqb_refl.
  - destruct (Nat.eqb_spec a x). subst. apply nth_error_In in Hr. tauto.
    rewrite (IHranks r x) by auto. auto.
Qed.
Lemma nth_error_lt : forall A (l : list A) r, r < length l -> exists x, nth_error l r = Some x.
Proof. intros. destruct (nth_error l r) eqn:E; eauto. apply nth_error_None in E. lia. Qed.

Lemma neighbors_spec : forall ranks r me, NoDup ranks -> nth_error ranks r = Some me ->
  exists p q, get_group_neighbors ranks me = Some (p, q) /\
    nth_error ranks ((r + length ranks - 1) mod length ranks) = Some p /\
    nth_error ranks ((r + 1) mod length ranks) = Some q.
Proof.
  intros ranks r me Hn Hr. assert (0 < length ranks). { destruct ranks; simpl; try lia. destruct r; discriminate. }
  unfold get_group_neighbors. rewrite (index_of_nth _ _ _ Hn Hr). cbn [bindo].
  destruct (nth_error_lt _ ranks ((r + length ranks - 1) mod length ranks)) as (p & Hp). apply Nat.mod_upper_bound; lia.
  destruct (nth_error_lt _ ranks ((r + 1) mod length ranks)) as (q & Hq). apply Nat.mod_upper_bound; lia.
  exists p, q. rewrite Hp, Hq. auto.
Qed.

Lemma succ_pred_mod : forall n r, r < n -> ((r + 1) mod n + n - 1) mod n = r.
Proof.
  intros n r H. destruct (Nat.eq_dec (r + 1) n) as [E|E].
  - rewrite E, Nat.mod_same by lia. rewrite Nat.mod_small by lia. lia.
  - rewrite (Nat.mod_small (r + 1)) by lia. replace (r + 1 + n - 1) with (r + 1 * n) by lia.
    rewrite Nat.mod_add by lia. apply Nat.mod_small; auto.
Qed.

Lemma ring_kv_spec : forall B (width : B -> nat) ranks w chunk r c, NoDup ranks -> r < length ranks ->
  chunk ((r + 1) mod length ranks) = Some c -> w r = Some (width c) ->
  ring_kv width ranks w chunk r = Some c.
Proof.
  intros B width ranks w chunk r c Hn Hr Hc Hw. unfold ring_kv.
  destruct (nth_error_lt _ ranks r Hr) as (me & Hme). rewrite Hme. cbn [bindo].
  destruct (neighbors_spec _ _ _ Hn Hme) as (p & q & E & Hp & Hq). rewrite E. cbn [bindo snd].
  rewrite (index_of_nth _ _ _ Hn Hq). cbn [bindo].
  destruct (neighbors_spec _ _ _ Hn Hq) as (p' & q' & E' & Hp' & Hq'). rewrite E'. cbn [bindo fst].
  rewrite succ_pred_mod in Hp' by auto. assert (p' = me) by congruence; subst.
  rewrite Nat.eqb_refl. cbn [guard bindo]. rewrite Hc. cbn [bindo]. rewrite Hw. cbn [bindo].
  rewrite Nat.eqb_refl. reflexivity.
Qed.

Lemma ring_loop_spec : forall B (width : B -> nat) ranks widths (c : nat -> B), NoDup ranks -> 
  length widths = length ranks -> (forall r, r < length ranks -> nth_error widths r = Some (width (c r))) ->
  forall steps step chunk, step + steps <= length ranks ->
  (forall r, r < length ranks -> chunk r = Some (c ((r + step) mod length ranks))) ->
  forall r, r < length ranks ->
  ring_loop width ranks widths steps step chunk r =
    Some (map (fun s => ((r + s) mod length ranks, c ((r + s) mod length ranks))) (seq step steps)).
Proof.
  intros B width ranks widths c Hn Hl Hw. set (n := length ranks) in *.
  induction steps; intros step chunk Hs Hc r Hr. reflexivity.
  cbn [ring_loop]. fold n. rewrite Hc by auto. cbn [bindo].
  assert (Hr1 : forall q, q < n -> (q + 1) mod n < n) by (intros; apply Nat.mod_upper_bound; lia).
  destruct (Nat.ltb_spec step (n - 1)).
  - rewrite IHsteps; auto; try lia.
    + cbn [bindo seq map]. now rewrite Nat.add_1_r.
    + intros q Hq. apply ring_kv_spec; auto.
      * fold n. rewrite Hc by auto. rewrite Nat.add_mod_idemp_l by lia. do 3 f_equal. lia.
      * rewrite <- Nat.add_assoc. rewrite Hw. auto. apply Nat.mod_upper_bound; lia.
  - destruct steps as [|steps]; [|lia]. reflexivity.
Qed.

Theorem ring_spec : forall B (width : B -> nat) ranks widths (c : nat -> B), NoDup ranks -> 
  length widths = length ranks -> (forall r, r < length ranks -> nth_error widths r = Some (width (c r))) ->
  forall r, r < length ranks ->
  ring width ranks widths (fun q => Some (c q)) r =
    Some (map (fun s => ((r + s) mod length ranks, c ((r + s) mod length ranks))) (seq 0 (length ranks))).
Proof.
  intros. unfold ring. eapply ring_loop_spec; eauto.
  intros q Hq. rewrite Nat.add_0_r, Nat.mod_small; auto.
Qed.

Lemma rot_perm : forall n r, r < n -> Permutation (map (fun s => (r + s) mod n) (seq 0 n)) (seq 0 n).
Proof.
  intros n r Hr.
  assert (E : map (fun s => (r + s) mod n) (seq 0 n) = seq r (n - r) ++ seq 0 r).
  { transitivity (map (fun s => (r + s) mod n) (seq 0 ((n - r) + r))). do 2 f_equal; lia. rewrite seq_app, map_app. f_equal.
    - apply nth_ext with (d := 0) (d' := 0). now rewrite map_length, !seq_length.
      intros k Hk. rewrite map_length, seq_length in Hk.
      rewrite (nth_indep _ 0 ((r + 0) mod n)) by now rewrite map_length, seq_length.
      rewrite (map_nth (fun s => (r + s) mod n)), !seq_nth by auto. simpl. apply Nat.mod_small; lia.
    - apply nth_ext with (d := 0) (d' := 0). now rewrite map_length, !seq_length.
      intros k Hk. rewrite map_length, seq_length in Hk.
      rewrite (nth_indep _ 0 ((r + 0) mod n)) by now rewrite map_length, seq_length.
      rewrite (map_nth (fun s => (r + s) mod n)), !seq_nth by auto.
      replace (r + (0 + (n - r) + k)) with (k + 1 * n) by lia. rewrite Nat.mod_add by lia. apply Nat.mod_small; lia. }
  rewrite E. eapply perm_trans. apply Permutation_app_comm.
  change (seq r (n - r)) with (seq (0 + r) (n - r)). rewrite <- seq_app. replace (r + (n - r)) with n by lia. auto.
Qed.

Theorem ring_visits_once : forall B (width : B -> nat) ranks widths (c : nat -> B), NoDup ranks -> 
  length widths = length ranks -> (forall r, r < length ranks -> nth_error widths r = Some (width (c r))) ->
  forall r, r < length ranks -> exists l,
  ring width ranks widths (fun q => Some (c q)) r = Some l /\
  Permutation l (map (fun q => (q, c q)) (seq 0 (length ranks))).
Proof.
  intros. eexists; split. eapply ring_spec; eauto.
  rewrite <- (map_map (fun s => (r + s) mod length ranks) (fun q => (q, c q))).
  apply Permutation_map. now apply rot_perm.
Qed.
