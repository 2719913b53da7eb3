(** Executions of race-free kernels are confluent, so one of them settles all. *)
From Coq Require Import List Arith Lia Bool Reals Lra FunctionalExtensionality.
From Verif Require Import TensorModel TensorProofs GpuModel GpuSpec.
Import ListNotations.
Local Open Scope nat_scope.

(** ** Updates *)
Lemma put_eq : forall A i (v : A) a, put i v a i = v.
Proof. intros. unfold put. now rewrite Nat.eqb_refl. Qed.
Lemma put_ne : forall A i j (v : A) a, j <> i -> put i v a j = a j.
Proof. intros. unfold put. now destruct (Nat.eqb_spec j i). Qed.
Lemma put_comm : forall A i j (v w : A) a, i <> j -> put i v (put j w a) = put j w (put i v a).
Proof. intros. apply functional_extensionality. intros x. unfold put. destruct (Nat.eqb_spec x i), (Nat.eqb_spec x j); congruence. Qed.
Lemma put_put : forall A i (v w : A) a, put i v (put i w a) = put i v a.
Proof. intros. apply functional_extensionality. intros x. unfold put. now destruct (Nat.eqb_spec x i). Qed.
Lemma put_same : forall A i (a : nat -> A), put i (a i) a = a.
Proof. intros. apply functional_extensionality. intros x. unfold put. now destruct (Nat.eqb_spec x i); subst. Qed.

(** ** Races *)
Definition writes (i : instr) (a : nat) : Prop := match i with IStore a' _ => a' = a | _ => False end.
Definition reads (i : instr) (a : nat) : Prop := match i with ILoad _ a' => a' = a | _ => False end.
Definition is_sync (i : instr) : bool := match i with ISync _ => true | _ => false end.
(** the instructions in front of the first barrier, and what follows it *)
Fixpoint head (c : list instr) : list instr := match c with [] => [] | i :: c' => if is_sync i then [] else i :: head c' end.
Fixpoint rest (c : list instr) : list instr := match c with [] => [] | i :: c' => if is_sync i then c' else rest c' end.
Fixpoint phase (n : nat) (c : list instr) : list instr := match n with 0 => head c | S n' => phase n' (rest c) end.
Definition apart (p q : list instr) : Prop := forall i j a, In i p -> In j q -> writes i a -> ~ writes j a /\ ~ reads j a.
Definition touches (i : instr) (a : nat) : Prop := match i with IOut a' _ | IAtom _ a' _ => a' = a | _ => False end.
Definition compat (c c' : list instr) : Prop :=
  forall i j a, In i c -> In j c' -> touches i a -> touches j a -> exists o f f', i = IAtom o a f /\ j = IAtom o a f'.
Record race_free (k : kernel) (s : state) : Prop := mkRF {
  rf_sh : forall g t t' n, g < k_groups k -> t < k_threads k -> t' < k_threads k -> t <> t' -> apart (phase n (s_code s g t)) (phase n (s_code s g t'));
  rf_out : forall g t g' t', g < k_groups k -> t < k_threads k -> g' < k_groups k -> t' < k_threads k -> (g, t) <> (g', t') -> compat (s_code s g t) (s_code s g' t') }.

(** ** Independent instructions commute *)
Lemma sh_indep : forall i j rg rg' sh, apart [i] [j] -> apart [j] [i] -> sh_of i rg (sh_of j rg' sh) = sh_of j rg' (sh_of i rg sh).
Proof.
  intros i j rg rg' sh H _. destruct i, j; cbn; auto. apply put_comm. intros ->. destruct (H _ _ a0 (or_introl eq_refl) (or_introl eq_refl) eq_refl) as [H1 _]. apply H1. reflexivity.
Qed.
Lemma reg_indep : forall inp i j rg rg' sh, apart [j] [i] -> reg_of inp i rg (sh_of j rg' sh) = reg_of inp i rg sh.
Proof.
  intros inp i j rg rg' sh H. destruct i, j; cbn; auto. f_equal. apply put_ne. intros ->. destruct (H _ _ a0 (or_introl eq_refl) (or_introl eq_refl) eq_refl) as [_ H1]. apply H1. reflexivity.
Qed.
Lemma aop_comm : forall o x y z, aop_fun o (aop_fun o x y) z = aop_fun o (aop_fun o x z) y.
Proof.
  intros [] x y z; cbn; [ring|]. unfold Rmax. repeat destruct Rle_dec; lra.
Qed.
Lemma out_indep : forall i j rg rg' out, compat [i] [j] -> out_of i rg (out_of j rg' out) = out_of j rg' (out_of i rg out).
Proof.
  intros i j rg rg' out H.
  assert (D : forall a a', touches i a -> touches j a' -> a <> a' \/ exists o f f', a = a' /\ i = IAtom o a f /\ j = IAtom o a f').
  { intros a a' Hi Hj. destruct (Nat.eq_dec a a') as [->|]; [|now left]. right. destruct (H i j a' (or_introl eq_refl) (or_introl eq_refl) Hi Hj) as (o & f & f' & -> & ->). eauto 8. }
  destruct i as [| | | |a f|o a f| | |], j as [| | | |a' f'|o' a' f'| | |]; cbn; auto; destruct (D a a' eq_refl eq_refl) as [E|(? & ? & ? & E & E1 & E2)]; try discriminate; subst;
    try (rewrite put_comm by auto; repeat rewrite (put_ne _ a), (put_ne _ a') by auto; try rewrite (put_ne _ a) by auto; try rewrite (put_ne _ a') by auto; reflexivity).
  injection E1 as -> ->. injection E2 as -> _. rewrite !put_eq, !put_put. f_equal. apply aop_comm.
Qed.
Lemma in_head : forall i c, is_sync i = false -> In i (head (i :: c)).
Proof. intros. cbn. rewrite H. now left. Qed.

(** ** Steps commute *)
Lemma bounds_plain : forall k i, in_bounds k i = true -> is_sync i = false.
Proof. intros k [] H; try reflexivity; discriminate H. Qed.
Lemma exec_thread : forall k g t s s', exec k (LThread g t) s = Some s' ->
  g < k_groups k /\ t < k_threads k /\ exists i c, s_code s g t = i :: c /\ in_bounds k i = true /\
  s' = mkSt (put g (put t c (s_code s g)) (s_code s)) (put g (put t (reg_of (k_in k) i (s_reg s g t) (s_sh s g)) (s_reg s g)) (s_reg s))
            (put g (sh_of i (s_reg s g t) (s_sh s g)) (s_sh s)) (out_of i (s_reg s g t) (s_out s)).
Proof.
  intros k g t s s' H. unfold exec in H. destruct (Nat.ltb_spec g (k_groups k)); [|discriminate]. destruct (Nat.ltb_spec t (k_threads k)); [|discriminate].
  cbn [andb guard bindo] in H. destruct (s_code s g t) as [|i c]; [discriminate|]. destruct (in_bounds k i) eqn:E; [|discriminate]. cbn [guard bindo] in H. injection H as <-. eauto 8.
Qed.
Lemma exec_thread_intro : forall k g t s i c, g < k_groups k -> t < k_threads k -> s_code s g t = i :: c -> in_bounds k i = true ->
  exec k (LThread g t) s = Some (mkSt (put g (put t c (s_code s g)) (s_code s)) (put g (put t (reg_of (k_in k) i (s_reg s g t) (s_sh s g)) (s_reg s g)) (s_reg s))
            (put g (sh_of i (s_reg s g t) (s_sh s g)) (s_sh s)) (out_of i (s_reg s g t) (s_out s))).
Proof.
  intros k g t s i c Hg Ht E B. unfold exec. apply Nat.ltb_lt in Hg. apply Nat.ltb_lt in Ht. rewrite Hg, Ht, E, B. reflexivity.
Qed.
Lemma exec_sync : forall k g s s', exec k (LSync g) s = Some s' ->
  g < k_groups k /\ 1 <= k_threads k /\ (forall t, t < k_threads k -> exists f c, s_code s g t = ISync f :: c) /\
  s' = mkSt (put g (fun t => if t <? k_threads k then tl (s_code s g t) else s_code s g t) (s_code s))
            (put g (fun t => if t <? k_threads k then match sync_of (s_code s g t) with Some (f, _) => f (s_reg s g) | None => s_reg s g t end else s_reg s g t) (s_reg s))
            (s_sh s) (s_out s).
Proof.
  intros k g s s' H. unfold exec in H. match type of H with bindo (guard ?b) _ = _ => destruct b eqn:E end; [|discriminate]. cbn [guard bindo] in H. injection H as <-.
  apply andb_true_iff in E. destruct E as [E E2]. apply andb_true_iff in E. destruct E as [E0 E1]. apply Nat.ltb_lt in E0. apply Nat.leb_le in E1. repeat split; auto.
  intros t Ht. assert (Q := proj1 (forallb_forall _ _) E2 t). rewrite in_seq in Q. specialize (Q ltac:(lia)). destruct (s_code s g t) as [|[] c]; try discriminate Q. eauto.
Qed.
Lemma exec_sync_intro : forall k g s, g < k_groups k -> 1 <= k_threads k -> (forall t, t < k_threads k -> exists f c, s_code s g t = ISync f :: c) ->
  exec k (LSync g) s = Some (mkSt (put g (fun t => if t <? k_threads k then tl (s_code s g t) else s_code s g t) (s_code s))
            (put g (fun t => if t <? k_threads k then match sync_of (s_code s g t) with Some (f, _) => f (s_reg s g) | None => s_reg s g t end else s_reg s g t) (s_reg s))
            (s_sh s) (s_out s)).
Proof.
  intros k g s Hg Ht H. unfold exec. replace ((g <? k_groups k) && (1 <=? k_threads k) && forallb (fun t => at_sync (s_code s g t)) (seq 0 (k_threads k))) with true; [reflexivity|].
  symmetry. apply andb_true_iff. split; [apply andb_true_iff; split; [now apply Nat.ltb_lt|now apply Nat.leb_le]|].
  apply forallb_forall. intros t Hin. apply in_seq in Hin. destruct (H t ltac:(lia)) as (f & c & ->). reflexivity.
Qed.

Lemma in_warp_iff : forall k w t, in_warp k w t = true <-> t < k_threads k /\ t / warp_size = w.
Proof. intros. unfold in_warp. rewrite andb_true_iff, Nat.ltb_lt, Nat.eqb_eq. reflexivity. Qed.
Definition shfl_state (k : kernel) (g w : nat) (s : state) : state :=
  mkSt (put g (fun t => if in_warp k w t then tl (s_code s g t) else s_code s g t) (s_code s))
       (put g (fun t => if in_warp k w t then match shfl_of (s_code s g t) with Some (f, _) => f (warp_regs (k_threads k) w (s_reg s g)) | None => s_reg s g t end else s_reg s g t) (s_reg s))
       (s_sh s) (s_out s).
Lemma exec_shfl : forall k g w s s', exec k (LShfl g w) s = Some s' ->
  g < k_groups k /\ w * warp_size < k_threads k /\ (forall t, in_warp k w t = true -> exists f c, s_code s g t = IShfl f :: c) /\ s' = shfl_state k g w s.
Proof.
  intros k g w s s' H. unfold exec in H. match type of H with bindo (guard ?b) _ = _ => destruct b eqn:E end; [|discriminate]. cbn [guard bindo] in H. injection H as <-.
  apply andb_true_iff in E. destruct E as [E E2]. apply andb_true_iff in E. destruct E as [E0 E1]. apply Nat.ltb_lt in E0. apply Nat.ltb_lt in E1. repeat split; auto.
  intros t Ht. assert (Q := proj1 (forallb_forall _ _) E2 t). rewrite in_seq, Ht in Q. apply in_warp_iff in Ht. specialize (Q ltac:(lia)). cbn in Q. destruct (s_code s g t) as [|[] c]; try discriminate Q. eauto.
Qed.
Lemma exec_shfl_intro : forall k g w s, g < k_groups k -> w * warp_size < k_threads k -> (forall t, in_warp k w t = true -> exists f c, s_code s g t = IShfl f :: c) ->
  exec k (LShfl g w) s = Some (shfl_state k g w s).
Proof.
  intros k g w s Hg Ht H. unfold exec. match goal with |- bindo (guard ?b) _ = _ => replace b with true; [reflexivity|] end.
  symmetry. apply andb_true_iff. split; [apply andb_true_iff; split; now apply Nat.ltb_lt|].
  apply forallb_forall. intros t Hin. destruct (in_warp k w t) eqn:E; [|reflexivity]. destruct (H t E) as (f & c & ->). reflexivity.
Qed.
Lemma warp_start : forall k w, w * warp_size < k_threads k -> in_warp k w (w * warp_size) = true.
Proof. intros. apply in_warp_iff. split; [auto|]. apply Nat.div_mul. discriminate. Qed.
Lemma warp_thread : forall k w t t', in_warp k w t = true -> in_warp k w t' = false -> t <> t'.
Proof. congruence. Qed.
Lemma warp_regs_put : forall k w t x rg, in_warp k w t = false -> warp_regs (k_threads k) w (put t x rg) = warp_regs (k_threads k) w rg.
Proof.
  intros. apply functional_extensionality. intros t'. unfold warp_regs. change ((t' <? k_threads k) && (t' / warp_size =? w)) with (in_warp k w t'). destruct (in_warp k w t') eqn:E; [|reflexivity]. apply put_ne. congruence.
Qed.
(** steps of one thread and of a warp without it; of two warps *)
Lemma shfl_thread : forall k g w t s s1, exec k (LShfl g w) s = Some (shfl_state k g w s) -> exec k (LThread g t) s = Some s1 ->
  exists s3, exec k (LThread g t) (shfl_state k g w s) = Some s3 /\ exec k (LShfl g w) s1 = Some s3.
Proof.
  intros k g w t s s1 H1 H2. apply exec_shfl in H1. destruct H1 as (Hg & Hw & Hs & _). apply exec_thread in H2. destruct H2 as (_ & Ht & i & c & E & B & ->).
  assert (Nw : in_warp k w t = false). { destruct (in_warp k w t) eqn:Q; [|reflexivity]. destruct (Hs t Q) as (f & c' & E'). rewrite E in E'. injection E' as -> ->. discriminate B. }
  eexists. split.
  - apply (exec_thread_intro k g t _ i c); auto. cbn [shfl_state s_code]. rewrite put_eq, Nw. exact E.
  - rewrite exec_shfl_intro; auto; [|intros t' Ht'; cbn [s_code]; rewrite put_eq, put_ne by congruence; auto].
    f_equal. unfold shfl_state. cbn [s_code s_reg s_sh s_out]. rewrite !put_eq, !put_put, Nw. f_equal.
    + f_equal. apply functional_extensionality. intros t'. destruct (Nat.eq_dec t' t) as [->|Nt]; [now rewrite Nw, !put_eq|]. now rewrite !(put_ne _ t) by auto.
    + f_equal. apply functional_extensionality. intros t'. rewrite warp_regs_put by auto. destruct (Nat.eq_dec t' t) as [->|Nt]; [now rewrite Nw, !put_eq|]. now rewrite !(put_ne _ t) by auto.
Qed.
Lemma shfl_shfl : forall k g w w' s, w <> w' -> exec k (LShfl g w) s = Some (shfl_state k g w s) -> exec k (LShfl g w') s = Some (shfl_state k g w' s) ->
  exists s3, exec k (LShfl g w') (shfl_state k g w s) = Some s3 /\ exec k (LShfl g w) (shfl_state k g w' s) = Some s3.
Proof.
  intros k g w w' s Ne H1 H2. apply exec_shfl in H1. destruct H1 as (Hg & Hw & Hs & _). apply exec_shfl in H2. destruct H2 as (_ & Hw' & Hs' & _).
  assert (D : forall t, in_warp k w t = true -> in_warp k w' t = true -> False). { intros t A B. apply in_warp_iff in A, B. lia. }
  assert (Wr : forall v v' h, (forall t, in_warp k v t = true -> in_warp k v' t = true -> False) -> warp_regs (k_threads k) v (fun t => if in_warp k v' t then h t else s_reg s g t) = warp_regs (k_threads k) v (s_reg s g)).
  { intros v v' h Dv. apply functional_extensionality. intros t'. unfold warp_regs. change ((t' <? k_threads k) && (t' / warp_size =? v)) with (in_warp k v t'). destruct (in_warp k v t') eqn:E; [|reflexivity]. destruct (in_warp k v' t') eqn:E'; [|reflexivity]. destruct (Dv t' E E'). }
  eexists. split.
  - apply exec_shfl_intro; auto. intros t Ht. cbn [shfl_state s_code]. rewrite put_eq. destruct (in_warp k w t) eqn:E; [destruct (D t E Ht)|auto].
  - rewrite exec_shfl_intro; auto; [|intros t Ht; cbn [shfl_state s_code]; rewrite put_eq; destruct (in_warp k w' t) eqn:E; [destruct (D t Ht E)|auto]].
    f_equal. unfold shfl_state. cbn [s_code s_reg s_sh s_out]. rewrite !put_eq, !put_put, !Wr by (intros t A B; eauto). f_equal; f_equal; apply functional_extensionality; intros t.
    + destruct (in_warp k w t) eqn:E1, (in_warp k w' t) eqn:E2; auto; exfalso; exact (D t E1 E2).
    + destruct (in_warp k w t) eqn:E1, (in_warp k w' t) eqn:E2; auto; exfalso; exact (D t E1 E2).
Qed.

Lemma diamond : forall k s l l' s1 s2, race_free k s -> l <> l' -> exec k l s = Some s1 -> exec k l' s = Some s2 ->
  exists s3, exec k l' s1 = Some s3 /\ exec k l s2 = Some s3.
Proof.
  intros k s l l' s1 s2 RF NE H1 H2.
  destruct l as [g t|g|g w], l' as [g' t'|g'|g' w'].
  - apply exec_thread in H1. destruct H1 as (Hg & Ht & i & c & E & B & ->). apply exec_thread in H2. destruct H2 as (Hg' & Ht' & j & c' & E' & B' & ->).
    assert (NE' : (g, t) <> (g', t')) by congruence.
    assert (Co : compat [i] [j]). { assert (Q := rf_out k s RF g t g' t' Hg Ht Hg' Ht' NE'). rewrite E, E' in Q. intros x y a [<-|[]] [<-|[]]. apply Q; now left. }
    destruct (Nat.eq_dec g g') as [<-|Ng].
    + assert (Nt : t <> t') by congruence.
      assert (A1 : apart [i] [j]). { assert (Q := rf_sh k s RF g t t' 0 Hg Ht Ht' Nt). cbn [phase] in Q. rewrite E, E' in Q. intros x y a [<-|[]] [<-|[]]. apply Q; apply in_head; eapply bounds_plain; eauto. }
      assert (A2 : apart [j] [i]). { assert (Q := rf_sh k s RF g t' t 0 Hg Ht' Ht ltac:(auto)). cbn [phase] in Q. rewrite E, E' in Q. intros x y a [<-|[]] [<-|[]]. apply Q; apply in_head; eapply bounds_plain; eauto. }
      eexists. split.
      * apply (exec_thread_intro k g t' _ j c'); auto. cbn [s_code]. rewrite put_eq, put_ne by auto. exact E'.
      * cbn [s_code s_reg s_sh s_out]. rewrite (exec_thread_intro k g t _ i c); auto; cbn [s_code s_reg s_sh s_out]; [|rewrite put_eq, put_ne by auto; exact E].
        rewrite !put_eq, !put_put, !(put_ne _ _ t), !(put_ne _ _ t') by auto. rewrite (reg_indep (k_in k) i j), (reg_indep (k_in k) j i), (sh_indep i j), (out_indep i j) by auto.
        rewrite (put_comm _ t t') by auto. rewrite (put_comm _ t t') by auto. reflexivity.
    + eexists. split.
      * apply (exec_thread_intro k g' t' _ j c'); auto. cbn [s_code]. rewrite put_ne by auto. exact E'.
      * cbn [s_code s_reg s_sh s_out]. rewrite (exec_thread_intro k g t _ i c); auto; cbn [s_code s_reg s_sh s_out]; [|rewrite put_ne by auto; exact E].
        rewrite !(put_ne _ g), !(put_ne _ g') by auto. rewrite (out_indep i j) by auto.
        rewrite (put_comm _ g g') by auto. rewrite (put_comm _ g g') by auto. rewrite (put_comm _ g g') by auto. reflexivity.
  - apply exec_thread in H1. destruct H1 as (Hg & Ht & i & c & E & B & ->). apply exec_sync in H2. destruct H2 as (Hg' & Ht' & Hs & ->).
    destruct (Nat.eq_dec g g') as [<-|Ng]. { destruct (Hs t Ht) as (f & c' & E'). rewrite E in E'. injection E' as -> ->. discriminate B. }
    eexists. split.
    + apply exec_sync_intro; auto. cbn [s_code]. rewrite put_ne by auto. exact Hs.
    + rewrite (exec_thread_intro k g t _ i c); auto; cbn [s_code s_reg s_sh s_out]; [|rewrite put_ne by auto; exact E].
      rewrite !(put_ne _ g), !(put_ne _ g') by auto. rewrite (put_comm _ g g') by auto. rewrite (put_comm _ g g') by auto. reflexivity.
  - apply exec_thread in H1. destruct H1 as (Hg & Ht & i & c & E & B & Q1). destruct (Nat.eq_dec g g') as [<-|Ng].
    { destruct (exec_shfl k g w' s s2 H2) as (_ & _ & _ & ->). destruct (shfl_thread k g w' t s s1 H2) as (s3 & A & A'); [subst s1; now apply exec_thread_intro|]. eauto. }
    subst s1. apply exec_shfl in H2. destruct H2 as (Hg' & Hw' & Hs & ->). eexists. split.
    + apply exec_shfl_intro; auto. cbn [s_code]. rewrite put_ne by auto. exact Hs.
    + unfold shfl_state. rewrite (exec_thread_intro k g t _ i c); auto; cbn [s_code s_reg s_sh s_out]; [|rewrite put_ne by auto; exact E].
      rewrite !(put_ne _ g), !(put_ne _ g') by auto. rewrite (put_comm _ g g') by auto. rewrite (put_comm _ g g') by auto. reflexivity.
  - apply exec_sync in H1. destruct H1 as (Hg & Ht & Hs & ->). apply exec_thread in H2. destruct H2 as (Hg' & Ht' & i & c & E & B & ->).
    destruct (Nat.eq_dec g g') as [<-|Ng]. { destruct (Hs t' Ht') as (f & c' & E'). rewrite E in E'. injection E' as -> ->. discriminate B. }
    eexists. split.
    + apply (exec_thread_intro k g' t' _ i c); auto. cbn [s_code]. rewrite put_ne by auto. exact E.
    + rewrite exec_sync_intro; auto; cbn [s_code s_reg s_sh s_out]; [|rewrite put_ne by auto; exact Hs].
      rewrite !(put_ne _ g), !(put_ne _ g') by auto. rewrite (put_comm _ g g') by auto. rewrite (put_comm _ g g') by auto. reflexivity.
  - apply exec_sync in H1. destruct H1 as (Hg & Ht & Hs & ->). apply exec_sync in H2. destruct H2 as (Hg' & _ & Hs' & ->).
    assert (Ng : g <> g') by congruence.
    eexists. split.
    + apply exec_sync_intro; auto. cbn [s_code]. rewrite put_ne by auto. exact Hs'.
    + rewrite exec_sync_intro; auto; cbn [s_code s_reg s_sh s_out]; [|rewrite put_ne by auto; exact Hs].
      rewrite !(put_ne _ g), !(put_ne _ g') by auto. rewrite (put_comm _ g g') by auto. rewrite (put_comm _ g g') by auto. reflexivity.
  - apply exec_sync in H1. destruct H1 as (Hg & Ht & Hs & ->). apply exec_shfl in H2. destruct H2 as (Hg' & Hw' & Hs' & ->).
    destruct (Nat.eq_dec g g') as [<-|Ng]. { destruct (Hs' _ (warp_start k w' Hw')) as (f & c & E). destruct (Hs (w' * warp_size) Hw') as (f' & c' & E'). rewrite E in E'. discriminate. }
    eexists. split.
    + apply exec_shfl_intro; auto. cbn [s_code]. rewrite put_ne by auto. exact Hs'.
    + unfold shfl_state. rewrite exec_sync_intro; auto; cbn [s_code s_reg s_sh s_out]; [|rewrite put_ne by auto; exact Hs].
      rewrite !(put_ne _ g), !(put_ne _ g') by auto. rewrite (put_comm _ g g') by auto. rewrite (put_comm _ g g') by auto. reflexivity.
  - apply exec_thread in H2. destruct H2 as (Hg' & Ht & i & c & E & B & Q1). destruct (Nat.eq_dec g g') as [<-|Ng].
    { destruct (exec_shfl k g w s s1 H1) as (_ & _ & _ & ->). destruct (shfl_thread k g w t' s s2 H1) as (s3 & A & A'); [subst s2; now apply exec_thread_intro|]. eauto. }
    subst s2. apply exec_shfl in H1. destruct H1 as (Hg & Hw' & Hs & ->). eexists. split.
    + apply (exec_thread_intro k g' t' _ i c); auto. cbn [shfl_state s_code]. rewrite put_ne by auto. exact E.
    + rewrite exec_shfl_intro; auto; [|cbn [s_code]; rewrite put_ne by auto; exact Hs]. unfold shfl_state. cbn [s_code s_reg s_sh s_out].
      rewrite !(put_ne _ g), !(put_ne _ g') by auto. rewrite (put_comm _ g g') by auto. rewrite (put_comm _ g g') by auto. reflexivity.
  - apply exec_shfl in H1. destruct H1 as (Hg & Hw & Hs & ->). apply exec_sync in H2. destruct H2 as (Hg' & Ht & Hs' & ->).
    destruct (Nat.eq_dec g g') as [<-|Ng]. { destruct (Hs _ (warp_start k w Hw)) as (f & c & E). destruct (Hs' (w * warp_size) Hw) as (f' & c' & E'). rewrite E in E'. discriminate. }
    eexists. split.
    + apply exec_sync_intro; auto. cbn [shfl_state s_code]. rewrite put_ne by auto. exact Hs'.
    + rewrite exec_shfl_intro; auto; [|cbn [s_code]; rewrite put_ne by auto; exact Hs]. unfold shfl_state. cbn [s_code s_reg s_sh s_out].
      rewrite !(put_ne _ g), !(put_ne _ g') by auto. rewrite (put_comm _ g g') by auto. rewrite (put_comm _ g g') by auto. reflexivity.
  - destruct (exec_shfl _ _ _ _ _ H1) as (Hg & Hw & Hs & ->). destruct (exec_shfl _ _ _ _ _ H2) as (Hg' & Hw' & Hs' & ->).
    destruct (Nat.eq_dec g g') as [<-|Ng]; [apply shfl_shfl; auto; congruence|].
    eexists. split.
    + apply exec_shfl_intro; auto. cbn [shfl_state s_code]. rewrite put_ne by auto. exact Hs'.
    + rewrite exec_shfl_intro; auto; [|cbn [shfl_state s_code]; rewrite put_ne by auto; exact Hs]. unfold shfl_state. cbn [s_code s_reg s_sh s_out].
      rewrite !(put_ne _ g), !(put_ne _ g') by auto. rewrite (put_comm _ g g') by auto. rewrite (put_comm _ g g') by auto. reflexivity.
Qed.

(** ** Race freedom is kept *)
Lemma phase_sub : forall n i c x, is_sync i = false -> In x (phase n c) -> In x (phase n (i :: c)).
Proof. intros [|n] i c x Hi H; cbn; rewrite Hi; [now right|exact H]. Qed.
Lemma apart_sub : forall p q p' q', (forall x, In x p' -> In x p) -> (forall x, In x q' -> In x q) -> apart p q -> apart p' q'.
Proof. intros p q p' q' Hp Hq H i j a Hi Hj. apply H; auto. Qed.
Lemma compat_sub : forall p q p' q', (forall x, In x p' -> In x p) -> (forall x, In x q' -> In x q) -> compat p q -> compat p' q'.
Proof. intros p q p' q' Hp Hq H i j a Hi Hj. apply H; auto. Qed.
Lemma exec_rf : forall k l s s', race_free k s -> exec k l s = Some s' -> race_free k s'.
Proof.
  intros k [g t|g|g w] s s' RF H.
  - apply exec_thread in H. destruct H as (Hg & Ht & i & c & E & B & ->).
    assert (Sub : forall g' t' n x, In x (phase n (put g (put t c (s_code s g)) (s_code s) g' t')) -> In x (phase n (s_code s g' t'))).
    { intros g' t' n x. unfold put. destruct (Nat.eqb_spec g' g); [subst|auto]. destruct (Nat.eqb_spec t' t); [subst|auto]. rewrite E. apply phase_sub. eapply bounds_plain; eauto. }
    assert (Sub2 : forall g' t' x, In x (put g (put t c (s_code s g)) (s_code s) g' t') -> In x (s_code s g' t')).
    { intros g' t' x. unfold put. destruct (Nat.eqb_spec g' g); [subst|auto]. destruct (Nat.eqb_spec t' t); [subst|auto]. rewrite E. now right. }
    split; cbn [s_code].
    + intros g' t1 t2 n Hg' H1 H2 Hn. eapply apart_sub; [apply Sub|apply Sub|]. now apply (rf_sh k s RF).
    + intros. eapply compat_sub; [apply Sub2|apply Sub2|]. now apply (rf_out k s RF).
  - apply exec_sync in H. destruct H as (Hg & Ht & Hs & ->).
    assert (Sub2 : forall g' t' x, In x (put g (fun t => if t <? k_threads k then tl (s_code s g t) else s_code s g t) (s_code s) g' t') -> In x (s_code s g' t')).
    { intros g' t' x. unfold put. destruct (Nat.eqb_spec g' g); [subst|auto]. destruct (Nat.ltb_spec t' (k_threads k)); [|auto]. destruct (s_code s g t'); [auto|]. now right. }
    split; cbn [s_code].
    + intros g' t1 t2 n Hg' H1 H2 Hn. unfold put. destruct (Nat.eqb_spec g' g); [subst|now apply (rf_sh k s RF)].
      apply Nat.ltb_lt in H1 as L1. apply Nat.ltb_lt in H2 as L2. rewrite L1, L2. assert (Q := rf_sh k s RF g t1 t2 (Datatypes.S n) Hg' H1 H2 Hn).
      destruct (Hs t1 H1) as (f1 & c1 & E1). destruct (Hs t2 H2) as (f2 & c2 & E2). rewrite E1, E2 in *. exact Q.
    + intros. eapply compat_sub; [apply Sub2|apply Sub2|]. now apply (rf_out k s RF).
  - apply exec_shfl in H. destruct H as (Hg & Hw & Hs & ->).
    assert (Sub : forall g' t' n x, In x (phase n (s_code (shfl_state k g w s) g' t')) -> In x (phase n (s_code s g' t'))).
    { intros g' t' n x. cbn [shfl_state s_code]. unfold put. destruct (Nat.eqb_spec g' g); [subst|auto]. destruct (in_warp k w t') eqn:E; [|auto]. destruct (Hs t' E) as (f & c & ->). apply phase_sub. reflexivity. }
    assert (Sub2 : forall g' t' x, In x (s_code (shfl_state k g w s) g' t') -> In x (s_code s g' t')).
    { intros g' t' x. cbn [shfl_state s_code]. unfold put. destruct (Nat.eqb_spec g' g); [subst|auto]. destruct (in_warp k w t') eqn:E; [|auto]. destruct (Hs t' E) as (f & c & ->). now right. }
    split.
    + intros g' t1 t2 n Hg' H1 H2 Hn. eapply apart_sub; [apply Sub|apply Sub|]. now apply (rf_sh k s RF).
    + intros. eapply compat_sub; [apply Sub2|apply Sub2|]. now apply (rf_out k s RF).
Qed.

(** ** Confluence *)
Lemma label_dec : forall l l' : label, {l = l'} + {l <> l'}.
Proof. repeat decide equality. Qed.
Lemma finished_stuck : forall k s l, finished k s -> exec k l s = None.
Proof.
  intros k s l F. destruct (exec k l s) as [s'|] eqn:E; [|reflexivity]. exfalso. destruct l as [g t|g|g w].
  - apply exec_thread in E. destruct E as (Hg & Ht & i & c & E & _). rewrite (F g t Hg Ht) in E. discriminate.
  - apply exec_sync in E. destruct E as (Hg & Ht & Hs & _). destruct (Hs 0 Ht) as (f & c & E). rewrite (F g 0 Hg Ht) in E. discriminate.
  - apply exec_shfl in E. destruct E as (Hg & Hw & Hs & _). destruct (Hs _ (warp_start k w Hw)) as (f & c & E). rewrite (F g _ Hg Hw) in E. discriminate.
Qed.
Lemma confluent : forall k n s u, race_free k s -> path k n s u -> finished k u -> forall l s', exec k l s = Some s' -> exists m, n = Datatypes.S m /\ path k m s' u.
Proof.
  intros k. induction n as [|n IH]; intros s u RF P F l s' H.
  - inversion P; subst. rewrite finished_stuck in H by auto. discriminate.
  - inversion P as [|? l1 ? s1 ? H1 P1]; subst. exists n. split; [reflexivity|]. destruct (label_dec l l1) as [->|NE]; [rewrite H in H1; injection H1 as ->; exact P1|].
    destruct (diamond k s l l1 s' s1 RF NE H H1) as (s3 & A & B). destruct (IH s1 u (exec_rf _ _ _ _ RF H1) P1 F l s3 B) as (m & -> & P3).
    econstructor; [exact A|exact P3].
Qed.
(** One complete execution of a race-free kernel settles all. *)
Theorem one_settles : forall k s n u (P : (nat -> R) -> Prop), race_free k s -> path k n s u -> finished k u -> P (s_out u) -> settles k s P.
Proof.
  intros k s n u P RF Pa F HP. exists n. intros j. revert s n RF Pa. induction j as [|j IH]; intros s n RF Pa v Pv.
  - inversion Pv; subst. split; [lia|]. intros St. inversion Pa; subst; [auto|]. rewrite St in H. discriminate.
  - inversion Pv as [|? l ? s1 ? H1 P1]; subst. destruct (confluent k n s u RF Pa F l s1 H1) as (m & -> & Pm).
    destruct (IH s1 m (exec_rf _ _ _ _ RF H1) Pm v P1) as [L Q]. split; [lia|exact Q].
Qed.

Lemma path_app : forall k n m s u v, path k n s u -> path k m u v -> path k (n + m) s v.
Proof. intros k n. induction n; intros m s u v P Q; inversion P; subst; [exact Q|]. cbn. econstructor; eauto. Qed.
Definition reaches (k : kernel) (s u : state) : Prop := exists n, path k n s u.
Lemma reaches_refl : forall k s, reaches k s s. Proof. intros. exists 0. constructor. Qed.
Lemma reaches_trans : forall k s u v, reaches k s u -> reaches k u v -> reaches k s v.
Proof. intros k s u v [n P] [m Q]. exists (n + m). eapply path_app; eauto. Qed.
Lemma reaches_step : forall k l s s', exec k l s = Some s' -> reaches k s s'.
Proof. intros. exists 1. econstructor; eauto. constructor. Qed.
