(** The precomputed filter tensor samples the basis functions. *)
From Coq Require Import List Arith ZArith Lia Bool Reals Lra Sorted.
From Verif Require Import TensorModel TensorProofs BigSum ResampleModel ResampleProofs TruncModel QuadModel DiscoModel DiscoSpec FilterModel FilterSpec FilterProofs PsiModel PsiSpec PsiGeoProofs PsiProofs AttnSpec.
Import ListNotations.
Local Open Scope R_scope.

Lemma nodup_cols : forall Wi t (l : list (nat * nat * nat)), NoDup l -> (forall k i j, In (k, i, j) l -> (j < Wi)%nat) -> NoDup (map (fun p => let '(k, i, j) := p in (k, t : nat, (i * Wi + j)%nat)) l).
Proof.
  intros Wi t l. induction l as [|((k, i), j) l IH]; intros ND RG; cbn [map]; constructor.
  - intros I. apply in_map_iff in I. destruct I as (((k', i'), j') & E & I). assert (E1 : k' = k) by congruence. assert (E2 : (i' * Wi + j' = i * Wi + j)%nat) by congruence.
    pose proof (RG k i j (or_introl eq_refl)) as Hj. pose proof (RG k' i' j' (or_intror I)) as Hj'.
    assert (i' = i). { rewrite (Nat.div_unique (i * Wi + j) Wi i j) by lia. rewrite <- E2. apply Nat.div_unique with j'; lia. } subst. assert (j' = j) by lia. subst. inversion ND; auto.
  - apply IH. inversion ND; auto. intros k' i' j' I. apply (RG k' i'). right; auto.
Qed.
Section Pre.
Variables (fb : fbasis) (f : R -> nat -> R -> R -> R) (Hi Wi : nat) (tin tout : nat -> R) (rc : R).
Hypothesis Wpos : (1 <= Wi)%nat.
Hypothesis rcpos : 0 < rc.
Hypothesis B : basis_of fb f.
Let K := fb_size fb.

Lemma row_spec : forall t es, psi_row fb Hi Wi tin tout rc t = Some es ->
  NoDup (map index es) /\
  (forall e, In e es -> (ker e < K)%nat /\ row e = t /\ (col e < Hi * Wi)%nat /\
     exists r phi, polar_about (tout t) (tin (col e / Wi)%nat, lon Wi (col e mod Wi)) r phi /\ r <= rc /\ pv e = f rc (ker e) r phi) /\
  (forall k i j, (k < K)%nat -> (i < Hi)%nat -> (j < Wi)%nat -> gcdist (tin i, lon Wi j) (tout t, 0) <= rc -> ~ In (k, t, (i * Wi + j)%nat) (map index es) ->
     exists r phi, polar_about (tout t) (tin i, lon Wi j) r phi /\ f rc k r phi = 0) /\
  (basis_full fb -> forall k i j, (k < K)%nat -> (i < Hi)%nat -> (j < Wi)%nat -> gcdist (tin i, lon Wi j) (tout t, 0) <= rc -> In (k, t, (i * Wi + j)%nat) (map index es)).
Proof.
  intros t es H. unfold psi_row in H. apply bindo_some in H. destruct H as (s & Hs & H). injection H as <-.
  set (R0 := fun i j => g_theta (tin i) (precompute_longitudes Wi j) (tout t)) in *. set (P0 := fun i j => g_phi (tin i) (precompute_longitudes Wi j) (tout t)) in *.
  assert (PA : forall i j, polar_about (tout t) (tin i, lon Wi j) (R0 i j) (P0 i j)) by (intros i j; rewrite <- longitudes_lon by auto; apply g_polar).
  assert (PO : polar Hi Wi R0 P0).
  { intros i j _ _. split; [apply g_theta_range|]. apply (PA i j). }
  assert (RD : forall i j, R0 i j = gcdist (tin i, lon Wi j) (tout t, 0)) by (intros i j; apply (PA i j)).
  destruct (B _ _ _ _ _ _ rcpos PO Hs) as (ND & IN & OUT). set (mk := fun e : (nat * nat * nat) * R => let '((k, i, j), v) := e in mkE k t (i * Wi + j) v).
  assert (IX : map index (map mk s) = map (fun p => let '(k, i, j) := p in (k, t, (i * Wi + j)%nat)) (map fst s)).
  { rewrite !map_map. apply map_ext. intros (((k, i), j), v). reflexivity. }
  assert (DM : forall i j, (j < Wi)%nat -> ((i * Wi + j) / Wi = i /\ (i * Wi + j) mod Wi = j)%nat).
  { intros i j Hj. split; [symmetry; apply Nat.div_unique with j; lia|symmetry; apply Nat.mod_unique with i; lia]. }
  assert (RG : forall k i j, In (k, i, j) (map fst s) -> (k < K)%nat /\ (i < Hi)%nat /\ (j < Wi)%nat).
  { intros k i j I. apply in_map_iff in I. destruct I as ((p, v) & E & I). cbn in E. subst p. destruct (IN _ _ _ _ I) as (a & b & c & _). auto. }
  split; [|split; [|split]].
  - rewrite IX. apply nodup_cols; auto. intros k i j I. apply (RG k i j I).
  - intros e I. apply in_map_iff in I. destruct I as ((((k, i), j), v) & <- & I). destruct (IN _ _ _ _ I) as (a & b & c & d & ->). destruct (DM i j c) as (D1 & D2). cbn [mk ker row col pv].
    split; [auto|]. split; [auto|]. split; [nia|]. rewrite D1, D2. exists (R0 i j), (P0 i j). auto.
  - intros k i j Hk Hh Hw D NI. exists (R0 i j), (P0 i j). split; [apply PA|]. apply OUT; auto. { rewrite RD. auto. }
    intros I. apply NI. rewrite IX. apply in_map_iff. exists (k, i, j). auto.
  - intros F k i j Hk Hh Hw D. rewrite IX. apply in_map_iff. exists (k, i, j). split; auto. eapply F; eauto. rewrite RD. auto.
Qed.

Definition rowl t := match psi_row fb Hi Wi tin tout rc t with Some r => r | None => [] end.
Lemma rows_flat : forall l rows, mapM (psi_row fb Hi Wi tin tout rc) l = Some rows -> rows = map rowl l /\ forall t, In t l -> psi_row fb Hi Wi tin tout rc t = Some (rowl t).
Proof.
  induction l as [|t l IH]; intros rows H; cbn [mapM] in H; [injection H as <-; split; [reflexivity|intros t []]|].
  unfold bindo in H. destruct (psi_row fb Hi Wi tin tout rc t) as [r|] eqn:E; [|discriminate]. destruct (mapM _ l) as [rs|] eqn:M; [|discriminate]. injection H as <-.
  destruct (IH _ eq_refl) as (A & C). assert (ER : rowl t = r) by (unfold rowl; rewrite E; auto). cbn [map]. rewrite ER, <- A. split; auto. intros t' [<-|I]; [rewrite ER; auto|auto].
Qed.
Lemma rows_samples : forall Ho rows, mapM (psi_row fb Hi Wi tin tout rc) (seq 0 Ho) = Some rows ->
  samples K Hi Wi Ho tin tout rc (f rc) (concat rows) /\ (basis_full fb -> covers K Hi Wi Ho tin tout rc (concat rows)).
Proof.
  intros Ho rows H. destruct (rows_flat _ _ H) as (-> & RS). rewrite <- flat_map_concat_map.
  assert (IX : map index (flat_map rowl (seq 0 Ho)) = flat_map (fun t => map index (rowl t)) (seq 0 Ho)).
  { rewrite !flat_map_concat_map, concat_map, map_map. reflexivity. }
  assert (INR0 : forall k t c, In (k, t, c) (map index (rowl t)) -> (t < Ho)%nat -> In (k, t, c) (map index (flat_map rowl (seq 0 Ho)))).
  { intros k t c I T. rewrite IX. apply in_flat_map. exists t. split; auto. apply in_seq. lia. }
  split; [split; [|split]|].
  - rewrite IX. apply NoDup_flat_map; [apply seq_NoDup| |].
    + intros t I. apply (row_spec t _ (RS t I)).
    + intros t t' ((k, r), c) I I' J J'. apply in_map_iff in J. destruct J as (e & E & J). apply in_map_iff in J'. destruct J' as (e' & E' & J').
      destruct (row_spec t _ (RS t I)) as (_ & A & _). destruct (row_spec t' _ (RS t' I')) as (_ & A' & _). destruct (A e J) as (_ & <- & _). destruct (A' e' J') as (_ & <- & _). unfold index in *. congruence.
  - intros e I. apply in_flat_map in I. destruct I as (t & It & I). destruct (row_spec t _ (RS t It)) as (_ & A & _). destruct (A e I) as (a & <- & c & d). apply in_seq in It. split; [auto|]. split; [lia|]. auto.
  - intros k t i j Hk Ht Hh Hw D NI. assert (It : In t (seq 0 Ho)) by (apply in_seq; lia). destruct (row_spec t _ (RS t It)) as (_ & _ & A & _). apply A; auto.
  - intros F k t i j Hk Ht Hh Hw D. assert (It : In t (seq 0 Ho)) by (apply in_seq; lia). destruct (row_spec t _ (RS t It)) as (_ & _ & _ & A). apply INR0; auto.
Qed.
Lemma sorted_block : forall a l l', (forall x, In x l -> x = a) -> Sorted le l' -> (forall x, In x l' -> (a <= x)%nat) -> Sorted le (l ++ l').
Proof.
  induction l as [|x l IH]; intros l' H S G; auto. cbn. constructor. apply IH; auto. intros; apply H; right; auto.
  rewrite (H x (or_introl eq_refl)). destruct (l ++ l') as [|y m] eqn:E; constructor. assert (I : In y (l ++ l')) by (rewrite E; left; auto). apply in_app_or in I. destruct I as [I|I]; auto. rewrite (H y (or_intror I)). auto.
Qed.
Lemma rows_rows_sorted : forall Ho rows, mapM (psi_row fb Hi Wi tin tout rc) (seq 0 Ho) = Some rows -> rows_sorted (concat rows).
Proof.
  intros Ho rows H k. destruct (rows_flat _ _ H) as (-> & RS). rewrite <- flat_map_concat_map.
  assert (RW : forall t e, In t (seq 0 Ho) -> In e (rowl t) -> row e = t). { intros t e I J. destruct (row_spec t _ (RS t I)) as (_ & A & _). apply (A e J). }
  clear H RS. revert RW. generalize 0%nat as a. induction Ho as [|n IH]; intros a RW; cbn [seq flat_map]; [constructor|]. rewrite filter_app, map_app. apply sorted_block with a.
  - intros x I. apply in_map_iff in I. destruct I as (e & <- & I). apply filter_In in I. apply RW; [left; auto|apply I].
  - apply IH. intros t e I J. apply RW; [right; auto|auto].
  - intros x I. apply in_map_iff in I. destruct I as (e & <- & I). apply filter_In in I. destruct I as (I & _). apply in_flat_map in I. destruct I as (t & It & I). rewrite (RW t e (or_intror It) I). apply in_seq in It. lia.
Qed.
End Pre.
Lemma roff_offsets : forall rows o, psi_roff o rows = offsets o (map (map col) rows).
Proof. induction rows as [|r rows IH]; intros o; cbn; auto. rewrite map_length, IH. reflexivity. Qed.
Lemma cols_columns : forall rows, map col (concat rows) = columns (map (map col) rows).
Proof. intros. unfold columns. apply concat_map. Qed.

(** positions do not depend on the values *)
Lemma rows_sorted_index : forall es es', map index es' = map index es -> rows_sorted es -> rows_sorted es'.
Proof.
  intros es es' E S k. replace (map row (filter (fun e => ker e =? k)%nat es')) with (map row (filter (fun e => ker e =? k)%nat es)); [apply S|]. clear S. revert es' E.
  induction es as [|e es IH]; intros [|e' es'] E; try discriminate; auto. cbn [map] in E. assert (E1 : index e' = index e) by congruence. assert (E2 : map index es' = map index es) by congruence. unfold index in E1. cbn [filter].
  replace (ker e') with (ker e) by congruence. destruct (ker e =? k)%nat; cbn [map]; [f_equal; [congruence|]|]; apply IH; auto.
Qed.
(** with every kernel present in the first and in the last row *)
Lemma separated_full : forall K Ho es, rows_sorted es -> (2 <= Ho)%nat -> (forall e, In e es -> (row e < Ho)%nat) ->
  (forall k, (k < K)%nat -> exists e, In e es /\ ker e = k /\ row e = 0%nat) -> (forall k, (k < K)%nat -> exists e, In e es /\ ker e = k /\ row e = (Ho - 1)%nat) -> kernels_separated K es.
Proof.
  intros K Ho es S H2 HR F0 F1 k k' e e' a b Hk _ E E'.
  assert (R1 : (Ho - 1 <= row e)%nat).
  { destruct (F1 k) as (x & I & Kx & Rx); [lia|]. assert (J : In x (a ++ [e])) by (rewrite <- E; apply filter_In; split; auto; apply Nat.eqb_eq; auto).
    specialize (S k). rewrite E, map_app in S. cbn [map] in S. apply in_app_or in J. destruct J as [J|[->|[]]]; [|lia]. rewrite <- Rx.
    assert (SS : StronglySorted le (map row a ++ [row e])) by (apply Sorted_StronglySorted; auto; intros p q r; apply Nat.le_trans).
    clear -SS J. induction a as [|y a IH]; [destruct J|]. cbn [map app] in SS. inversion SS; subst. destruct J as [->|J]; [|auto]. rewrite Forall_forall in H2. apply H2. apply in_or_app. right; left; auto. }
  assert (R0 : row e' = 0%nat).
  { destruct (F0 k') as (x & I & Kx & Rx); [lia|]. assert (J : In x (e' :: b)) by (rewrite <- E'; apply filter_In; split; auto; apply Nat.eqb_eq; auto). destruct J as [->|J]; auto.
    specialize (S k'). rewrite E' in S. cbn [map] in S. apply Sorted_StronglySorted in S; [|intros p q r; apply Nat.le_trans]. inversion S; subst. rewrite Forall_forall in H3. specialize (H3 (row x) (in_map row _ _ J)). lia. }
  lia.
Qed.
