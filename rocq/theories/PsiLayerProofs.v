(** Filters and neighbourhoods as the layer constructors build them. *)
From Coq Require Import List Arith ZArith Lia Bool Reals Lra Sorted.
From Verif Require Import TensorModel TensorProofs BigSum ResampleModel ResampleProofs TruncModel QuadModel QuadProofs CCProofs QuadPropProofs DiscoModel DiscoSpec FilterModel FilterSpec FilterProofs FilterBases2Proofs FilterApiProofs PsiModel PsiSpec PsiGeoProofs PsiProofs PsiPreProofs AttnSpec AttnGradProofs.
Import ListNotations.
Local Open Scope R_scope.

(** ** Quadrature weights are not negative *)
Lemma lobatto_nonneg : forall n q i, lobatto_default n (-1) 1 = Some q -> 0 <= rw q i.
Proof.
  intros n q i E. unfold lobatto_default, lobatto_weights in E. destruct (Nat.leb_spec n 1); [discriminate|]. cbn [orb Nat.eqb] in E. destruct (lobatto_iter _ _ _ _) as (t, s). injection E as <-. unfold rescale. cbn [rw].
  assert (2 <= INR n) by (replace 2 with (INR 2) by reflexivity; apply le_INR; lia). set (p := legP (n - 1) (s i)). assert (0 <= 2 / (INR n * (INR n - 1) * (p * p))); [|lra].
  destruct (Req_dec p 0) as [Z|Z]. { rewrite Z, !Rmult_0_r. unfold Rdiv. rewrite Rinv_0. lra. }
  left. apply Rdiv_lt_0_compat; [lra|]. apply Rmult_lt_0_compat; [apply Rmult_lt_0_compat; lra|]. apply sq_nonneg_pos; auto.
Qed.
Lemma lat_nonneg : forall gl n g q i, precompute_latitudes gl n g = Some q -> (g = GLegendreGauss -> forall i, (i < n)%nat -> 0 <= rw (gl n) i) -> (i < n)%nat -> 0 <= rw q i.
Proof.
  intros gl n g q i E G Hi. unfold precompute_latitudes in E. destruct (precompute_quadrature_weights gl n g (-1) 1 false) as [p|] eqn:P; [|discriminate]. injection E as <-. cbn [rw]. unfold flip.
  assert (Hj : (n - 1 - i < n)%nat) by lia. revert Hj. generalize (n - 1 - i)%nat. intros j Hj. unfold precompute_quadrature_weights in P. cbn [andb] in P. destruct g.
  - unfold legendre_gauss_weights in P. destruct (n =? 0)%nat; [discriminate|]. injection P as <-. unfold rescale; cbn [rw]. specialize (G eq_refl j Hj). lra.
  - eapply lobatto_nonneg; eauto.
  - assert (2 <= n)%nat by (unfold clenshaw_curtiss_weights in P; destruct (Nat.leb_spec n 1); [discriminate|lia]). destruct (cc_model n (-1) 1 H) as (q' & E' & X). rewrite P in E'. injection E' as <-. left. destruct (X j) as (_ & ->). apply rescale_pos; [lra|]. now apply cc_weight_pos.
  - assert (2 <= n)%nat. { unfold trapezoidal_weights in P. rewrite Nat.add_0_r in P. destruct (Nat.eqb_spec n 0); [discriminate|]. destruct (Nat.eqb_spec (n - 1) 0); [discriminate|lia]. } left. eapply trap_pos; eauto. lra.
  - discriminate.
Qed.

(** ** What the precomputation returns *)
Lemma filter_row : forall a n (g : nat -> list entry) t, (forall s e, In e (g s) -> row e = s) -> filter (fun e => row e =? t)%nat (flat_map g (seq a n)) = if ((a <=? t) && (t <? a + n))%nat%bool then g t else [].
Proof.
  intros a n g t G. revert a. induction n as [|n IH]; intros a; cbn [seq flat_map filter].
  - destruct (Nat.leb_spec a t), (Nat.ltb_spec t (a + 0)); cbn; auto; lia.
  - rewrite filter_app, IH. assert (F : forall s, filter (fun e => row e =? t)%nat (g s) = if (s =? t)%nat then g s else []).
    { intros s. destruct (Nat.eqb_spec s t) as [->|N].
      - rewrite <- (map_id (filter _ _)). assert (A : forall l, (forall e, In e l -> row e = t) -> filter (fun e => row e =? t)%nat l = l). { induction l as [|x l IHl]; intros H; auto. cbn. rewrite (H x (or_introl eq_refl)), Nat.eqb_refl. f_equal. apply IHl. intros; apply H; right; auto. } rewrite map_id. apply A. intros; eapply G; eauto.
      - assert (A : forall l, (forall e, In e l -> row e = s) -> filter (fun e => row e =? t)%nat l = []). { induction l as [|x l IHl]; intros H; auto. cbn. rewrite (H x (or_introl eq_refl)), (proj2 (Nat.eqb_neq s t)) by auto. apply IHl. intros; apply H; right; auto. } apply A. intros; eapply G; eauto. }
    rewrite F. destruct (Nat.eqb_spec a t) as [->|N].
    + destruct (Nat.leb_spec (S t) t); [lia|]. cbn [andb]. rewrite app_nil_r. rewrite Nat.leb_refl. destruct (Nat.ltb_spec t (t + S n)); [auto|lia].
    + cbn [app]. destruct (Nat.leb_spec (S a) t), (Nat.leb_spec a t), (Nat.ltb_spec t (S a + n)), (Nat.ltb_spec t (a + S n)); cbn [andb]; auto; lia.
Qed.
Theorem built_spec : forall gl Hi Wi Ho Wo fb f gi go c tr mode merge es' roff, (1 <= Wi)%nat -> 0 < c -> basis_of fb f ->
  precompute_psi gl Hi Wi Ho Wo fb gi go c tr mode merge = Some (es', roff) -> exists qi qo es, built gl Hi Wi Ho Wo fb f gi go c tr mode merge es' roff qi qo es.
Proof.
  intros gl Hi Wi Ho Wo fb f gi go c tr mode merge es' roff HW Hc B H. unfold precompute_psi in H.
  apply bindo_some in H. destruct H as (qi & Ei & H). apply bindo_some in H. destruct H as (qo & Eo & H). apply bindo_some in H. destruct H as (rows & Er & H). apply bindo_some in H. destruct H as (u & _ & H).
  apply bindo_some in H. destruct H as (m & Em & H). apply bindo_some in H. destruct H as (vs & Ev & H). injection H as E1 E2.
  assert (rcp : 0 < (1 + 1 / 1000) * c) by lra.
  destruct (rows_samples fb f Hi Wi (rn qi) (rn qo) _ HW rcp B Ho rows Er) as (S & C). pose proof (rows_rows_sorted fb f Hi Wi (rn qi) (rn qo) _ HW rcp B Ho rows Er) as RS.
  change (normalize_psi Hi Wi Ho Wo (fb_size fb) (if tr then Ho else Hi) (quad_of gl qi qo tr Wi) c tr merge (Some m) (/ 10 ^ 9) mode (concat rows) = Some vs) with (runs Hi Wi Ho Wo (fb_size fb) (if tr then Ho else Hi) (quad_of gl qi qo tr Wi) c tr merge (Some m) (/ 10 ^ 9) mode (concat rows) vs) in Ev.
  change (with_values (concat rows) vs = es') in E1.
  assert (IX : map index es' = map index (concat rows)) by (rewrite <- E1; eapply normalize_index; eauto).
  exists qi, qo, (concat rows). constructor; auto.
  - exists vs, m. auto.
  - exists (map (map col) rows). rewrite <- E2. split; [apply roff_offsets|]. destruct (rows_flat fb Hi Wi (rn qi) (rn qo) _ _ _ Er) as (ER & RL).
    split; [|split].
    + rewrite <- cols_columns. transitivity (map (fun p => snd p) (map index es')); [rewrite map_map; reflexivity|]. rewrite IX, map_map. reflexivity.
    + rewrite map_length, ER, map_length, seq_length. reflexivity.
    + intros t T. rewrite ER at 2. rewrite <- flat_map_concat_map.
      assert (RW : forall s e, In s (seq 0 Ho) -> In e (rowl fb Hi Wi (rn qi) (rn qo) ((1 + 1 / 1000) * c) s) -> row e = s).
      { intros s e I J. pose proof (row_spec fb f Hi Wi (rn qi) (rn qo) _ HW rcp B s _ (RL s I)) as (_ & A & _). apply (A e J). }
      set (g := rowl fb Hi Wi (rn qi) (rn qo) ((1 + 1 / 1000) * c)) in *.
      transitivity (map col (g t)). { rewrite ER, map_map. rewrite (nth_indep _ [] (map col (g 0%nat))) by (rewrite map_length, seq_length; auto). rewrite (map_nth (fun x => map col (g x))), seq_nth by auto. reflexivity. }
      f_equal. symmetry. set (g' := fun s => if (s <? Ho)%nat then g s else []). transitivity (filter (fun e => row e =? t)%nat (flat_map g' (seq 0 Ho))).
      * f_equal. rewrite !flat_map_concat_map. f_equal. apply map_ext_in. intros s I. apply in_seq in I. unfold g'. destruct (Nat.ltb_spec s Ho); [auto|lia].
      * rewrite filter_row. cbn [Nat.leb andb]. rewrite (proj2 (Nat.ltb_lt t (0 + Ho))) by lia. unfold g'. rewrite (proj2 (Nat.ltb_lt t Ho)) by auto. reflexivity.
        intros s e I. unfold g' in I. destruct (Nat.ltb_spec s Ho); [|destruct I]. apply RW; auto. apply in_seq. lia.
Qed.
