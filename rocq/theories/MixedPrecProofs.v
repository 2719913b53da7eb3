From Coq Require Import List Arith Lia Bool.
From Verif Require Import MixedPrecModel.
Import ListNotations.

Lemma dt_eqb_refl : forall t, dt_eqb t t = true.
Proof. destruct t; reflexivity. Qed.
Lemma dt_eqb_eq : forall a b, dt_eqb a b = true <-> a = b.
Proof. destruct a, b; simpl; split; congruence. Qed.
Lemma to_dt_same : forall m, to_dt (m_dt m) m = m.
Proof. intros [s t]; reflexivity. Qed.
Lemma reshape_ok : forall s s' t, prod s = prod s' -> reshape s (mk s' t) = Some (mk s t).
Proof. intros. unfold reshape. simpl m_shape. rewrite H, Nat.eqb_refl. reflexivity. Qed.

(** The type autocast gives to an operand. *)
Definition ac_dt (ac : autocast) (t : dtype) : dtype :=
  match ac with Some a => match t with F64 => F64 | _ => a end | None => t end.
Lemma ac_cast_mk : forall ac s t, ac_cast ac (mk s t) = mk s (ac_dt ac t).
Proof. intros [a|] s []; reflexivity. Qed.
Lemma einsum_mk : forall ac f s s' t t' r, f s s' = Some r -> ac_dt ac t = ac_dt ac t' ->
  einsum ac f (mk s t) (mk s' t') = Some (mk r (ac_dt ac t)).
Proof. intros. unfold einsum. rewrite !ac_cast_mk. simpl. rewrite H0, dt_eqb_refl. simpl. now rewrite H. Qed.

Lemma vals_ok_compute : forall d t t', compute_dtype t = compute_dtype t' -> vals_ok d t (compute_dtype t') = true.
Proof. intros [] [] [] H; simpl in *; try reflexivity; discriminate. Qed.

Section Op.
Variables (B G Cg Og K Hi Wi Ho Wo : nat).
Hypotheses (HW : 1 <= Wo) (HD : Wi mod Wo = 0).
Let xs := [B; G * Cg; Hi; Wi].
Let es := [B; G * Cg; K; Ho; Wo].
Let ws := [G; Og; Cg; K].
Let os := [B; G * Og; Ho; Wo].

Lemma k_forward_mk : forall d t v, vals_ok d t (m_dt v) = true -> k_forward d (mk xs t) v K Ho Wo = Some (mk es t).
Proof.
  intros d t v H. unfold k_forward, xs. simpl m_shape. cbv iota. simpl m_dt.
  replace (Wo =? 0) with false by (symmetry; apply Nat.eqb_neq; lia). rewrite HD, H. reflexivity.
Qed.
Lemma k_backward_mk : forall d t v C' K', vals_ok d t (m_dt v) = true ->
  k_backward d (mk [B; C'; K'; Ho; Wo] t) v K' Hi Wi = Some (mk [B; C'; Hi; Wi] t).
Proof.
  intros d t v C' K' H. unfold k_backward. simpl m_shape. cbv iota. simpl m_dt.
  replace (Wo =? 0) with false by (symmetry; apply Nat.eqb_neq; lia). rewrite HD, H. reflexivity.
Qed.
Lemma kpacked_mk : forall ac t kpad, is_half (match ac with Some a => a | None => t end) = true -> Wo mod 8 = 0 ->
  kpad = 8 \/ kpad = 16 ->
  k_kpacked ac (mk xs t) kpad K Ho Wo = Some (mk es (match ac with Some a => a | None => t end)).
Proof.
  intros ac t kpad Hh H8 Hk. unfold k_kpacked.
  replace (match ac with Some t0 => to_dt t0 (mk xs t) | None => mk xs t end) with (mk xs (match ac with Some a => a | None => t end))
    by (destruct ac; reflexivity).
  unfold xs. simpl m_shape. cbv iota. simpl m_dt. rewrite Hh, HD, H8.
  replace (Wo =? 0) with false by (symmetry; apply Nat.eqb_neq; lia).
  destruct Hk; subst; reflexivity.
Qed.

Lemma contraction_body_mk : forall d t v, contraction_body d (mk xs t) v K Ho Wo = Some (mk es t).
Proof. intros. unfold contraction_body. rewrite k_forward_mk by (apply vals_ok_compute; reflexivity). reflexivity. Qed.
Lemma contraction_op_mk : forall ac d t v,
  contraction_op ac d (mk xs t) v K Ho Wo = Some (mk es (match ac with Some a => a | None => t end)).
Proof. intros [a|] d t v; apply contraction_body_mk. Qed.

Lemma weight_contract_mk : forall ac t t' w, ac_dt ac t = ac_dt ac t' ->
  weight_contract ac t' (mk es t) (mk ws w) G Cg = Some (mk os (ac_dt ac t)).
Proof.
  intros ac t t' w H. unfold weight_contract, es, ws, os. simpl m_shape. cbv iota.
  rewrite reshape_ok by (unfold prod; cbn [fold_right]; ring). unfold bind at 1. unfold to_dt. simpl m_shape.
  rewrite (einsum_mk _ _ _ _ _ _ [B; G; Og; Ho; Wo]); [|unfold ein_out; rewrite !Nat.eqb_refl; reflexivity|auto].
  unfold bind. rewrite reshape_ok by (unfold prod; cbn [fold_right]; ring). reflexivity.
Qed.
Lemma fused_body_mk : forall ac d t w v, fused_body ac d (mk xs t) (mk ws w) v K Ho Wo G Cg = Some (mk os (ac_dt ac t)).
Proof.
  intros. unfold fused_body. rewrite k_forward_mk by (apply vals_ok_compute; reflexivity).
  unfold bind. simpl m_dt. apply weight_contract_mk. reflexivity.
Qed.

Definition fused_out_dt (ac : autocast) (d : device) (t : dtype) : dtype :=
  match d, ac with Cuda, Some a => a | _, _ => ac_dt ac t end.
Lemma fused_op_mk : forall ac d t w v,
  fused_op ac d (mk xs t) (mk ws w) v K Ho Wo G Cg = Some (mk os (fused_out_dt ac d t)).
Proof. intros [a|] [] t w v; unfold fused_op, to_dt; simpl m_shape; apply fused_body_mk. Qed.
Lemma kpacked_fused_mk : forall ac t w kpad, is_half (match ac with Some a => a | None => t end) = true -> Wo mod 8 = 0 ->
  kpad = 8 \/ kpad = 16 -> (forall a, ac = Some a -> t = a) ->
  kpacked_fused ac (mk xs t) (mk ws w) kpad K Ho Wo G Cg = Some (mk os t).
Proof.
  intros ac t w kpad Hh H8 Hk E. unfold kpacked_fused. rewrite kpacked_mk by auto. unfold bind. simpl m_dt.
  assert (A : match ac with Some a => a | None => t end = t) by (destruct ac; auto; symmetry; auto).
  rewrite A in *. rewrite weight_contract_mk by auto. do 2 f_equal.
  destruct ac as [a|]; simpl; auto. rewrite <- (E a eq_refl). destruct t; auto.
Qed.

(** ** Backward *)
Lemma all_same_repeat : forall m l, (forall o, In o l -> o = Some m) -> all_same m l = true.
Proof.
  induction l as [|o l IH]; intros H; auto. rewrite (H o (or_introl eq_refl)). simpl.
  rewrite IH by (intros; apply H; now right). unfold meta_eqb.
  destruct (list_eq_dec _ _ _); [|congruence]. now rewrite dt_eqb_refl.
Qed.

Lemma spatial_first_mk : forall ac d t w v has, 1 <= K -> vals_ok d t (m_dt v) = true -> ac_dt ac t = ac_dt ac w ->
  spatial_first ac d (mk [B; G; Og; Ho; Wo] t) (mk ws w) v has K Hi Wi = Some (mk xs (ac_dt ac t)).
Proof.
  intros ac d t w v has HK Hv Ht. unfold spatial_first, ws. simpl m_shape. cbv iota.
  assert (P : forall k, spatial_part d (mk [B; G; Og; Ho; Wo] t) v B G Og Ho Wo Hi Wi (has k) = Some (mk [B; G; Og; Hi; Wi] t)).
  { intros k. unfold spatial_part. destruct (has k); [|reflexivity].
    rewrite reshape_ok by (unfold prod; cbn [fold_right]; ring). unfold bind at 1.
    rewrite k_backward_mk by auto. unfold bind. apply reshape_ok. unfold prod; cbn [fold_right]; ring. }
  assert (L : length (map (fun k => spatial_part d (mk [B; G; Og; Ho; Wo] t) v B G Og Ho Wo Hi Wi (has k)) (seq 0 K)) = K)
    by (now rewrite map_length, seq_length).
  assert (A : forall o, In o (map (fun k => spatial_part d (mk [B; G; Og; Ho; Wo] t) v B G Og Ho Wo Hi Wi (has k)) (seq 0 K)) ->
     o = Some (mk [B; G; Og; Hi; Wi] t)) by (intros o Ho'; apply in_map_iff in Ho'; destruct Ho' as (k & <- & _); apply P).
  destruct (map _ _) as [|o l]; [simpl in L; lia|]. rewrite (A o (or_introl eq_refl)).
  rewrite all_same_repeat by (intros; apply A; now right). unfold guard at 1. simpl m_shape. cbv iota. simpl m_dt.
  simpl in L. rewrite L.
  rewrite (einsum_mk _ _ _ _ _ _ [B; G; Cg; Hi; Wi]); [|unfold ein_spatial; rewrite !Nat.eqb_refl; reflexivity|auto].
  unfold bind, xs. apply reshape_ok. unfold prod; cbn [fold_right]; ring.
Qed.

Lemma conv_bwd_inp_mk : forall ac d g w v sf has, 1 <= K -> ac <> Some F64 ->
  conv_bwd_inp ac d (mk ws w) v (mk os g) sf has K Ho Wo G Cg Hi Wi = Some (mk xs g).
Proof.
  intros ac d g w v sf has HK Hac. unfold conv_bwd_inp, ws, os. simpl m_shape. cbv iota. simpl m_dt. cbv zeta.
  rewrite reshape_ok by (unfold prod; cbn [fold_right]; ring). unfold bind at 1.
  assert (E : (if sf
    then spatial_first ac d (mk [B; G; Og; Ho; Wo] g) (to_dt g (mk [G; Og; Cg; K] w)) (to_dt (compute_dtype g) v) has K Hi Wi
    else bind (einsum ac ein_back (mk [B; G; Og; Ho; Wo] g) (to_dt g (mk [G; Og; Cg; K] w))) (fun gx =>
         bind (reshape [B; G * Cg; K; Ho; Wo] gx) (fun gx => k_backward d gx (to_dt (compute_dtype g) v) K Hi Wi)))
    = Some (mk xs (ac_dt ac g))).
  { destruct sf.
    - apply spatial_first_mk; auto. apply vals_ok_compute. reflexivity.
    - unfold to_dt. simpl m_shape.
      rewrite (einsum_mk _ _ _ _ _ _ [B; G; Cg; K; Ho; Wo]); [|unfold ein_back; rewrite !Nat.eqb_refl; reflexivity|auto].
      unfold bind at 1. rewrite reshape_ok by (unfold prod; cbn [fold_right]; ring). unfold bind.
      apply k_backward_mk. simpl. apply vals_ok_compute. destruct ac as [[]|], g; try reflexivity; now elim Hac. }
  rewrite E. reflexivity.
Qed.
Lemma conv_bwd_weight_mk : forall ac g w t,
  conv_bwd_weight ac (mk es t) (mk ws w) (mk os g) K Ho Wo G Cg = Some (mk ws (ac_dt ac g)).
Proof.
  intros. unfold conv_bwd_weight, ws, os, es. simpl m_shape. cbv iota. simpl m_dt. cbv zeta.
  rewrite reshape_ok by (unfold prod; cbn [fold_right]; ring). unfold bind at 1. unfold to_dt. simpl m_shape.
  rewrite reshape_ok by (unfold prod; cbn [fold_right]; ring). unfold bind.
  apply einsum_mk; auto. unfold ein_wgrad. rewrite !Nat.eqb_refl. reflexivity.
Qed.
Lemma fused_bwd_weight_mk : forall acb d g w v t, compute_dtype t = compute_dtype g ->
  fused_bwd_weight acb d (mk xs t) (mk ws w) v (mk os g) K Ho Wo G Cg = Some (mk ws (ac_dt acb g)).
Proof.
  intros. unfold fused_bwd_weight. rewrite k_forward_mk by (simpl; apply vals_ok_compute; auto).
  unfold bind. apply conv_bwd_weight_mk.
Qed.
Lemma contraction_bwd_mk : forall d t v g, contraction_bwd d (mk xs t) v (mk es g) K = Some (mk xs g).
Proof.
  intros. unfold contraction_bwd, xs, es. simpl m_shape. cbv iota.
  rewrite k_backward_mk by (apply vals_ok_compute; reflexivity). reflexivity.
Qed.
End Op.

From Verif Require Import MixedPrecSpec.

Lemma ac_dt_conv : forall ac x w, types_ok ac x w -> ac_dt ac x = conv_dt ac x /\ ac_dt ac w = conv_dt ac x /\
  ac_dt ac (conv_dt ac x) = conv_dt ac x.
Proof. intros [[]|] [] []; simpl; intuition congruence. Qed.

Lemma unfused_tail_mk : forall l ac B t H W, ac_dt ac t = ac_dt ac (l_wdt l) ->
  unfused_tail l ac (mk [B; l_groups l * l_groupsize l; l_K l; H; W] t) = Some (mk [B; l_groups l * l_outper l; H; W] (ac_dt ac t)).
Proof.
  intros l ac B t H W E. unfold unfused_tail. simpl m_shape. cbv iota.
  rewrite reshape_ok by (unfold prod; cbn [fold_right]; ring). unfold bind at 1. unfold l_weight.
  rewrite (einsum_mk _ _ _ _ _ _ [B; l_groups l; l_outper l; H; W]); [|unfold ein_out; rewrite !Nat.eqb_refl; reflexivity|auto].
  unfold bind. apply reshape_ok. unfold prod; cbn [fold_right]; ring.
Qed.

Lemma kpacked_ok_facts : forall l ac d x, kpacked_ok l ac d x = true ->
  d = Cuda /\ is_half (kpacked_dtype ac d x) = true /\ l_Wo l mod 8 = 0 /\ (kpad_of l = 8 \/ kpad_of l = 16).
Proof.
  intros l ac d x H. unfold kpacked_ok in H. repeat rewrite andb_true_iff in H.
  destruct H as ((((((_ & A) & Hh) & Hd) & H8) & _) & _).
  destruct d; [discriminate|]. apply Nat.eqb_eq in H8. repeat split; auto.
  unfold kpad_of. destruct (l_kpad l); [|discriminate]. apply orb_true_iff in A. rewrite !Nat.eqb_eq in A. auto.
Qed.

Lemma layer_conv_ok : forall l ac d B t v, layer_wf l -> types_ok ac t (l_wdt l) ->
  layer_conv l ac d (mk [B; l_groups l * l_groupsize l; l_Hi l; l_Wi l] t) v =
  Some (mk [B; l_groups l * l_outper l; l_Ho l; l_Wo l] (conv_dt ac t)).
Proof.
  intros l ac d B t v (W1 & W2 & W3 & W4) T. destruct (ac_dt_conv _ _ _ T) as (A1 & A2 & A3).
  unfold layer_conv. set (x := mk [B; l_groups l * l_groupsize l; l_Hi l; l_Wi l] t).
  assert (KX : to_dt (kpacked_dtype ac d x) x = mk [B; l_groups l * l_groupsize l; l_Hi l; l_Wi l] (kpacked_dtype ac d x)) by reflexivity.
  assert (KP : kpacked_ok l ac d x = true ->
    kpacked_fused ac (to_dt (kpacked_dtype ac d x) x) (l_weight l) (kpad_of l) (l_K l) (l_Ho l) (l_Wo l) (l_groups l) (l_groupsize l)
      = Some (mk [B; l_groups l * l_outper l; l_Ho l; l_Wo l] (conv_dt ac t)) /\
    k_kpacked ac (to_dt (kpacked_dtype ac d x) x) (kpad_of l) (l_K l) (l_Ho l) (l_Wo l)
      = Some (mk [B; l_groups l * l_groupsize l; l_K l; l_Ho l; l_Wo l] (conv_dt ac t))).
  { intros Hk. destruct (kpacked_ok_facts _ _ _ _ Hk) as (-> & Hh & H8 & Hp). rewrite KX.
    assert (E : kpacked_dtype ac Cuda x = conv_dt ac t) by (destruct ac; reflexivity). rewrite E in *.
    assert (E2 : match ac with Some a => a | None => conv_dt ac t end = conv_dt ac t) by (destruct ac; reflexivity).
    split.
    - unfold l_weight. rewrite kpacked_fused_mk; auto. rewrite E2; auto. intros a ->. reflexivity.
    - rewrite kpacked_mk; auto; rewrite E2; auto. }
  destruct (l_fused l) eqn:Ef.
  { destruct (kpacked_ok l ac d x); simpl andb; cbv iota. apply KP; reflexivity.
    unfold l_weight, x. rewrite fused_op_mk by auto. do 2 f_equal. destruct d; destruct ac as [a|]; simpl; auto. }
  simpl andb. cbv iota. destruct (l_savex l) eqn:Es.
  { destruct (kpacked_ok l ac d x); simpl andb; cbv iota. apply KP; reflexivity.
    rewrite KX. unfold l_weight. rewrite fused_body_mk by auto. do 2 f_equal.
    destruct d; destruct ac as [a|]; simpl in *; auto. }
  simpl andb. cbv iota. destruct (kpacked_ok l ac d x).
  { destruct (KP eq_refl) as [_ K2]. rewrite K2. unfold bind. rewrite unfused_tail_mk by congruence. now rewrite A3. }
  destruct (l_opt l) eqn:Eo.
  { unfold x. rewrite contraction_op_mk by auto. unfold bind. change (match ac with Some a => a | None => t end) with (conv_dt ac t).
    rewrite unfused_tail_mk by congruence. now rewrite A3. }
  destruct (W4 eq_refl) as (_ & _ & Hle). unfold torch_contraction, x. simpl m_shape. cbv iota.
  rewrite Nat.eqb_refl, W2. replace (l_Wo l =? 0) with false by (symmetry; apply Nat.eqb_neq; lia).
  replace (l_Ho l <=? l_Wi l) with true by (symmetry; apply Nat.leb_le; auto). simpl guard. simpl m_dt. unfold bind.
  rewrite unfused_tail_mk by congruence. now rewrite A1.
Qed.

Lemma layer_forward_ok : forall l ac d B t v, layer_wf l -> types_ok ac t (l_wdt l) ->
  layer_forward l ac d (mk [B; l_groups l * l_groupsize l; l_Hi l; l_Wi l] t) v =
  Some (mk [B; l_groups l * l_outper l; l_Ho l; l_Wo l] (biased (conv_dt ac t) (l_bias l))).
Proof. intros. unfold layer_forward. rewrite layer_conv_ok by auto. unfold bind, biased. destruct (l_bias l); reflexivity. Qed.

(** The transposed layer. *)
Lemma transpose_layer_ok : forall l ac d B t v, 1 <= l_Wi l -> l_Wo l mod l_Wi l = 0 -> types_ok ac t (l_wdt l) ->
  transpose_layer l ac d (mk [B; l_groups l * l_groupsize l; l_Hi l; l_Wi l] t) v =
  Some (mk [B; l_groups l * l_outper l; l_Ho l; l_Wo l] (biased (conv_dt ac t) (l_bias l))).
Proof.
  intros l ac d B t v W1 W2 T. destruct (ac_dt_conv _ _ _ T) as (A1 & A2 & A3).
  unfold transpose_layer. simpl m_shape. cbv iota.
  rewrite reshape_ok by (unfold prod; cbn [fold_right]; ring). unfold bind at 1. unfold l_weight.
  rewrite (einsum_mk _ _ _ _ _ _ [B; l_groups l; l_outper l; l_K l; l_Hi l; l_Wi l]); [|unfold ein_trans; rewrite !Nat.eqb_refl; reflexivity|congruence].
  unfold bind at 1. rewrite reshape_ok by (unfold prod; cbn [fold_right]; ring). unfold bind at 1. rewrite A1.
  assert (E : forall t', transpose_body d (mk [B; l_groups l * l_outper l; l_K l; l_Hi l; l_Wi l] t') v (l_K l) (l_Ho l) (l_Wo l)
     = Some (mk [B; l_groups l * l_outper l; l_Ho l; l_Wo l] t')).
  { intros t'. unfold transpose_body. simpl m_dt.
    rewrite (k_backward_mk B (l_Ho l) (l_Wo l) (l_Hi l) (l_Wi l)) by (auto; apply vals_ok_compute; reflexivity). reflexivity. }
  unfold transpose_op. destruct ac as [a|]; unfold to_dt at 1; simpl m_shape; rewrite E; unfold bind, biased; simpl m_dt;
    destruct (l_bias l); reflexivity.
Qed.

(** ** Tracing versions *)
Lemma reshape_inv : forall s m m', reshape s m = Some m' -> m' = mk s (m_dt m).
Proof. intros s m m' H. unfold reshape, guard in H. destruct (_ =? _); congruence. Qed.
Lemma bind_inv : forall A B (x : option A) (f : A -> option B) y, bind x f = Some y -> exists a, x = Some a /\ f a = Some y.
Proof. intros A B [a|] f y H; [eauto|discriminate]. Qed.
Lemma k_forward_inv : forall d inp v K Ho Wo m, k_forward d inp v K Ho Wo = Some m -> m = contraction_fake inp K Ho Wo.
Proof.
  intros d [s t] v K Ho Wo m H. unfold k_forward in H. simpl in H. destruct s as [|B [|C [|Hi [|Wi [|]]]]]; try discriminate.
  unfold guard in H. destruct (_ && _) in H; [|discriminate]. inversion H. reflexivity.
Qed.
Lemma k_backward_inv : forall d inp v K Ho Wo m, k_backward d inp v K Ho Wo = Some m -> m = transpose_fake inp Ho Wo.
Proof.
  intros d [s t] v K Ho Wo m H. unfold k_backward in H. simpl in H. destruct s as [|B [|C [|K' [|Hi [|Wi [|]]]]]]; try discriminate.
  unfold guard in H. destruct (_ && _) in H; [|discriminate]. inversion H. reflexivity.
Qed.
Lemma einsum_none_inv : forall f a b m, einsum None f a b = Some m -> m_dt m = m_dt a.
Proof.
  intros f a b m H. unfold einsum, guard in H. cbn [ac_cast] in H. destruct (dt_eqb _ _); [|discriminate].
  apply bind_inv in H. destruct H as (r & _ & H). inversion H. reflexivity.
Qed.

Lemma contraction_fake_ok : forall d inp v K Ho Wo m, contraction_op None d inp v K Ho Wo = Some m -> contraction_fake inp K Ho Wo = m.
Proof.
  intros d inp v K Ho Wo m H. simpl in H. unfold contraction_body in H. apply bind_inv in H. destruct H as (a & Ha & E).
  apply k_forward_inv in Ha. inversion E. subst a. reflexivity.
Qed.
Lemma transpose_fake_ok : forall d inp v K Ho Wo m, transpose_op None d inp v K Ho Wo = Some m -> transpose_fake inp Ho Wo = m.
Proof.
  intros d inp v K Ho Wo m H. simpl in H. unfold transpose_body in H. apply bind_inv in H. destruct H as (a & Ha & E).
  apply k_backward_inv in Ha. inversion E. subst a. reflexivity.
Qed.
Lemma fused_fake_body : forall d inp w v K Ho Wo G Cg m, fused_body None d inp w v K Ho Wo G Cg = Some m -> fused_fake inp w Ho Wo G = m.
Proof.
  intros d inp w v K Ho Wo G Cg m H. unfold fused_body in H. apply bind_inv in H. destruct H as (a & Ha & E).
  apply k_forward_inv in Ha. subst a. unfold weight_contract, contraction_fake, to_dt in E. simpl m_shape in E. cbv iota in E.
  destruct w as [[|g [|Og [|c [|k [|]]]]] wt]; simpl m_shape in E; try discriminate.
  apply bind_inv in E. destruct E as (xr & Hx & E). apply bind_inv in E. destruct E as (o & Ho' & E).
  apply reshape_inv in Hx. apply einsum_none_inv in Ho'. apply reshape_inv in E. subst xr m. rewrite Ho'. reflexivity.
Qed.
Lemma fused_fake_ok : forall d inp w v K Ho Wo G Cg m, fused_op None d inp w v K Ho Wo G Cg = Some m -> fused_fake inp w Ho Wo G = m.
Proof. intros d inp w v K Ho Wo G Cg m H. apply (fused_fake_body d inp w v K Ho Wo G Cg). destruct d; exact H. Qed.
Lemma fused_fake_cuda : forall a inp w v K Ho Wo G Cg m, fused_op (Some a) Cuda inp w v K Ho Wo G Cg = Some m ->
  fused_fake (to_dt a inp) (to_dt a w) Ho Wo G = m.
Proof. intros. eapply fused_fake_body. exact H. Qed.

(** ** Backward passes of the three kinds of operator *)
Lemma compute_fused : forall ac d t, ac <> Some F64 -> compute_dtype (fused_saved ac d t) = compute_dtype (fused_out_dt ac d t).
Proof. intros [[]|] [] [] H; try reflexivity; now elim H. Qed.

Lemma contraction_bwd_plain : forall d B C K Hi Wi Ho Wo t v g, 1 <= Wo -> Wi mod Wo = 0 ->
  contraction_bwd d (mk [B; C; Hi; Wi] t) v (mk [B; C; K; Ho; Wo] g) K = Some (mk [B; C; Hi; Wi] g).
Proof.
  intros. unfold contraction_bwd. simpl m_shape. cbv iota.
  rewrite k_backward_mk by (auto; apply vals_ok_compute; reflexivity). reflexivity.
Qed.
Lemma transpose_bwd_plain : forall d B C K Hi Wi Ho Wo t v g, 1 <= Wi -> Wo mod Wi = 0 ->
  transpose_bwd d (mk [B; C; K; Hi; Wi] t) v (mk [B; C; Ho; Wo] g) K = Some (mk [B; C; K; Hi; Wi] g).
Proof.
  intros. unfold transpose_bwd, k_forward. simpl m_shape. cbv iota. simpl m_dt.
  replace (Wi =? 0) with false by (symmetry; apply Nat.eqb_neq; lia). rewrite H0, vals_ok_compute by reflexivity. reflexivity.
Qed.

Definition demo (fused : bool) (bias : option dtype) : layer :=
  mklayer true fused false None false 3 8 16 8 16 2 2 2 F32 bias.

(** ** Attention *)
Lemma div_mul_exact : forall a b, 1 <= b -> a mod b = 0 -> a / b * b = a.
Proof. intros a b Hb H. pose proof (Nat.div_mod a b). lia. Qed.

Lemma attn_fake_ok : forall d k v q nh li ho lo m, attn_forward d k v q nh li ho lo = Some m -> attn_fake k v ho lo = m.
Proof.
  intros d [ks kt] [vs vt] [qs qt] nh li ho lo m H. unfold attn_forward in H. simpl m_shape in H.
  destruct ks as [|B [|h [|w [|c [|]]]]]; try discriminate. destruct vs as [|v1 [|v2 [|v3 [|vc [|]]]]]; try discriminate.
  destruct qs as [|q1 [|q2 [|q3 [|qc [|]]]]]; try discriminate.
  unfold guard in H. destruct (attn_checks _ _ _ _ _ _ _ _ _) eqn:E; [|discriminate]. inversion H.
  unfold attn_checks in E. repeat rewrite andb_true_iff in E. simpl m_dt in E.
  destruct E as ((((((_ & N) & _) & V) & K) & _) & _). apply dt_eqb_eq in K. apply Nat.leb_le in N. apply Nat.eqb_eq in V.
  unfold attn_fake. simpl. rewrite div_mul_exact by auto. now subst.
Qed.

Lemma attn_checks_ok : forall ks vs qs t g qc vc nh li lo, 1 <= nh -> 1 <= li -> 1 <= lo -> li mod lo = 0 \/ lo mod li = 0 ->
  (forall m, g = Some m -> m_dt m = t) ->
  attn_checks (mk ks t) (mk vs t) (mk qs t) g (nh * qc) (nh * vc) nh li lo = true.
Proof.
  intros ks vs qs t g qc vc nh li lo Hn Hi Ho Hd Hg. unfold attn_checks. simpl m_dt. rewrite dt_eqb_refl.
  replace (li =? 0) with false by (symmetry; apply Nat.eqb_neq; lia). replace (lo =? 0) with false by (symmetry; apply Nat.eqb_neq; lia).
  replace (1 <=? nh) with true by (symmetry; apply Nat.leb_le; auto).
  assert (M : forall c, (nh * c) mod nh = 0) by (intros; rewrite Nat.mul_comm; apply Nat.mod_mul; lia). rewrite !M.
  replace ((li mod lo =? 0) || (lo mod li =? 0)) with true.
  2:{ symmetry. apply orb_true_iff. rewrite !Nat.eqb_eq. auto. }
  destruct g as [m|]; simpl; auto. rewrite (Hg m eq_refl). apply dt_eqb_refl.
Qed.

Lemma attn_run : forall d B Hi Wi Ho Wo nh qc vc t, 1 <= nh -> 1 <= Wi -> 1 <= Wo -> Wi mod Wo = 0 \/ Wo mod Wi = 0 ->
  let k := mk [B; Hi; Wi; nh * qc] t in let v := mk [B; Hi; Wi; nh * vc] t in let q := mk [B; Ho; Wo; nh * qc] t in
  let y := mk [B; Ho; Wo; nh * vc] t in
  attn_forward d k v q nh Wi Ho Wo = Some y /\ attn_backward d k v q y nh Wi Ho Wo = Some (k, v, q).
Proof.
  intros d B Hi Wi Ho Wo nh qc vc t Hn H1 H2 H3 k v q y.
  assert (M : forall c, nh * c / nh * nh = nh * c) by (intros; rewrite (Nat.mul_comm nh c), Nat.div_mul by lia; auto).
  unfold attn_forward, attn_backward, k, v, q, y. simpl m_shape. cbv iota.
  rewrite !attn_checks_ok by (auto; intros m E; inversion E; reflexivity || discriminate). simpl m_dt. unfold guard. rewrite !M.
  split; [reflexivity|]. destruct d; reflexivity.
Qed.

Lemma attn_op_run : forall ac d B Hi Wi Ho Wo nh qc vc tk tv tq, 1 <= nh -> 1 <= Wi -> 1 <= Wo -> Wi mod Wo = 0 \/ Wo mod Wi = 0 ->
  (ac = None -> tk = tq /\ tv = tq) ->
  let k := mk [B; Hi; Wi; nh * qc] tk in let v := mk [B; Hi; Wi; nh * vc] tv in let q := mk [B; Ho; Wo; nh * qc] tq in
  exists y dk dv dq, attn_op ac d k v q nh Wi Ho Wo = Some y /\ y = mk [B; Ho; Wo; nh * vc] (conv_dt ac tq) /\
    attn_op_backward ac d k v q y nh Wi Ho Wo = Some (dk, dv, dq) /\
    dk = mk (m_shape k) (conv_dt ac tq) /\ dv = mk (m_shape v) (conv_dt ac tq) /\ dq = mk (m_shape q) (conv_dt ac tq).
Proof.
  intros ac d B Hi Wi Ho Wo nh qc vc tk tv tq Hn H1 H2 H3 Ht k v q.
  destruct ac as [a|].
  - destruct (attn_run d B Hi Wi Ho Wo nh qc vc a Hn H1 H2 H3) as [F R].
    do 4 eexists. split; [exact F|]. split; [reflexivity|]. split; [exact R|]. repeat split; reflexivity.
  - destruct (Ht eq_refl) as [-> ->].
    destruct (attn_run d B Hi Wi Ho Wo nh qc vc tq Hn H1 H2 H3) as [F R].
    do 4 eexists. split; [exact F|]. split; [reflexivity|]. split; [exact R|]. repeat split; reflexivity.
Qed.
