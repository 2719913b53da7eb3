From Coq Require Import List Arith Lia Bool Reals ZArith Lra.
From Verif Require Import TensorModel TensorProofs BigSum TruncModel QuadModel CCProofs QuadProofs QuadPropProofs LossModel LossSpec LossProofs MetricModel MetricSpec MetricProofs SegLossModel SegLossSpec SegLossProofs SegLossProofs2 SegLossProofs3.
Import ListNotations.
Local Open Scope R_scope.

Section DiceFacts.
Variables (q prd : tensor R) (tar : tensor Z) (b n h w : nat) (ig : option Z) (P : nat -> nat -> nat -> nat -> R).
Hypotheses (Sp : shp prd = [b; n; h; w]) (St : shp tar = [b; h; w]) (Hb : (1 <= b)%nat) (Hn : (1 <= n)%nat) (A : area_weights q h w).
Hypotheses (HP : class_probs prd b n h w P) (HL : labelled tar ig b n h w) (SC : some_counted tar ig b h w).
Let Sq : shp q = [h; 1%nat]. Proof. apply A. Qed.
Let Hq : forall k, (k < h)%nat -> 0 < val q [k; 0]%nat. Proof. apply A. Qed.
Notation T i := (fun k j => val tar [i%nat; k; j]).
Notation U i := (uni q tar h w ig P i).
Notation both i c := (overlap q h w ig (P i) (T i) c).
Lemma micro_den : forall weight smooth i, good_weight n weight -> 0 <= smooth -> (i < b)%nat -> 0 < over_classes n weight (U i) + smooth.
Proof.
  intros weight smooth i [W0 (c0 & Hc0 & W1)] Hs Hi. assert (PU : forall c, (c < n)%nat -> 0 < U i c). { intros c Hc. eapply (uni_pos q prd tar b n h w); eauto. }
  assert (0 < over_classes n weight (U i)); [|lra]. unfold over_classes. destruct weight as [wt|]; cbn [weight_of] in *.
  - assert (NN : forall c, (c < n)%nat -> 0 <= wt c * U i c). { intros c Hc. apply Rmult_le_pos; auto. now apply Rlt_le, PU. }
    destruct (rsum_nonneg n _ NN) as [G|G]; auto. exfalso. pose proof (rsum_zero_iff n _ NN (eq_sym G) c0 Hc0) as Z. cbv beta in Z. pose proof (Rmult_lt_0_compat _ _ W1 (PU c0 Hc0)). lra.
  - apply Rdiv_lt_0_compat; [|now apply INR_pos]. assert (NN : forall c, (c < n)%nat -> 0 <= U i c) by (intros; now apply Rlt_le, PU).
    destruct (rsum_nonneg n _ NN) as [G|G]; auto. exfalso. pose proof (rsum_zero_iff n _ NN (eq_sym G) c0 Hc0) as Z. pose proof (PU c0 Hc0). lra.
Qed.
Lemma macro_den : forall smooth i c, 0 <= smooth -> (i < b)%nat -> (c < n)%nat -> 0 < U i c + smooth.
Proof. intros smooth i c Hs Hi Hc. assert (0 < U i c) by (eapply (uni_pos q prd tar b n h w); eauto). lra. Qed.
Lemma dice_range_micro : forall weight smooth, good_weight n weight -> 0 <= smooth -> exists v, dice_loss q weight smooth ig DMicro prd tar = Some v /\ 0 <= v <= 1.
Proof.
  intros weight smooth W Hs. rewrite (dice_micro q prd tar b n h w weight smooth ig P); auto. 2: { intros i Hi. pose proof (micro_den weight smooth i W Hs Hi). lra. }
  eexists. split; [reflexivity|]. assert (R : forall i, (i < b)%nat -> 0 <= dice_score smooth (over_classes n weight (fun c => both i c)) (over_classes n weight (U i)) <= 1).
  { intros i Hi. destruct (over_bounds q prd tar b n h w weight ig P Hn HP Hq (proj1 W) i Hi). apply score_range; auto. pose proof (micro_den weight smooth i W Hs Hi). lra. }
  pose proof (batch_le b _ _ Hb (fun i Hi => proj1 (R i Hi))) as B1. pose proof (batch_le b _ _ Hb (fun i Hi => proj2 (R i Hi))) as B2. rewrite (batch_const b _ Hb) in B1. rewrite (batch_const b _ Hb) in B2. lra.
Qed.
Lemma over_range : forall weight x, good_weight n weight -> (forall c, (c < n)%nat -> 0 <= x c <= 1) -> 0 <= over_classes n weight x <= match weight with Some wt => rsum n wt | None => 1 end.
Proof.
  intros weight x [W _] H. unfold over_classes. destruct weight as [wt|]; cbn [weight_of] in W. split. apply rsum_nonneg. intros c Hc. apply Rmult_le_pos; auto. now apply H.
  apply rsum_le. intros c Hc. rewrite <- (Rmult_1_r (wt c)) at 2. apply Rmult_le_compat_l; auto. now apply H.
  pose proof (INR_pos n Hn). assert (0 < / INR n) by now apply Rinv_0_lt_compat. unfold Rdiv. split. apply Rmult_le_pos; [|lra]. apply rsum_nonneg. intros. now apply H.
  apply Rmult_le_reg_r with (INR n); auto. rewrite Rmult_assoc, Rinv_l, Rmult_1_r, Rmult_1_l by lra. rewrite <- (Rmult_1_r (INR n)), <- rsum_const. apply rsum_le. intros. now apply H.
Qed.
Lemma dice_range_macro : forall weight smooth, good_weight n weight -> 0 <= smooth -> exists v, dice_loss q weight smooth ig DMacro prd tar = Some v /\ 1 - match weight with Some wt => rsum n wt | None => 1 end <= v <= 1.
Proof.
  intros weight smooth W Hs. rewrite (dice_macro q prd tar b n h w weight smooth ig P Sp St Sq Hb Hn HP HL DMacro ltac:(discriminate)). 2: { intros i c Hi Hc. pose proof (macro_den smooth i c Hs Hi Hc). lra. }
  eexists. split; [reflexivity|]. assert (R : forall i, (i < b)%nat -> 0 <= over_classes n weight (fun c => dice_score smooth (both i c) (U i c)) <= match weight with Some wt => rsum n wt | None => 1 end).
  { intros i Hi. apply over_range; auto. intros c Hc. apply score_range; auto. eapply (both_bounds q prd tar b n h w); eauto. eapply (uni_bounds q prd tar b n h w); eauto. pose proof (macro_den smooth i c Hs Hi Hc). lra. }
  pose proof (batch_le b _ _ Hb (fun i Hi => proj1 (R i Hi))) as B1. pose proof (batch_le b _ _ Hb (fun i Hi => proj2 (R i Hi))) as B2. rewrite (batch_const b _ Hb) in B1. rewrite (batch_const b _ Hb) in B2. lra.
Qed.
Lemma unweighted : good_weight n None. Proof. split; cbn; intros; try lra. exists 0%nat. split; [lia|lra]. Qed.
Lemma dice_micro_closed : forall smooth, 0 <= smooth -> dice_loss q None smooth ig DMicro prd tar = Some (1 - batch_mean b (fun i =>
  dice_score (INR n * smooth) (hit q h w ig (P i) (T i)) (2 * counted_area q h w ig (T i) + ignored_part q h w ig (T i)))).
Proof.
  intros smooth Hs. rewrite (dice_micro q prd tar b n h w None smooth ig P); auto. 2: { intros i Hi. pose proof (micro_den None smooth i unweighted Hs Hi). lra. }
  f_equal. f_equal. apply batch_ext. intros i Hi. pose proof (micro_den None smooth i unweighted Hs Hi) as D. cbn [over_classes] in *. pose proof (INR_pos n Hn).
  rewrite (overlap_sum q tar b n h w ig P Hb Hn HL i Hi). rewrite (union_sum q prd tar b n h w ig P Hb Hn HP HL i Hi) in *. unfold dice_score. field.
  assert (E : 2 * counted_area q h w ig (T i) + ignored_part q h w ig (T i) + INR n * smooth = INR n * ((2 * counted_area q h w ig (T i) + ignored_part q h w ig (T i)) / INR n + smooth)) by (field; lra).
  pose proof (Rmult_lt_0_compat _ _ H D). repeat split; lra.
Qed.
Lemma counted_pos : forall i, (i < b)%nat -> 0 < counted_area q h w ig (T i).
Proof.
  intros i Hi. destruct (SC i Hi) as (k & j & Hk & Hj & C). assert (NN : forall k j, (k < h)%nat -> (j < w)%nat -> 0 <= when (counts ig (val tar [i; k; j])) 1) by (intros; apply when_range; lra).
  destruct (part_nonneg q h w _ (fun k Hk => Rlt_le _ _ (Hq k Hk)) NN) as [G|G]; [exact G|]. exfalso. pose proof (part_zero_iff q h w _ Hq NN (eq_sym G) k j Hk Hj) as Z. cbv beta in Z. rewrite C in Z. cbn in Z. lra.
Qed.
Lemma ignored_ge0 : forall i, 0 <= ignored_part q h w ig (T i).
Proof. intros. apply part_nonneg. intros; now apply Rlt_le, Hq. intros. apply when_range. lra. Qed.
Lemma hit_le : forall i, (i < b)%nat -> 0 <= hit q h w ig (P i) (T i) <= counted_area q h w ig (T i).
Proof.
  intros i Hi. unfold hit, counted_area. assert (B : forall k j, (k < h)%nat -> (j < w)%nat -> counts ig (val tar [i; k; j]) = true -> 0 < P i k j (Z.to_nat (val tar [i; k; j])) <= 1).
  { intros k j Hk Hj C. pose proof (HL i k j Hi Hk Hj C). eapply probs_le1. apply HP; auto. lia. }
  split; [apply part_nonneg|apply part_le]; try (intros; now apply Rlt_le, Hq); intros k j Hk Hj; specialize (B k j Hk Hj); destruct (counts ig (val tar [i; k; j])); cbn [when]; try lra; specialize (B eq_refl); lra.
Qed.
Lemma dice_floor : forall v, dice_loss q None 0 ig DMicro prd tar = Some v ->
  batch_mean b (fun i => ignored_part q h w ig (T i) / (2 * counted_area q h w ig (T i) + ignored_part q h w ig (T i))) <= v.
Proof.
  intros v E. rewrite (dice_micro_closed 0 ltac:(lra)) in E. apply some_inj in E. subst v.
  assert (G : batch_mean b (fun i => dice_score (INR n * 0) (hit q h w ig (P i) (T i)) (2 * counted_area q h w ig (T i) + ignored_part q h w ig (T i))) <= batch_mean b (fun i => 1 + -1 * (ignored_part q h w ig (T i) / (2 * counted_area q h w ig (T i) + ignored_part q h w ig (T i))))).
  { apply batch_le; auto. intros i Hi. pose proof (counted_pos i Hi). pose proof (ignored_ge0 i). pose proof (hit_le i Hi). unfold dice_score.
    replace (1 + -1 * (ignored_part q h w ig (T i) / (2 * counted_area q h w ig (T i) + ignored_part q h w ig (T i)))) with ((2 * counted_area q h w ig (T i)) / (2 * counted_area q h w ig (T i) + ignored_part q h w ig (T i))) by (field; lra).
    rewrite !Rmult_0_r, !Rplus_0_r. unfold Rdiv. apply Rmult_le_compat_r. left. apply Rinv_0_lt_compat. lra. lra. }
  assert (S : forall f, batch_mean b (fun i => 1 + -1 * f i) = 1 - batch_mean b f). { intros f. unfold batch_mean. rewrite (bsum_plus RT), (bsum_scal_l RT), rsum_const. pose proof (INR_pos b Hb). field. lra. }
  rewrite S in G. lra.
Qed.
Lemma dice_absent : forall c v, (c < n)%nat -> (forall i k j, (i < b)%nat -> (k < h)%nat -> (j < w)%nat -> val tar [i; k; j] <> Z.of_nat c) -> dice_loss q None 0 ig DMacro prd tar = Some v -> / INR n <= v.
Proof.
  intros c v Hc NC E. rewrite (dice_macro q prd tar b n h w None 0 ig P Sp St Sq Hb Hn HP HL DMacro ltac:(discriminate)) in E. 2: { intros i c' Hi Hc'. pose proof (macro_den 0 i c' ltac:(lra) Hi Hc'). lra. }
  apply some_inj in E. subst v. pose proof (INR_pos n Hn).
  assert (G : batch_mean b (fun i => over_classes n None (fun c => dice_score 0 (both i c) (U i c))) <= 1 - / INR n); [|lra].
  rewrite <- (batch_const b (1 - / INR n) Hb). apply batch_le; auto. intros i Hi. cbn [over_classes]. apply Rmult_le_reg_r with (INR n); auto. unfold Rdiv. rewrite Rmult_assoc, Rinv_l by lra. rewrite Rmult_1_r. replace ((1 - / INR n) * INR n) with (INR n - 1) by (field; lra).
  assert (Z : dice_score 0 (both i c) (U i c) = 0). { unfold dice_score. replace (both i c) with 0. unfold Rdiv. ring. unfold overlap. rewrite <- (part_zero q h w). apply part_ext. intros k j Hk Hj. destruct (Z.eqb_spec (val tar [i; k; j]) (Z.of_nat c)). now apply NC in e. now rewrite andb_false_r. }
  apply Rle_trans with (rsum n (fun d => if (d =? c)%nat then 0 else 1)).
  - apply rsum_le. intros d Hd. destruct (Nat.eqb_spec d c) as [->|]. rewrite Z. lra. apply score_range. lra. eapply (both_bounds q prd tar b n h w); eauto. eapply (uni_bounds q prd tar b n h w); eauto. pose proof (macro_den 0 i d ltac:(lra) Hi Hd). lra.
  - rewrite (bsum_ext n _ (fun d => 1 + -1 * (if (d =? c)%nat then 1 else 0))) by (intros d _; destruct (d =? c)%nat; ring). rewrite (bsum_plus RT), (bsum_scal_l RT), (bsum_delta_f RT n c (fun _ => 1)), rsum_const by auto. lra.
Qed.
End DiceFacts.

(** ** What the losses depend on *)
Definition same_logits (ig : option Z) (tar : tensor Z) (b n h w : nat) (prd prd' : tensor R) : Prop :=
  forall i k j, (i < b)%nat -> (k < h)%nat -> (j < w)%nat -> counts ig (val tar [i; k; j]) = true -> exists s, forall c, (c < n)%nat -> val prd' [i; c; k; j] = val prd [i; c; k; j] + s.
Section Depends.
Variables (q prd prd' : tensor R) (tar : tensor Z) (b n h w : nat) (weight : option (nat -> R)).
Hypotheses (Sp : shp prd = [b; n; h; w]) (Sp' : shp prd' = [b; n; h; w]) (St : shp tar = [b; h; w]) (Hb : (1 <= b)%nat) (Hn : (1 <= n)%nat) (A : area_weights q h w).
Let Sq : shp q = [h; 1%nat]. Proof. apply A. Qed.
Let P i k j := softmax n (fun c => val prd [i; c; k; j]).
Let P' i k j := softmax n (fun c => val prd' [i; c; k; j]).
Let HP : class_probs prd b n h w P. Proof. now apply softmax_class. Qed.
Let HP' : class_probs prd' b n h w P'. Proof. now apply softmax_class. Qed.
Lemma same_probs : forall ig, same_logits ig tar b n h w prd prd' -> forall i k j c, (i < b)%nat -> (k < h)%nat -> (j < w)%nat -> (c < n)%nat -> counts ig (val tar [i; k; j]) = true -> P i k j c = P' i k j c.
Proof.
  intros ig H i k j c Hi Hk Hj Hc C. destruct (H i k j Hi Hk Hj C) as (s & Hs). apply (probs_unique n (fun c => val prd' [i; c; k; j])); auto. apply (probs_shift n (fun c => val prd [i; c; k; j]) _ _ s); auto.
Qed.
Lemma ce_depends : forall eps ig, same_logits (Some ig) tar b n h w prd prd' -> cross_entropy_loss q weight eps ig prd tar = cross_entropy_loss q weight eps ig prd' tar.
Proof.
  intros eps ig H. destruct (cross_entropy_loss q weight eps ig prd tar) as [v|] eqn:E.
  - destruct (proj1 (ce_iff q prd tar b n h w weight Sp St Hb Hn A eps ig) (ex_intro _ v E)) as [He HL]. rewrite (ce_value q prd tar b n h w weight eps ig Sp St Sq Hb Hn P HP He HL) in E. rewrite (ce_value q prd' tar b n h w weight eps ig Sp' St Sq Hb Hn P' HP' He HL).
    rewrite <- E. f_equal. apply batch_ext. intros i Hi. apply part_ext. intros k j Hk Hj. destruct (counts (Some ig) (val tar [i; k; j])) eqn:C; auto. cbn [when]. apply ce_ext. intros c Hc. now apply (same_probs (Some ig)). pose proof (HL i k j Hi Hk Hj C). lia.
  - destruct (cross_entropy_loss q weight eps ig prd' tar) as [v|] eqn:E'; auto. destruct (proj1 (ce_iff q prd' tar b n h w weight Sp' St Hb Hn A eps ig) (ex_intro _ v E')) as [He HL].
    destruct (proj2 (ce_iff q prd tar b n h w weight Sp St Hb Hn A eps ig) (conj He HL)) as (v' & E''). congruence.
Qed.
Lemma focal_depends : forall eps ig alpha gamma, same_logits (Some ig) tar b n h w prd prd' -> 0 <= gamma -> 0 <= eps <= 1 -> labelled tar (Some ig) b n h w -> (forall c, (c < n)%nat -> 0 <= weight_of weight c) ->
  focal_loss q weight eps ig alpha gamma prd tar = focal_loss q weight eps ig alpha gamma prd' tar.
Proof.
  intros eps ig alpha gamma H Hg He HL HW. rewrite (focal_value q prd tar b n h w weight eps ig Sp St Sq Hb Hn P alpha gamma HP He HL HW Hg), (focal_value q prd' tar b n h w weight eps ig Sp' St Sq Hb Hn P' alpha gamma HP' He HL HW Hg).
  f_equal. apply batch_ext. intros i Hi. apply part_ext. intros k j Hk Hj. destruct (counts (Some ig) (val tar [i; k; j])) eqn:C; auto. cbn [when]. cbv zeta. rewrite (ce_ext n (weight_of weight) eps (P i k j) (P' i k j)); auto. intros c Hc. now apply (same_probs (Some ig)). pose proof (HL i k j Hi Hk Hj C). lia.
Qed.
Lemma dice_depends : forall ig smooth md, same_logits ig tar b n h w prd prd' -> 0 <= smooth -> labelled tar ig b n h w -> some_counted tar ig b h w -> good_weight n weight ->
  dice_loss q weight smooth ig md prd tar = dice_loss q weight smooth ig md prd' tar.
Proof.
  intros ig smooth md H Hs HL SC W.
  assert (EO : forall i c, (i < b)%nat -> (c < n)%nat -> overlap q h w ig (P i) (fun k j => val tar [i; k; j]) c = overlap q h w ig (P' i) (fun k j => val tar [i; k; j]) c).
  { intros i c Hi Hc. apply part_ext. intros k j Hk Hj. destruct (counts ig (val tar [i; k; j])) eqn:C; auto. cbn [andb]. now rewrite (same_probs ig H i k j c). }
  assert (EU : forall i c, (i < b)%nat -> (c < n)%nat -> uni q tar h w ig P i c = uni q tar h w ig P' i c).
  { intros i c Hi Hc. unfold uni. f_equal. f_equal. apply part_ext. intros k j Hk Hj. destruct (counts ig (val tar [i; k; j])) eqn:C; auto. cbn [when]. now apply (same_probs ig). }
  assert (M : md = DMicro \/ md <> DMicro) by (destruct md; auto; right; discriminate). destruct M as [->|M].
  - rewrite (dice_micro q prd tar b n h w weight smooth ig P), (dice_micro q prd' tar b n h w weight smooth ig P'); auto.
    + f_equal. f_equal. apply batch_ext. intros i Hi. f_equal; apply over_ext; intros; auto.
    + intros i Hi. pose proof (micro_den q prd' tar b n h w ig P' Hn A HP' SC weight smooth i W Hs Hi). lra.
    + intros i Hi. pose proof (micro_den q prd tar b n h w ig P Hn A HP SC weight smooth i W Hs Hi). lra.
  - rewrite (dice_macro q prd tar b n h w weight smooth ig P), (dice_macro q prd' tar b n h w weight smooth ig P'); auto.
    + f_equal. f_equal. apply batch_ext. intros i Hi. apply over_ext. intros c Hc. now rewrite EO, EU.
    + intros i c Hi Hc. pose proof (macro_den q prd' tar b n h w ig P' A HP' SC smooth i c Hs Hi Hc). lra.
    + intros i c Hi Hc. pose proof (macro_den q prd tar b n h w ig P A HP SC smooth i c Hs Hi Hc). lra.
Qed.
End Depends.
