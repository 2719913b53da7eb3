From Coq Require Import List Arith Lia Bool Reals ZArith Lra.
From Verif Require Import TensorModel TensorProofs BigSum TruncModel QuadModel CCProofs QuadProofs QuadPropProofs LossModel LossSpec LossProofs MetricModel MetricSpec MetricProofs SegLossModel SegLossSpec SegLossProofs SegLossProofs2 SegLossProofs3 SegLossProofs4 SHTSpec SHTValueProofs.
Import ListNotations.
Local Open Scope R_scope.

Section Roll.
Variables (q prd : tensor R) (tar : tensor Z) (b n h w sh : nat) (weight : option (nat -> R)).
Hypotheses (Sp : shp prd = [b; n; h; w]) (St : shp tar = [b; h; w]) (Hb : (1 <= b)%nat) (Hn : (1 <= n)%nat) (A : area_weights q h w).
Let Sq : shp q = [h; 1%nat]. Proof. apply A. Qed.
Let Hw : (1 <= w)%nat. Proof. eapply area_nonempty; eauto. Qed.
Let r j := ((j + (w - sh mod w)) mod w)%nat.
Let r_lt : forall j, (r j < w)%nat. Proof. intros. apply Nat.mod_upper_bound. lia. Qed.
Notation prd' := (roll_last sh prd).
Notation tar' := (roll_last sh tar).
Lemma roll_prd : forall i c k j, val prd' [i; c; k; j] = val prd [i; c; k; r j].
Proof. intros. unfold roll_last, dimsz, ndim. rewrite Sp. reflexivity. Qed.
Lemma roll_tar : forall i k j, val tar' [i; k; j] = val tar [i; k; r j].
Proof. intros. unfold roll_last, dimsz, ndim. rewrite St. reflexivity. Qed.
Lemma part_roll : forall F, part q h w (fun k j => F k (r j)) = part q h w F.
Proof. intros F. unfold part. apply bsum_ext. intros k Hk. exact (bsum_rot RT w (w - sh mod w) (fun j => val q [k; 0]%nat * F k j)). Qed.
Lemma r_onto : forall j, (j < w)%nat -> exists j', (j' < w)%nat /\ r j' = j.
Proof.
  intros j Hj. exists ((j + sh) mod w)%nat. split. apply Nat.mod_upper_bound. lia. unfold r. rewrite roll_cancel by auto. now apply Nat.mod_small.
Qed.
Lemma roll_labelled : forall ig, labelled tar ig b n h w <-> labelled tar' ig b n h w.
Proof.
  intros ig. split; intros H i k j Hi Hk Hj C.
  - rewrite roll_tar in *. apply H; auto.
  - destruct (r_onto j Hj) as (j' & Hj' & <-). pose proof (H i k j' Hi Hk Hj') as H'. rewrite roll_tar in H'. auto.
Qed.
Lemma roll_counted : forall ig, some_counted tar ig b h w -> some_counted tar' ig b h w.
Proof. intros ig H i Hi. destruct (H i Hi) as (k & j & Hk & Hj & C). destruct (r_onto j Hj) as (j' & Hj' & <-). exists k, j'. rewrite roll_tar. auto. Qed.
Lemma roll_probs : forall P, class_probs prd b n h w P -> class_probs prd' b n h w (fun i k j => P i k (r j)).
Proof.
  intros P H i k j Hi Hk Hj. pose proof (H i k (r j) Hi Hk (r_lt j)) as (P1 & P2 & P3). split; [|split]; auto. intros c d Hc Hd. rewrite !roll_prd. auto.
Qed.
Lemma ce_roll : forall eps ig, cross_entropy_loss q weight eps ig prd' tar' = cross_entropy_loss q weight eps ig prd tar.
Proof.
  intros eps ig. pose proof (softmax_class prd b n h w Hn) as HP. destruct (cross_entropy_loss q weight eps ig prd tar) as [v|] eqn:E.
  - destruct (proj1 (ce_iff q prd tar b n h w weight Sp St Hb Hn A eps ig) (ex_intro _ v E)) as [He HL]. rewrite (ce_value q prd tar b n h w weight eps ig Sp St Sq Hb Hn _ HP He HL) in E.
    rewrite (ce_value q prd' tar' b n h w weight eps ig Sp St Sq Hb Hn _ (roll_probs _ HP) He (proj1 (roll_labelled (Some ig)) HL)). rewrite <- E. f_equal. apply batch_ext. intros i Hi. symmetry; rewrite <- part_roll. apply part_ext. intros k j Hk Hj. now rewrite roll_tar.
  - destruct (cross_entropy_loss q weight eps ig prd' tar') as [v|] eqn:E'; auto. destruct (proj1 (ce_iff q prd' tar' b n h w weight Sp St Hb Hn A eps ig) (ex_intro _ v E')) as [He HL].
    destruct (proj2 (ce_iff q prd tar b n h w weight Sp St Hb Hn A eps ig) (conj He (proj2 (roll_labelled (Some ig)) HL))) as (v' & E''). congruence.
Qed.
Lemma focal_roll : forall eps ig alpha gamma, 0 <= gamma -> 0 <= eps <= 1 -> labelled tar (Some ig) b n h w -> (forall c, (c < n)%nat -> 0 <= weight_of weight c) ->
  focal_loss q weight eps ig alpha gamma prd' tar' = focal_loss q weight eps ig alpha gamma prd tar.
Proof.
  intros eps ig alpha gamma Hg He HL HW. pose proof (softmax_class prd b n h w Hn) as HP. rewrite (focal_value q prd tar b n h w weight eps ig Sp St Sq Hb Hn _ alpha gamma HP He HL HW Hg).
  rewrite (focal_value q prd' tar' b n h w weight eps ig Sp St Sq Hb Hn _ alpha gamma (roll_probs _ HP) He (proj1 (roll_labelled (Some ig)) HL) HW Hg). f_equal. apply batch_ext. intros i Hi. symmetry; rewrite <- part_roll. apply part_ext. intros k j Hk Hj. now rewrite roll_tar.
Qed.
Lemma dice_roll : forall ig smooth md, 0 <= smooth -> labelled tar ig b n h w -> some_counted tar ig b h w -> good_weight n weight ->
  dice_loss q weight smooth ig md prd' tar' = dice_loss q weight smooth ig md prd tar.
Proof.
  intros ig smooth md Hs HL SC W. pose proof (softmax_class prd b n h w Hn) as HP. set (P := fun i k j => softmax n (fun c => val prd [i; c; k; j])) in *.
  pose proof (roll_probs P HP) as HP'. pose proof (proj1 (roll_labelled ig) HL) as HL'. pose proof (roll_counted ig SC) as SC'. set (P' := fun i k j => P i k (r j)) in *.
  assert (EO : forall i c, overlap q h w ig (P' i) (fun k j => val tar' [i; k; j]) c = overlap q h w ig (P i) (fun k j => val tar [i; k; j]) c).
  { intros i c. unfold overlap. symmetry; rewrite <- part_roll. apply part_ext. intros k j Hk Hj. now rewrite roll_tar. }
  assert (EU : forall i c, uni q tar' h w ig P' i c = uni q tar h w ig P i c).
  { intros i c. unfold uni. f_equal; [f_equal|f_equal]; unfold predicted, labelled_area, ignored_part; symmetry; rewrite <- part_roll; apply part_ext; intros k j Hk Hj; now rewrite roll_tar. }
  assert (M : md = DMicro \/ md <> DMicro) by (destruct md; auto; right; discriminate). destruct M as [->|M].
  - rewrite (dice_micro q prd tar b n h w weight smooth ig P), (dice_micro q prd' tar' b n h w weight smooth ig P'); auto.
    + f_equal. f_equal. apply batch_ext. intros i Hi. f_equal; apply over_ext; intros; auto.
    + intros i Hi. pose proof (micro_den q prd' tar' b n h w ig P' Hn A HP' SC' weight smooth i W Hs Hi). lra.
    + intros i Hi. pose proof (micro_den q prd tar b n h w ig P Hn A HP SC weight smooth i W Hs Hi). lra.
  - rewrite (dice_macro q prd tar b n h w weight smooth ig P), (dice_macro q prd' tar' b n h w weight smooth ig P'); auto.
    + f_equal. f_equal. apply batch_ext. intros i Hi. apply over_ext. intros c Hc. now rewrite EO, EU.
    + intros i c Hi Hc. pose proof (macro_den q prd' tar' b n h w ig P' A HP' SC' smooth i c Hs Hi Hc). lra.
    + intros i c Hi Hc. pose proof (macro_den q prd tar b n h w ig P A HP SC smooth i c Hs Hi Hc). lra.
Qed.
End Roll.

(** ** A small case: two rows of one pixel, two classes, flat logits; the second pixel is ignored *)
Definition q0 : tensor R := mkT [2; 1]%nat (fun _ => / 2).
Definition prd0 : tensor R := mkT [1; 2; 2; 1]%nat (fun _ => 0).
Definition tar0 : tensor Z := mkT [1; 2; 1]%nat (fun i => match nth 1 i 0%nat with O => 0%Z | _ => (-100)%Z end).
Lemma q0_area : area_weights q0 2 1. Proof. split; [reflexivity|]. split. intros; cbn; lra. cbn [bsum_ val q0]. lra. Qed.
Lemma tar0_labelled : labelled tar0 (Some (-100)%Z) 1 2 2 1.
Proof. intros i k j Hi Hk Hj C. destruct k as [|[|]]; [|discriminate|lia]. destruct i; [|lia]. destruct j; [|lia]. cbn. lia. Qed.
Lemma tar0_counted : some_counted tar0 (Some (-100)%Z) 1 2 1. Proof. intros i Hi. exists 0%nat, 0%nat. destruct i; [|lia]. repeat split; auto. Qed.
Lemma prd0_probs : class_probs prd0 1 2 2 1 (fun _ _ _ _ => / 2). Proof. intros i k j Hi Hk Hj. split; [|split]. intros; lra. cbn [bsum_]. lra. intros. reflexivity. Qed.
Lemma ce0 : cross_entropy_loss q0 None 0 (-100) prd0 tar0 = Some (/ 2 * ln 2).
Proof.
  rewrite (ce_value q0 prd0 tar0 1 2 2 1 None 0 (-100) eq_refl eq_refl eq_refl ltac:(lia) ltac:(lia) _ prd0_probs ltac:(lra) tar0_labelled). f_equal. unfold batch_mean, part, cross_entropy. cbn. rewrite ln_Rinv by lra. field.
Qed.
Lemma dice0 : dice_loss q0 None 0 (Some (-100)%Z) DMicro prd0 tar0 = Some (2 / 3).
Proof.
  rewrite (dice_micro_closed q0 prd0 tar0 1 2 2 1 (Some (-100)%Z) _ eq_refl eq_refl ltac:(lia) ltac:(lia) q0_area prd0_probs tar0_labelled tar0_counted 0 ltac:(lra)). f_equal. unfold batch_mean, dice_score, hit, counted_area, ignored_part, part. cbn. field.
Qed.
Lemma focal0 : focal_loss q0 (Some (fun _ => 2)) 0 (-100) 1 1 prd0 tar0 = Some (3 / 4 * ln 2).
Proof.
  rewrite (focal_value q0 prd0 tar0 1 2 2 1 (Some (fun _ => 2)) 0 (-100) eq_refl eq_refl eq_refl ltac:(lia) ltac:(lia) _ 1 1 prd0_probs ltac:(lra) tar0_labelled ltac:(intros; cbn; lra) ltac:(lra)).
  assert (E : forall t, cross_entropy 2 (weight_of (Some (fun _ => 2))) 0 (fun _ => / 2) t = ln (2 * 2)). { intros. unfold cross_entropy. cbn. rewrite ln_mult, ln_Rinv by lra. field. }
  f_equal. unfold batch_mean, part. cbn [bsum_ val q0 counts tar0 nth negb when Z.eqb Pos.eqb INR]. rewrite E. assert (X : exp (- ln (2 * 2)) = / 4). { rewrite exp_Ropp, exp_ln by lra. lra. } rewrite X.
  unfold power. destruct (Req_EM_T 1 0); [lra|]. destruct (Req_EM_T (1 - / 4) 0); [lra|]. rewrite Rpower_1 by lra. rewrite ln_mult by lra. field.
Qed.
