From Coq Require Import List Arith Lia Bool Reals ZArith Lra.
From Verif Require Import TensorModel TensorProofs BigSum TruncModel QuadModel CCProofs QuadProofs QuadPropProofs LossModel LossSpec LossProofs MetricModel MetricSpec MetricProofs SegLossModel SegLossSpec SegLossProofs.
Import ListNotations.
Local Open Scope R_scope.

Lemma class_sum_over : forall n weight x, class_sum n weight x = over_classes n weight x.
Proof. intros n [wt|] x; cbn; auto. apply bsum_ext. intros. ring. Qed.
Lemma over_ext : forall n weight x y, (forall c, (c < n)%nat -> x c = y c) -> over_classes n weight x = over_classes n weight y.
Proof. intros n [wt|] x y H; cbn [over_classes]. apply bsum_ext. intros. now rewrite H. f_equal. now apply bsum_ext. Qed.
Lemma valid1 : forall b i, valid [b] i -> exists a, i = [a] /\ (a < b)%nat.
Proof. intros b i V. pose proof (valid_len _ _ V) as L. destruct i as [|a [|]]; try discriminate. apply valid_cons in V. exists a. tauto. Qed.
Lemma valid2 : forall b n i, valid [b; n] i -> exists a c, i = [a; c] /\ (a < b)%nat /\ (c < n)%nat.
Proof. intros b n i V. pose proof (valid_len _ _ V) as L. destruct i as [|a [|c [|]]]; try discriminate. apply valid_cons in V. destruct V as [V1 V]. apply valid_cons in V. exists a, c. tauto. Qed.
Lemma valid3 : forall b h w i, valid [b; h; w] i -> exists a k j, i = [a; k; j] /\ (a < b)%nat /\ (k < h)%nat /\ (j < w)%nat.
Proof.
  intros b h w i V. pose proof (valid_len _ _ V) as L. destruct i as [|a [|k [|j [|]]]]; try discriminate. apply valid_cons in V. destruct V as [V1 V]. apply valid_cons in V. destruct V as [V2 V]. apply valid_cons in V. exists a, k, j. tauto.
Qed.
Lemma tdiv_value : forall s x y, (forall i, valid s i -> y i <> 0) -> exists d, tdiv (mkT s x) (mkT s y) = Some d /\ shp d = s /\ forall i, valid s i -> val d i = x i / y i.
Proof.
  intros s x y H. unfold tdiv. rewrite (proj2 (forallb_forall _ _)).
  - unfold bmap2. cbn [shp]. rewrite bshape_refl. cbn [bindo]. eexists. split; [reflexivity|]. split; [reflexivity|]. intros i V. cbn [val shp]. now rewrite bidx_valid.
  - intros i Hi. cbn [shp] in Hi. apply in_indices in Hi. cbn [val]. destruct (Req_EM_T (y i) 0); auto. exfalso. now apply (H i).
Qed.
Lemma tdiv_none : forall s x y i, valid s i -> y i = 0 -> tdiv (mkT s x) (mkT s y) = None.
Proof.
  intros s x y i V E. unfold tdiv. destruct (forallb _ _) eqn:F; auto. exfalso. rewrite forallb_forall in F. specialize (F i). cbn [shp val] in F. rewrite E in F. destruct (Req_EM_T 0 0); [|lra]. discriminate F. now apply in_indices.
Qed.

Section Dice.
Variables (q prd : tensor R) (tar : tensor Z) (b n h w : nat) (weight : option (nat -> R)) (smooth : R) (ig : option Z) (P : nat -> nat -> nat -> nat -> R).
Hypotheses (Sp : shp prd = [b; n; h; w]) (St : shp tar = [b; h; w]) (Sq : shp q = [h; 1%nat]) (Hb : (1 <= b)%nat) (Hn : (1 <= n)%nat).
Hypotheses (HP : class_probs prd b n h w P) (HL : labelled tar ig b n h w).
Notation T i := (fun k j => val tar [i%nat; k; j]).
Definition uni (i c : nat) : R := predicted q h w ig (P i) (T i) c + labelled_area q h w ig (T i) c + when (c =? 0)%nat (ignored_part q h w ig (T i)).
Notation both i c := (overlap q h w ig (P i) (T i) c).
Let mask i k j := match ig with None => 1%Z | Some z => if (val tar [i; k; j] =? z)%Z then 0%Z else 1%Z end.
Lemma mask_counts : forall i k j, mask i k j = if counts ig (val tar [i; k; j]) then 1%Z else 0%Z.
Proof. clear HL. intros. unfold mask, counts. destruct ig; auto. destruct (_ =? _)%Z; auto. Qed.
Lemma hot_ok : one_hot_ok [b; h; w] n (fun i => (val tar [nth 0 i 0%nat; nth 1 i 0%nat; nth 2 i 0%nat] * mask (nth 0 i 0%nat) (nth 1 i 0%nat) (nth 2 i 0%nat))%Z) = true.
Proof.
  unfold one_hot_ok. apply forallb_forall. intros i Hi. apply in_indices in Hi. destruct (valid3 _ _ _ _ Hi) as (a & k & j & -> & Ha & Hk & Hj). cbn [nth]. rewrite mask_counts.
  destruct (counts ig (val tar [a; k; j])) eqn:C. pose proof (HL a k j Ha Hk Hj C). rewrite Z.mul_1_r. apply andb_true_intro. split; [apply Z.leb_le|apply Z.ltb_lt]; lia.
  rewrite Z.mul_0_r. apply andb_true_intro. split; [apply Z.leb_le|apply Z.ltb_lt]; lia.
Qed.
Lemma hot_bad : ~ labelled tar ig b n h w -> one_hot_ok [b; h; w] n (fun i => (val tar [nth 0 i 0%nat; nth 1 i 0%nat; nth 2 i 0%nat] * mask (nth 0 i 0%nat) (nth 1 i 0%nat) (nth 2 i 0%nat))%Z) = false.
Proof.
  clear HL. intros N. destruct (one_hot_ok _ _ _) eqn:E; auto. exfalso. apply N. intros i k j Hi Hk Hj C. unfold one_hot_ok in E. rewrite forallb_forall in E. specialize (E [i; k; j]). cbn [nth] in E. rewrite mask_counts, C, Z.mul_1_r in E.
  assert (I : In [i; k; j] (indices [b; h; w])). { apply in_indices. repeat (apply valid_cons; split; auto). apply valid_nil. } specialize (E I). apply andb_prop in E. destruct E as [E1 E2]. apply Z.leb_le in E1. apply Z.ltb_lt in E2. lia.
Qed.
Let p i c k j := softmax n (pixel prd i k j) c * IZR (mask i k j).
Let hot i c k j := if (val tar [i; k; j] * mask i k j =? Z.of_nat c)%Z then 1 else 0.
Lemma p_value : forall i c k j, (i < b)%nat -> (k < h)%nat -> (j < w)%nat -> (c < n)%nat -> p i c k j = when (counts ig (val tar [i; k; j])) (P i k j c).
Proof.
  intros i c k j Hi Hk Hj Hc. unfold p. rewrite mask_counts. unfold pixel. rewrite (probs_softmax n _ (P i k j)); auto. unfold when. destruct (counts _ _); ring.
Qed.
Lemma hot_value : forall i c k j, hot i c k j = when (counts ig (val tar [i; k; j]) && (val tar [i; k; j] =? Z.of_nat c)%Z) 1 + when (negb (counts ig (val tar [i; k; j])) && (c =? 0)%nat) 1.
Proof.
  intros i c k j. unfold hot. rewrite mask_counts. destruct (counts _ _); cbn [negb andb when]. rewrite Z.mul_1_r. unfold when. destruct (_ =? _)%Z; ring.
  rewrite Z.mul_0_r. destruct c; cbn [Z.of_nat Nat.eqb when Z.eqb]; ring.
Qed.
Lemma inter_value : forall i c, (i < b)%nat -> (c < n)%nat -> rsum h (fun k => rsum w (fun j => p i c k j * hot i c k j * val q [k; 0]%nat)) = both i c.
Proof.
  intros i c Hi Hc. unfold overlap, part. apply bsum_ext. intros k Hk. apply bsum_ext. intros j Hj. rewrite p_value, hot_value by auto. destruct (counts _ _), (_ =? _)%Z; cbn [when andb negb]; ring.
Qed.
Lemma union_value : forall i c, (i < b)%nat -> (c < n)%nat -> rsum h (fun k => rsum w (fun j => (p i c k j + hot i c k j) * val q [k; 0]%nat)) = uni i c.
Proof.
  intros i c Hi Hc. unfold uni, predicted, labelled_area, ignored_part. replace (when (c =? 0)%nat (part q h w (fun k j => when (negb (counts ig (val tar [i; k; j]))) 1))) with (part q h w (fun k j => when (negb (counts ig (val tar [i; k; j])) && (c =? 0)%nat) 1)).
  - rewrite <- !part_plus. unfold part. apply bsum_ext. intros k Hk. apply bsum_ext. intros j Hj. rewrite p_value, hot_value by auto. ring.
  - destruct (c =? 0)%nat; cbn [when]. apply part_ext. intros. now rewrite andb_true_r. rewrite <- (part_zero q h w). apply part_ext. intros. now rewrite andb_false_r.
Qed.
Lemma dice_micro : (forall i, (i < b)%nat -> over_classes n weight (uni i) + smooth <> 0) ->
  dice_loss q weight smooth ig DMicro prd tar = Some (1 - batch_mean b (fun i => dice_score smooth (over_classes n weight (fun c => both i c)) (over_classes n weight (uni i)))).
Proof.
  intros ND. unfold dice_loss. rewrite (seg_shapes_value _ _ _ b n h w) by auto. cbn [bindo]. match goal with |- context [guard (one_hot_ok ?s ?m ?f)] => change (one_hot_ok s m f) with (one_hot_ok [b; h; w] n (fun i => (val tar [nth 0 i 0%nat; nth 1 i 0%nat; nth 2 i 0%nat] * mask (nth 0 i 0%nat) (nth 1 i 0%nat) (nth 2 i 0%nat))%Z)) end. rewrite hot_ok. cbn [guard bindo].
  match goal with |- context [tdiv (mkT [b] ?x) (mkT [b] ?y)] => change x with (fun i : list nat => 2 * class_sum n weight (fun c => rsum h (fun k => rsum w (fun j => p (nth 0 i 0%nat) c k j * hot (nth 0 i 0%nat) c k j * val q [k; 0]%nat))) + smooth); change y with (fun i : list nat => class_sum n weight (fun c => rsum h (fun k => rsum w (fun j => (p (nth 0 i 0%nat) c k j + hot (nth 0 i 0%nat) c k j) * val q [k; 0]%nat))) + smooth) end.
  assert (I : forall i, (i < b)%nat -> class_sum n weight (fun c => rsum h (fun k => rsum w (fun j => p i c k j * hot i c k j * val q [k; 0]%nat))) = over_classes n weight (fun c => both i c)).
  { intros i Hi. rewrite class_sum_over. apply over_ext. intros. now apply inter_value. }
  assert (U : forall i, (i < b)%nat -> class_sum n weight (fun c => rsum h (fun k => rsum w (fun j => (p i c k j + hot i c k j) * val q [k; 0]%nat))) = over_classes n weight (uni i)).
  { intros i Hi. rewrite class_sum_over. apply over_ext. intros. now apply union_value. }
  match goal with |- context [tdiv (mkT [b] ?x) (mkT [b] ?y)] => destruct (tdiv_value [b] x y) as (d & E & Sd & Vd) end.
  { intros i V. destruct (valid1 _ _ V) as (a & -> & Ha). cbn [nth]. rewrite (U a Ha). now apply ND. }
  rewrite E. cbn [bindo]. rewrite mean_value by (rewrite Sd; cbn; lia). cbn [bindo]. f_equal. f_equal. unfold average. rewrite Sd. cbn [count total]. rewrite Nat.mul_1_r. unfold batch_mean. f_equal. apply bsum_ext. intros i Hi.
  rewrite Vd. cbn [nth]. unfold dice_score. now rewrite (I i Hi), (U i Hi). apply valid_cons. split; auto. apply valid_nil.
Qed.
Lemma dice_macro : forall md, md <> DMicro -> (forall i c, (i < b)%nat -> (c < n)%nat -> uni i c + smooth <> 0) ->
  dice_loss q weight smooth ig md prd tar = Some (1 - batch_mean b (fun i => over_classes n (match md with DMacro => weight | _ => None end) (fun c => dice_score smooth (both i c) (uni i c)))).
Proof.
  intros md Hmd ND. unfold dice_loss. rewrite (seg_shapes_value _ _ _ b n h w) by auto. cbn [bindo]. match goal with |- context [guard (one_hot_ok ?s ?m ?f)] => change (one_hot_ok s m f) with (one_hot_ok [b; h; w] n (fun i => (val tar [nth 0 i 0%nat; nth 1 i 0%nat; nth 2 i 0%nat] * mask (nth 0 i 0%nat) (nth 1 i 0%nat) (nth 2 i 0%nat))%Z)) end. rewrite hot_ok. cbn [guard bindo].
  match goal with |- context [tdiv (mkT [b; n] ?x) (mkT [b; n] ?y)] => change x with (fun i : list nat => 2 * (fun c => rsum h (fun k => rsum w (fun j => p (nth 0 i 0%nat) c k j * hot (nth 0 i 0%nat) c k j * val q [k; 0]%nat))) (nth 1 i 0%nat) + smooth); change y with (fun i : list nat => (fun c => rsum h (fun k => rsum w (fun j => (p (nth 0 i 0%nat) c k j + hot (nth 0 i 0%nat) c k j) * val q [k; 0]%nat))) (nth 1 i 0%nat) + smooth) end.
  match goal with |- context [tdiv (mkT [b; n] ?x) (mkT [b; n] ?y)] => destruct (tdiv_value [b; n] x y) as (d & E & Sd & Vd) end.
  { intros i V. destruct (valid2 _ _ _ V) as (a & c & -> & Ha & Hc). cbn [nth]. rewrite (union_value a c Ha Hc). now apply ND. }
  assert (V : forall i c, (i < b)%nat -> (c < n)%nat -> val d [i; c] = dice_score smooth (both i c) (uni i c)).
  { intros i c Hi Hc. rewrite Vd. cbn [nth]. unfold dice_score. now rewrite (inter_value i c Hi Hc), (union_value i c Hi Hc). apply valid_cons. split; auto. apply valid_cons. split; auto. apply valid_nil. }
  clear Vd. pose proof (INR_pos b Hb). pose proof (INR_pos n Hn). destruct md; [congruence| |]; rewrite E; cbn [bindo].
  - rewrite mean_value by (cbn; lia). cbn [bindo]. f_equal. f_equal. unfold average. cbn [shp count total val]. rewrite Nat.mul_1_r. unfold batch_mean. f_equal. apply bsum_ext. intros i Hi. cbn [nth]. rewrite class_sum_over. apply over_ext. auto.
  - rewrite mean_value by (rewrite Sd; cbn; nia). cbn [bindo]. f_equal. f_equal. unfold average. rewrite Sd. cbn [count total]. rewrite Nat.mul_1_r. unfold batch_mean. rewrite mult_INR. unfold over_classes.
    rewrite (bsum_ext b (fun i => rsum n (fun c => dice_score smooth (both i c) (uni i c)) / INR n) (fun i => / INR n * rsum n (fun c => val d [i; c]))).
    rewrite (bsum_scal_l RT). field. split; lra. intros i Hi. unfold Rdiv. rewrite Rmult_comm. f_equal. apply bsum_ext. intros c Hc. symmetry. auto.
Qed.
(** sums over the classes *)
Lemma when_range : forall c x, 0 <= x -> 0 <= when c x <= x. Proof. intros [] x H; cbn; lra. Qed.
Lemma overlap_sum : forall i, (i < b)%nat -> rsum n (fun c => both i c) = hit q h w ig (P i) (T i).
Proof.
  intros i Hi. unfold overlap, hit. rewrite part_sum. apply part_ext. intros k j Hk Hj. destruct (counts ig (val tar [i; k; j])) eqn:C; cbn [andb when].
  - pose proof (HL i k j Hi Hk Hj C) as R. rewrite (bsum_ext n _ (fun c => if (c =? Z.to_nat (val tar [i; k; j]))%nat then P i k j c else 0)).
    apply (bsum_delta_f RT). lia. intros c Hc. unfold when. destruct (Z.eqb_spec (val tar [i; k; j]) (Z.of_nat c)), (Nat.eqb_spec c (Z.to_nat (val tar [i; k; j]))); auto; lia.
  - apply (bsum_zero RT).
Qed.
Lemma predicted_sum : forall i, (i < b)%nat -> rsum n (fun c => predicted q h w ig (P i) (T i) c) = counted_area q h w ig (T i).
Proof.
  intros i Hi. unfold predicted, counted_area. rewrite part_sum. apply part_ext. intros k j Hk Hj. destruct (counts ig (val tar [i; k; j])); cbn [when]. apply (HP i k j Hi Hk Hj). apply (bsum_zero RT).
Qed.
Lemma labelled_sum : forall i, (i < b)%nat -> rsum n (fun c => labelled_area q h w ig (T i) c) = counted_area q h w ig (T i).
Proof.
  intros i Hi. unfold labelled_area, counted_area. rewrite part_sum. apply part_ext. intros k j Hk Hj. destruct (counts ig (val tar [i; k; j])) eqn:C; cbn [andb when].
  - pose proof (HL i k j Hi Hk Hj C) as R. rewrite (bsum_ext n _ (fun c => if (c =? Z.to_nat (val tar [i; k; j]))%nat then 1 else 0)).
    apply (bsum_delta_f RT n _ (fun _ => 1)). lia. intros c Hc. unfold when. destruct (Z.eqb_spec (val tar [i; k; j]) (Z.of_nat c)), (Nat.eqb_spec c (Z.to_nat (val tar [i; k; j]))); auto; lia.
  - apply (bsum_zero RT).
Qed.
Lemma union_sum : forall i, (i < b)%nat -> rsum n (uni i) = 2 * counted_area q h w ig (T i) + ignored_part q h w ig (T i).
Proof.
  intros i Hi. unfold uni. rewrite (bsum_plus RT), (bsum_plus RT), predicted_sum, labelled_sum by auto.
  rewrite (bsum_ext n (fun c => when (c =? 0)%nat (ignored_part q h w ig (T i))) (fun c => if (c =? 0)%nat then ignored_part q h w ig (T i) else 0)) by reflexivity.
  rewrite (bsum_delta_f RT n 0 (fun _ => ignored_part q h w ig (T i))) by lia. ring.
Qed.
Lemma parts_total : forall i, counted_area q h w ig (T i) + ignored_part q h w ig (T i) = part q h w (fun _ _ => 1).
Proof. intros i. unfold counted_area, ignored_part. rewrite <- part_plus. apply part_ext. intros. destruct (counts _ _); cbn; ring. Qed.
Section Pos.
Hypothesis Hq : forall k, (k < h)%nat -> 0 < val q [k; 0]%nat.
Let Hq0 : forall k, (k < h)%nat -> 0 <= val q [k; 0]%nat. Proof. intros; now apply Rlt_le, Hq. Qed.
Lemma both_bounds : forall i c, (i < b)%nat -> (c < n)%nat -> 0 <= both i c /\ both i c <= predicted q h w ig (P i) (T i) c /\ both i c <= labelled_area q h w ig (T i) c.
Proof.
  intros i c Hi Hc. assert (B : forall k j, (k < h)%nat -> (j < w)%nat -> 0 < P i k j c <= 1). { intros k j Hk Hj. apply (probs_le1 n _ _ (HP i k j Hi Hk Hj) c Hc). }
  unfold overlap, predicted, labelled_area. repeat split; [apply part_nonneg|apply part_le|apply part_le]; auto; intros k j Hk Hj; specialize (B k j Hk Hj); destruct (counts _ _), (_ =? _)%Z; cbn; lra.
Qed.
Lemma ignored_nonneg : forall i, 0 <= ignored_part q h w ig (T i).
Proof. intros. apply part_nonneg; auto. intros. apply when_range. lra. Qed.
Lemma uni_bounds : forall i c, (i < b)%nat -> (c < n)%nat -> 2 * both i c <= uni i c.
Proof. intros i c Hi Hc. unfold uni. destruct (both_bounds i c Hi Hc) as (_ & B1 & B2). pose proof (when_range (c =? 0)%nat _ (ignored_nonneg i)). lra. Qed.
Lemma score_range : forall s x y, 0 <= s -> 0 <= x -> 2 * x <= y -> y + s <> 0 -> 0 <= dice_score s x y <= 1.
Proof.
  intros s x y Hs Hx Hy N. unfold dice_score. assert (0 < y + s) by lra. assert (0 < / (y + s)) by now apply Rinv_0_lt_compat. unfold Rdiv. split. apply Rmult_le_pos; lra. apply Rmult_le_reg_r with (y + s); auto. rewrite Rmult_assoc, Rinv_l by lra. lra.
Qed.
Lemma over_bounds : (forall c, (c < n)%nat -> 0 <= weight_of weight c) -> forall i, (i < b)%nat -> 0 <= over_classes n weight (fun c => both i c) /\ 2 * over_classes n weight (fun c => both i c) <= over_classes n weight (uni i).
Proof.
  intros HW i Hi. pose proof (INR_pos n Hn). assert (0 < / INR n) by now apply Rinv_0_lt_compat. unfold over_classes. destruct weight as [wt|]; cbn [weight_of] in HW.
  - split. apply rsum_nonneg. intros c Hc. apply Rmult_le_pos; auto. now apply both_bounds. rewrite <- (bsum_scal_l RT). apply rsum_le. intros c Hc. pose proof (uni_bounds i c Hi Hc). pose proof (HW c Hc). replace (2 * (wt c * both i c)) with (wt c * (2 * both i c)) by ring. now apply Rmult_le_compat_l.
  - split. unfold Rdiv. apply Rmult_le_pos; [|lra]. apply rsum_nonneg. intros. now apply both_bounds. unfold Rdiv. rewrite <- Rmult_assoc. apply Rmult_le_compat_r. lra. rewrite <- (bsum_scal_l RT). apply rsum_le. intros. now apply uni_bounds.
Qed.
(** what no prediction can avoid *)
Lemma uni_pos : forall i c, (i < b)%nat -> (c < n)%nat -> (exists k j, (k < h)%nat /\ (j < w)%nat /\ counts ig (val tar [i; k; j]) = true) -> 0 < uni i c.
Proof.
  intros i c Hi Hc (k & j & Hk & Hj & C). pose proof (ignored_nonneg i). pose proof (when_range (c =? 0)%nat _ H). unfold uni.
  assert (L : 0 <= labelled_area q h w ig (T i) c). { apply part_nonneg; auto. intros. apply when_range. lra. }
  assert (PN : forall k j, (k < h)%nat -> (j < w)%nat -> 0 <= when (counts ig (val tar [i; k; j])) (P i k j c)). { intros k' j' Hk' Hj'. apply when_range. left. apply (HP i k' j' Hi Hk' Hj'). auto. }
  assert (0 < predicted q h w ig (P i) (T i) c). { destruct (part_nonneg q h w _ Hq0 PN) as [G|G]; [exact G|]. exfalso. pose proof (part_zero_iff q h w _ Hq PN (eq_sym G) k j Hk Hj) as Z. cbv beta in Z. rewrite C in Z. cbn [when] in Z. pose proof (proj1 (HP i k j Hi Hk Hj) c Hc). lra. }
  lra.
Qed.
End Pos.
End Dice.
