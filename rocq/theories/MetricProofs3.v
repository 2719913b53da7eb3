(** Ignored pixels, and concrete cases. *)
From Coq Require Import List Arith Lia Bool Reals ZArith Lra.
From Verif Require Import TensorModel BigSum CCProofs QuadProofs TruncModel QuadModel LossModel LossSpec LossProofs MetricModel MetricSpec MetricProofs MetricProofs2.
Import ListNotations.
Local Open Scope R_scope.

Lemma predicts_exists : forall pred b n h w, (1 <= n)%nat -> exists o, predicts pred b n h w o.
Proof. intros. exists (fun i k j => argmax n (fun c => val pred [i; c; k; j])). intros i k j _ _ _. now apply argmax_best. Qed.

(** The two inputs agree at every pixel that counts. *)
Definition agree (ig : option Z) (b n h w : nat) (pred pred' : tensor R) (truth truth' : tensor Z) : Prop :=
  forall i k j, (i < b)%nat -> (k < h)%nat -> (j < w)%nat ->
    counts ig (val truth [i; k; j]) = counts ig (val truth' [i; k; j]) /\
    (counts ig (val truth [i; k; j]) = true -> val truth [i; k; j] = val truth' [i; k; j] /\ forall c, (c < n)%nat -> val pred [i; c; k; j] = val pred' [i; c; k; j]).
Definition agree_weights (ig : option Z) (b h w : nat) (truth : tensor Z) (q q' : tensor R) : Prop :=
  forall i k j, (i < b)%nat -> (k < h)%nat -> (j < w)%nat -> counts ig (val truth [i; k; j]) = true -> val q [k; j] = val q' [k; j].

Lemma best_ext : forall n x y p, (forall c, (c < n)%nat -> x c = y c) -> best_class n x p -> best_class n y p.
Proof.
  intros n x y p E (L & M & F). split; auto. split; intros c Hc. rewrite <- !E by auto. auto. rewrite <- !E by lia. auto.
Qed.
Lemma area_ext2 : forall h w q q' P Q, (forall k j, (k < h)%nat -> (j < w)%nat -> P k j = Q k j /\ (P k j = true -> val q [k; j] = val q' [k; j])) -> area_of h w q P = area_of h w q' Q.
Proof.
  intros h w q q' P Q H. unfold area_of. apply bsum_ext. intros k Hk. apply bsum_ext. intros j Hj. destruct (H k j Hk Hj) as [E V]. rewrite <- E. destruct (P k j); auto.
Qed.

Section Ignored.
Variable pred pred' q q' : tensor R.
Variable truth truth' : tensor Z.
Variable ig : option Z.
Variable b n h w : nat.
Hypothesis Sp : shp pred = [b; n; h; w].
Hypothesis St : shp truth = [b; h; w].
Hypothesis Sq : shp q = [h; w].
Hypothesis Sp' : shp pred' = [b; n; h; w].
Hypothesis St' : shp truth' = [b; h; w].
Hypothesis Sq' : shp q' = [h; w].
Hypothesis Hb : (1 <= b)%nat.
Hypothesis Hn : (1 <= n)%nat.
Hypothesis A : agree ig b n h w pred pred' truth truth'.
Hypothesis AW : agree_weights ig b h w truth q q'.
Lemma same_stats : exists s s', metric_stats q ig pred truth = Some (b, n, s) /\ metric_stats q' ig pred' truth' = Some (b, n, s') /\
  forall i c, (i < b)%nat -> tp s i c = tp s' i c /\ fp s i c = fp s' i c /\ fn s i c = fn s' i c /\ (whole h w q = whole h w q' -> tn s i c = tn s' i c).
Proof.
  destruct (predicts_exists pred b n h w Hn) as [o Ho]. destruct (predicts_exists pred' b n h w Hn) as [o' Ho'].
  destruct (metric_value pred q truth ig b n h w o Sp St Sq Hb Hn Ho) as (s & E & V). destruct (metric_value pred' q' truth' ig b n h w o' Sp' St' Sq' Hb Hn Ho') as (s' & E' & V').
  exists s, s'. split; auto. split; auto. intros i c Hi.
  assert (OO : forall k j, (k < h)%nat -> (j < w)%nat -> counts ig (val truth [i; k; j]) = true -> o i k j = o' i k j).
  { intros k j Hk Hj C. destruct (A i k j Hi Hk Hj) as [_ B]. destruct (B C) as [_ B']. eapply best_unique. apply Ho; auto. apply (best_ext n (fun c => val pred' [i; c; k; j])). intros; symmetry; auto. apply Ho'; auto. }
  assert (G : forall f g : Z -> Z -> bool, (forall x y, f x y = g x y) -> area_of h w q (fun k j => counts ig (val truth [i; k; j]) && f (val truth [i; k; j]) (Z.of_nat (o i k j))) =
     area_of h w q' (fun k j => counts ig (val truth' [i; k; j]) && g (val truth' [i; k; j]) (Z.of_nat (o' i k j)))).
  { intros f g FG. apply area_ext2. intros k j Hk Hj. destruct (A i k j Hi Hk Hj) as [B1 B2]. rewrite <- B1. destruct (counts ig (val truth [i; k; j])) eqn:C; cbn [andb]; split; auto; try discriminate.
    destruct (B2 eq_refl) as [-> _]. rewrite (OO k j Hk Hj C). apply FG. intros _. apply (AW i k j); auto. }
  destruct (V i c Hi) as (V1 & V2 & V3 & V4). destruct (V' i c Hi) as (W1 & W2 & W3 & W4).
  assert (Q1 : tp s i c = tp s' i c).
  { rewrite V1, W1. unfold both. rewrite (area_ext h w q _ (fun k j => counts ig (val truth [i; k; j]) && ((val truth [i; k; j] =? Z.of_nat c)%Z && (Z.of_nat (o i k j) =? Z.of_nat c)%Z))) by (intros; now rewrite andb_assoc).
    rewrite (area_ext h w q' _ (fun k j => counts ig (val truth' [i; k; j]) && ((val truth' [i; k; j] =? Z.of_nat c)%Z && (Z.of_nat (o' i k j) =? Z.of_nat c)%Z))) by (intros; now rewrite andb_assoc).
    apply (G (fun x y => (x =? Z.of_nat c)%Z && (y =? Z.of_nat c)%Z) (fun x y => (x =? Z.of_nat c)%Z && (y =? Z.of_nat c)%Z)). auto. }
  assert (Q2 : fp s i c = fp s' i c).
  { rewrite V2, W2. unfold only_pred. rewrite (area_ext h w q _ (fun k j => counts ig (val truth [i; k; j]) && (negb (val truth [i; k; j] =? Z.of_nat c)%Z && (Z.of_nat (o i k j) =? Z.of_nat c)%Z))) by (intros; now rewrite andb_assoc).
    rewrite (area_ext h w q' _ (fun k j => counts ig (val truth' [i; k; j]) && (negb (val truth' [i; k; j] =? Z.of_nat c)%Z && (Z.of_nat (o' i k j) =? Z.of_nat c)%Z))) by (intros; now rewrite andb_assoc).
    apply (G (fun x y => negb (x =? Z.of_nat c)%Z && (y =? Z.of_nat c)%Z) (fun x y => negb (x =? Z.of_nat c)%Z && (y =? Z.of_nat c)%Z)). auto. }
  assert (Q3 : fn s i c = fn s' i c).
  { rewrite V3, W3. unfold only_true. rewrite (area_ext h w q _ (fun k j => counts ig (val truth [i; k; j]) && ((val truth [i; k; j] =? Z.of_nat c)%Z && negb (Z.of_nat (o i k j) =? Z.of_nat c)%Z))) by (intros; now rewrite andb_assoc).
    rewrite (area_ext h w q' _ (fun k j => counts ig (val truth' [i; k; j]) && ((val truth' [i; k; j] =? Z.of_nat c)%Z && negb (Z.of_nat (o' i k j) =? Z.of_nat c)%Z))) by (intros; now rewrite andb_assoc).
    apply (G (fun x y => (x =? Z.of_nat c)%Z && negb (y =? Z.of_nat c)%Z) (fun x y => (x =? Z.of_nat c)%Z && negb (y =? Z.of_nat c)%Z)). auto. }
  repeat split; auto. intros HW. rewrite V4, W4.
  assert (F := four q truth ig h w o i (Z.of_nat c)). assert (F' := four q' truth' ig h w o' i (Z.of_nat c)). rewrite <- V1, <- V2, <- V3 in F. rewrite <- W1, <- W2, <- W3 in F'. lra.
Qed.
Lemma iou_ignored : forall wt md, iou_s2 q wt ig md pred truth = iou_s2 q' wt ig md pred' truth'.
Proof.
  intros wt md. destruct same_stats as (s & s' & E & E' & V). unfold iou_s2. rewrite E, E'. cbn [bindo]. destruct md; f_equal.
  - rewrite (micro_ext b n wt (tp s) (tp s')), (micro_ext b n wt (fp s) (fp s')), (micro_ext b n wt (fn s) (fn s')); auto; intros; now apply V.
  - apply macro_ext. intros c Hc. rewrite (reduce_macro_ext b (tp s) (tp s')), (reduce_macro_ext b (fp s) (fp s')), (reduce_macro_ext b (fn s) (fn s')); auto; intros; now apply V.
Qed.
Lemma acc_ignored : whole h w q = whole h w q' -> forall wt md, accuracy_s2 q wt ig md pred truth = accuracy_s2 q' wt ig md pred' truth'.
Proof.
  intros HW wt md. destruct same_stats as (s & s' & E & E' & V). unfold accuracy_s2. rewrite E, E'. cbn [bindo]. destruct md; f_equal.
  - rewrite (micro_ext b n wt (tp s) (tp s')), (micro_ext b n wt (fp s) (fp s')), (micro_ext b n wt (fn s) (fn s')), (micro_ext b n wt (tn s) (tn s')); auto; intros; now apply V.
  - apply macro_ext. intros c Hc. rewrite (reduce_macro_ext b (tp s) (tp s')), (reduce_macro_ext b (fp s) (fp s')), (reduce_macro_ext b (fn s) (fn s')), (reduce_macro_ext b (tn s) (tn s')); auto; intros; now apply V.
Qed.
End Ignored.

(** ** The weights of the constructor *)
Lemma metric_weights_value : forall gl nlat nlon g lat, precompute_latitudes gl nlat g = Some lat -> (2 <= nlat)%nat -> (1 <= nlon)%nat -> g <> GLobatto ->
  (g = GLegendreGauss -> forall i, (i < nlat)%nat -> 0 < rw (gl nlat) i) ->
  exists q, metric_weights gl nlat nlon g = Some q /\ shp q = [nlat; nlon] /\ whole nlat nlon q = 1 /\ forall k j, (k < nlat)%nat -> (j < nlon)%nat -> 0 < val q [k; j].
Proof.
  intros gl nlat nlon g lat El Hh Hw NL HG. assert (P := lat_weights_positive gl nlat g lat El Hh NL HG).
  assert (PT : 0 < rsum nlat (rw lat)). { destruct nlat; [lia|]. cbn [bsum_]. assert (0 <= rsum nlat (rw lat)) by (apply rsum_nonneg; intros; left; apply P; lia). specialize (P nlat ltac:(lia)). lra. }
  assert (Z : rsum nlat (rw lat) <> 0) by lra.
  destruct (weights_value gl nlat nlon g lat El Hw true true (fun _ => Z)) as (q & E & S & V) || destruct (weights_value gl nlat nlon g lat El true true (fun _ => Z)) as (q & E & S & V).
  exists q. split; auto. split; auto. split.
  - unfold whole, area_of. rewrite <- (area_total nlat nlon lat Hw Z) || rewrite <- (area_total gl nlat nlon g lat El Hw Z). apply bsum_ext. intros k Hk. apply bsum_ext. intros j Hj. apply V.
  - intros k j Hk Hj. rewrite V. unfold area. apply Rmult_lt_0_compat. now apply P. apply Rinv_0_lt_compat. apply Rmult_lt_0_compat; auto. now apply INR_pos.
Qed.

(** ** Two-pixel cases *)
Definition ex_pred (n : nat) (f : nat -> nat) : tensor R :=
  mkT [1; n; 1; 2]%nat (fun i => if (nth 1 i 0 =? f (nth 3 i 0))%nat then 1 else 0).
Definition ex_truth (t : nat -> Z) : tensor Z := mkT [1; 1; 2]%nat (fun i => t (nth 2 i 0%nat)).
Definition ex_q (r : R) : tensor R := mkT [1; 2]%nat (fun i => if (nth 1 i 0 =? 0)%nat then 1 else r).
Lemma ex_predicts : forall n f, (forall j, (j < 2)%nat -> (f j < n)%nat) -> predicts (ex_pred n f) 1 n 1 2 (fun _ _ j => f j).
Proof.
  intros n f H i k j Hi Hk Hj. split; auto. cbn [ex_pred val nth]. rewrite Nat.eqb_refl. split; intros c Hc; destruct (Nat.eqb_spec c (f j)); try lra; lia.
Qed.
Lemma ex_whole : forall r, whole 1 2 (ex_q r) = 1 + r. Proof. intros. unfold whole, area_of, ex_q. cbn [bsum_ val nth Nat.eqb]. ring. Qed.
Lemma ex_wrong : forall r ig t f, wrong_area (ex_q r) ig (ex_truth t) (fun _ _ j => f j) 1 1 2 =
  (if counts ig (t 0%nat) && negb (t 0%nat =? Z.of_nat (f 0%nat))%Z then 1 else 0) + (if counts ig (t 1%nat) && negb (t 1%nat =? Z.of_nat (f 1%nat))%Z then r else 0).
Proof. intros. unfold wrong_area, wrong, area_of, ex_q, ex_truth. cbn [bsum_ val nth Nat.eqb]. ring. Qed.
Lemma ex_labelled : forall n ig t, (forall j, (j < 2)%nat -> counts ig (t j) = true -> (0 <= t j < Z.of_nat n)%Z) -> labelled (ex_truth t) ig 1 n 1 2.
Proof. intros n ig t H i k j Hi Hk Hj C. apply H; auto. Qed.
Lemma acc_example : forall n r ig t f, (1 <= n)%nat -> (forall j, (j < 2)%nat -> (f j < n)%nat) -> (forall j, (j < 2)%nat -> counts ig (t j) = true -> (0 <= t j < Z.of_nat n)%Z) -> 0 < r ->
  accuracy_s2 (ex_q r) None ig Micro (ex_pred n f) (ex_truth t) = Some (Num (1 - 2 * wrong_area (ex_q r) ig (ex_truth t) (fun _ _ j => f j) 1 1 2 / (INR n * (1 + r)))).
Proof.
  intros n r ig t f Hn Hf Ht Hr. rewrite (acc_micro (ex_pred n f) (ex_q r) (ex_truth t) ig 1 n 1 2 (fun _ _ j => f j)); auto.
  - rewrite ex_whole. change (INR 1) with 1. now rewrite Rmult_1_l.
  - now apply ex_predicts.
  - now apply ex_labelled.
  - rewrite ex_whole. lra.
Qed.
Lemma accuracy_area : accuracy_s2 (ex_q 1) None (Some 9%Z) Micro (ex_pred 2 (fun _ => 1%nat)) (ex_truth (fun j => if (j =? 0)%nat then 0 else 9)%Z) = Some (Num (1 / 2)) /\
  accuracy_s2 (ex_q 2) None (Some 9%Z) Micro (ex_pred 2 (fun _ => 1%nat)) (ex_truth (fun j => if (j =? 0)%nat then 0 else 9)%Z) = Some (Num (2 / 3)).
Proof.
  assert (C : forall j, (j < 2)%nat -> counts (Some 9%Z) (if (j =? 0)%nat then 0%Z else 9%Z) = true -> (0 <= (if (j =? 0)%nat then 0 else 9) < Z.of_nat 2)%Z).
  { intros j Hj. destruct j as [|[|]]; cbn; try lia; discriminate. }
  split; rewrite acc_example; try lra; auto; do 2 f_equal; rewrite ex_wrong; cbn [counts Nat.eqb Z.eqb negb andb Z.of_nat]; cbn; field.
Qed.
Lemma all_wrong : forall n, (2 <= n)%nat -> accuracy_s2 (ex_q 1) None None Micro (ex_pred n (fun _ => 1%nat)) (ex_truth (fun _ => 0%Z)) = Some (Num (1 - 2 / INR n)).
Proof.
  intros n Hn. rewrite acc_example; try lra; try lia.
  - do 2 f_equal. rewrite ex_wrong. cbn [counts Z.eqb negb andb Z.of_nat]. cbn [Pos.of_succ_nat]. cbn [negb]. assert (P := INR_pos n ltac:(lia)). field. lra.
Qed.
Lemma absent_class : iou_s2 (ex_q 1) None None Macro (ex_pred 2 (fun _ => 0%nat)) (ex_truth (fun _ => 0%Z)) = Some (Num (1 / 2)).
Proof.
  rewrite (macro_perfect (ex_pred 2 (fun _ => 0%nat)) (ex_q 1) (ex_truth (fun _ => 0%Z)) None 1 2 1 2 (fun _ _ _ => 0%nat)); auto.
  - do 2 f_equal. unfold both, area_of, ex_q, ex_truth. cbn [bsum_ val nth Nat.eqb counts Z.of_nat Z.eqb andb Pos.of_succ_nat INR].
    destruct (Req_EM_T _ 0); [exfalso; lra|]. destruct (Req_EM_T _ 0) as [|N]; [field|exfalso; apply N; ring].
  - apply (ex_predicts 2 (fun _ => 0%nat)). auto.
Qed.
