(** The scores. *)
From Coq Require Import List Arith Lia Bool Reals ZArith Lra.
From Verif Require Import TensorModel BigSum CCProofs QuadProofs TruncModel QuadModel LossModel LossSpec LossProofs MetricModel MetricSpec MetricProofs.
Import ListNotations.
Local Open Scope R_scope.

Lemma fdiv_scale : forall x y d, d <> 0 -> fdiv (x / d) (y / d) = fdiv x y.
Proof.
  intros x y d D. unfold fdiv. destruct (Req_EM_T y 0) as [->|Y].
  - replace (0 / d) with 0 by (field; auto). destruct (Req_EM_T 0 0); [|congruence]. destruct (Req_EM_T x 0) as [->|X]. replace (0 / d) with 0 by (field; auto). destruct (Req_EM_T 0 0); congruence.
    destruct (Req_EM_T (x / d) 0) as [Q|Q]; auto. exfalso. apply X. replace x with (x / d * d) by (field; auto). rewrite Q. ring.
  - destruct (Req_EM_T (y / d) 0) as [Q|Q]. exfalso. apply Y. replace y with (y / d * d) by (field; auto). rewrite Q. ring. f_equal. field. auto.
Qed.
Lemma fdiv_num : forall x y, y <> 0 -> fdiv x y = Num (x / y). Proof. intros. unfold fdiv. destruct (Req_EM_T y 0); congruence. Qed.
Lemma fdiv_nan : fdiv 0 0 = NaN. Proof. unfold fdiv. destruct (Req_EM_T 0 0); congruence. Qed.
Lemma mapM_some : forall A B (f : A -> option B) l, (forall a, In a l -> exists b, f a = Some b) -> exists r, mapM f l = Some r.
Proof.
  intros A B f l. induction l as [|a l IH]; intros H. exists []. reflexivity. cbn [mapM]. destruct (H a (or_introl eq_refl)) as [b E]. rewrite E. cbn [bindo].
  destruct IH as [r R]. intros. apply H. now right. rewrite R. cbn [bindo]. eauto.
Qed.
Definition score0 (x : quot) : R := match x with Num r => r | _ => 0 end.
Lemma macro_value : forall n wt s, (forall c, (c < n)%nat -> s c <> Inf) ->
  macro_average n wt s = Num (match wt with Some v => rsum n (fun c => score0 (s c) * v c) | None => rsum n (fun c => score0 (s c)) / INR n end).
Proof.
  intros n wt s H. unfold macro_average.
  destruct (mapM_some nat R (fun c => match s c with Num r => Some r | NaN => Some 0 | Inf => None end) (seq 0 n)) as [l ->].
  { intros a Ha. apply in_seq in Ha. specialize (H a ltac:(lia)). destruct (s a); eauto. congruence. }
  f_equal. assert (E : forall c, match match s c with Num r => Some r | NaN => Some 0 | Inf => None end with Some r => r | None => 0 end = score0 (s c)) by (intros c; destruct (s c); reflexivity).
  destruct wt as [v|]; [|f_equal]; apply bsum_ext; intros c _; now rewrite E.
Qed.
Lemma macro_ext : forall n wt s s', (forall c, (c < n)%nat -> s c = s' c) -> macro_average n wt s = macro_average n wt s'.
Proof.
  intros n wt s s' H. unfold macro_average. cbv zeta.
  assert (E : mapM (fun c => match s c with Num r => Some r | NaN => Some 0 | Inf => None end) (seq 0 n) = mapM (fun c => match s' c with Num r => Some r | NaN => Some 0 | Inf => None end) (seq 0 n)).
  { assert (G : forall l, (forall a, In a l -> (a < n)%nat) -> mapM (fun c => match s c with Num r => Some r | NaN => Some 0 | Inf => None end) l = mapM (fun c => match s' c with Num r => Some r | NaN => Some 0 | Inf => None end) l).
    { induction l as [|a l IH]; intros HL; auto. cbn [mapM]. rewrite (H a) by (apply HL; now left). destruct (match s' a with Num r => Some r | NaN => Some 0 | Inf => None end); cbn [bindo]; auto. rewrite IH; auto. intros. apply HL. now right. }
    apply G. intros a Ha. apply in_seq in Ha. lia. }
  rewrite E. destruct (mapM (fun c => match s' c with Num r => Some r | NaN => Some 0 | Inf => None end) (seq 0 n)); [|reflexivity]. f_equal. destruct wt as [v|]; [|f_equal]; apply bsum_ext; intros c Hc; now rewrite (H c Hc).
Qed.
Lemma micro_ext : forall b n wt x y, (forall i c, (i < b)%nat -> (c < n)%nat -> x i c = y i c) -> reduce_micro b n wt x = reduce_micro b n wt y.
Proof. intros. unfold reduce_micro. destruct wt; [|f_equal]; apply bsum_ext; intros; apply bsum_ext; intros; now rewrite H. Qed.
Lemma reduce_macro_ext : forall b x y c, (forall i, (i < b)%nat -> x i c = y i c) -> reduce_macro b x c = reduce_macro b y c.
Proof. intros. unfold reduce_macro. f_equal. apply bsum_ext; auto. Qed.

Section Metric.
Variable pred q : tensor R.
Variable truth : tensor Z.
Variable ig : option Z.
Variable b n h w : nat.
Variable o : nat -> nat -> nat -> nat.
Hypothesis Sp : shp pred = [b; n; h; w].
Hypothesis St : shp truth = [b; h; w].
Hypothesis Sq : shp q = [h; w].
Hypothesis Hb : (1 <= b)%nat.
Hypothesis Hn : (1 <= n)%nat.
Hypothesis Ho : predicts pred b n h w o.
Notation O i := (fun k j => Z.of_nat (o i k j)).
Notation T i := (fun k j => val truth [i; k; j]).

Lemma metric_value : exists s, metric_stats q ig pred truth = Some (b, n, s) /\ forall i c, (i < b)%nat ->
  tp s i c = both h w q ig (O i) (T i) (Z.of_nat c) /\ fp s i c = only_pred h w q ig (O i) (T i) (Z.of_nat c) /\
  fn s i c = only_true h w q ig (O i) (T i) (Z.of_nat c) /\ tn s i c = neither h w q ig (O i) (T i) (Z.of_nat c) + ignored h w q ig (T i).
Proof.
  unfold metric_stats. rewrite Sp. destruct (predict_value pred b n h w Sp Hn) as (out & E & So & V). rewrite E. cbn [bindo].
  destruct (stats_value out truth q ig b h w So St Sq) as (s & Es & Vs). rewrite Es. cbn [bindo]. destruct (Nat.leb_spec 1 b); [|lia]. cbn [guard bindo].
  exists s. split; auto. intros i c Hi. destruct (Vs i c) as (A & B & C & D).
  assert (Q : forall k j, (k < h)%nat -> (j < w)%nat -> slab out i k j = Z.of_nat (o i k j)).
  { intros k j Hk Hj. destruct (V i k j) as (p & Ep & Bp). unfold slab. rewrite Ep. f_equal. eapply best_unique. exact Bp. apply Ho; auto. }
  rewrite A, B, C, D. unfold both, only_pred, only_true, neither. repeat split; try (apply area_ext; intros; rewrite Q by auto; reflexivity).
  f_equal. apply area_ext; intros; rewrite Q by auto; reflexivity.
Qed.

Definition sums (s : stats) := forall i c, (i < b)%nat ->
  tp s i c = both h w q ig (O i) (T i) (Z.of_nat c) /\ fp s i c = only_pred h w q ig (O i) (T i) (Z.of_nat c) /\
  fn s i c = only_true h w q ig (O i) (T i) (Z.of_nat c) /\ tn s i c = neither h w q ig (O i) (T i) (Z.of_nat c) + ignored h w q ig (T i).

Lemma four : forall i c, both h w q ig (O i) (T i) c + only_pred h w q ig (O i) (T i) c + only_true h w q ig (O i) (T i) c + (neither h w q ig (O i) (T i) c + ignored h w q ig (T i)) = whole h w q.
Proof.
  intros i c.
  assert (P1 : both h w q ig (O i) (T i) c + only_true h w q ig (O i) (T i) c = area_of h w q (fun k j => counts ig (T i k j) && (T i k j =? c)%Z)).
  { apply area_plus. intros. destruct (counts _ _), (T i k j =? _)%Z, (O i k j =? _)%Z; cbn; ring. }
  assert (P2 : only_pred h w q ig (O i) (T i) c + neither h w q ig (O i) (T i) c = area_of h w q (fun k j => counts ig (T i k j) && negb (T i k j =? c)%Z)).
  { apply area_plus. intros. destruct (counts _ _), (T i k j =? _)%Z, (O i k j =? _)%Z; cbn; ring. }
  assert (P3 : area_of h w q (fun k j => counts ig (T i k j) && (T i k j =? c)%Z) + area_of h w q (fun k j => counts ig (T i k j) && negb (T i k j =? c)%Z) = area_of h w q (fun k j => counts ig (T i k j))).
  { apply area_plus. intros. destruct (counts _ _), (T i k j =? _)%Z; cbn; ring. }
  assert (P4 : area_of h w q (fun k j => counts ig (T i k j)) + ignored h w q ig (T i) = whole h w q).
  { apply area_plus. intros. destruct (counts _ _); cbn; ring. }
  lra.
Qed.

Section Labelled.
Hypothesis HL : labelled truth ig b n h w.
Lemma in_class : forall i k j, (i < b)%nat -> (k < h)%nat -> (j < w)%nat -> counts ig (T i k j) = true -> exists c, (c < n)%nat /\ T i k j = Z.of_nat c.
Proof. intros i k j Hi Hk Hj C. specialize (HL i k j Hi Hk Hj C). exists (Z.to_nat (T i k j)). cbn beta. split; lia. Qed.
Lemma sum_both : forall i, (i < b)%nat -> rsum n (fun c => both h w q ig (O i) (T i) (Z.of_nat c)) = correct h w q ig (O i) (T i).
Proof.
  intros i Hi. unfold correct. rewrite <- (area_classes h w q _ n (T i)).
  - apply bsum_ext. intros c Hc. apply area_ext. intros k j Hk Hj. cbn beta. destruct (counts ig (val truth [i; k; j])); cbn [andb]; auto.
    destruct (Z.eqb_spec (val truth [i; k; j]) (Z.of_nat c)) as [E|E]; rewrite ?andb_false_r; auto. rewrite E, andb_true_r. cbn [andb]. apply Z.eqb_sym.
  - intros k j Hk Hj C. apply andb_prop in C. destruct C as [C _]. now apply in_class.
Qed.
Lemma sum_true : forall i, (i < b)%nat -> rsum n (fun c => only_true h w q ig (O i) (T i) (Z.of_nat c)) = wrong h w q ig (O i) (T i).
Proof.
  intros i Hi. unfold wrong. rewrite <- (area_classes h w q _ n (T i)).
  - apply bsum_ext. intros c Hc. apply area_ext. intros k j Hk Hj. cbn beta. destruct (counts ig (val truth [i; k; j])); cbn [andb]; auto.
    destruct (Z.eqb_spec (val truth [i; k; j]) (Z.of_nat c)) as [E|E]; rewrite ?andb_false_r; auto. rewrite E, andb_true_r. cbn [andb]. f_equal. apply Z.eqb_sym.
  - intros k j Hk Hj C. apply andb_prop in C. destruct C as [C _]. now apply in_class.
Qed.
End Labelled.
Lemma sum_pred : forall i, (i < b)%nat -> rsum n (fun c => only_pred h w q ig (O i) (T i) (Z.of_nat c)) = wrong h w q ig (O i) (T i).
Proof.
  intros i Hi. unfold wrong. rewrite <- (area_classes h w q _ n (O i)).
  - apply bsum_ext. intros c Hc. apply area_ext. intros k j Hk Hj. cbn beta. destruct (counts ig (val truth [i; k; j])); cbn [andb]; auto.
    destruct (Z.eqb_spec (Z.of_nat (o i k j)) (Z.of_nat c)) as [E|E]; rewrite ?andb_false_r; auto. now rewrite E, !andb_true_r.
  - intros k j Hk Hj C. exists (o i k j). split; auto. apply (Ho i k j Hi Hk Hj).
Qed.

Lemma bn0 : INR b * INR n <> 0. Proof. assert (P := INR_pos b Hb). assert (P' := INR_pos n Hn). apply Rgt_not_eq. now apply Rmult_lt_0_compat. Qed.

Lemma iou_micro : labelled truth ig b n h w ->
  iou_s2 q None ig Micro pred truth = Some (fdiv (correct_area q ig truth o b h w) (correct_area q ig truth o b h w + 2 * wrong_area q ig truth o b h w)).
Proof.
  intros HL. unfold iou_s2. destruct metric_value as (s & E & V). rewrite E. cbn [bindo]. f_equal. cbn [reduce_micro].
  replace (rsum b (fun i => rsum n (fun c => tp s i c))) with (correct_area q ig truth o b h w).
  2:{ apply bsum_ext. intros i Hi. rewrite <- sum_both by auto. apply bsum_ext. intros c Hc. symmetry. apply V; auto. }
  replace (rsum b (fun i => rsum n (fun c => fp s i c))) with (wrong_area q ig truth o b h w).
  2:{ apply bsum_ext. intros i Hi. rewrite <- sum_pred by auto. apply bsum_ext. intros c Hc. symmetry. apply V; auto. }
  replace (rsum b (fun i => rsum n (fun c => fn s i c))) with (wrong_area q ig truth o b h w).
  2:{ apply bsum_ext. intros i Hi. rewrite <- sum_true by auto. apply bsum_ext. intros c Hc. symmetry. apply V; auto. }
  pose proof bn0 as D. rewrite <- (fdiv_scale (correct_area q ig truth o b h w) (correct_area q ig truth o b h w + 2 * wrong_area q ig truth o b h w) _ D). f_equal. field. split; intros Z; apply D; rewrite Z; ring.
Qed.

Lemma acc_terms : forall s i c, sums s -> (i < b)%nat -> tn s i c = whole h w q - tp s i c - fp s i c - fn s i c.
Proof. intros s i c V Hi. destruct (V i c Hi) as (A & B & C & D). rewrite A, B, C, D. assert (F := four i (Z.of_nat c)). lra. Qed.

Lemma sum_stats : forall s, sums s -> labelled truth ig b n h w ->
  rsum b (fun i => rsum n (fun c => tp s i c)) = correct_area q ig truth o b h w /\
  rsum b (fun i => rsum n (fun c => fp s i c)) = wrong_area q ig truth o b h w /\
  rsum b (fun i => rsum n (fun c => fn s i c)) = wrong_area q ig truth o b h w.
Proof.
  intros s V HL. repeat split; apply bsum_ext; intros i Hi; [rewrite <- sum_both by auto|rewrite <- sum_pred by auto|rewrite <- sum_true by auto]; apply bsum_ext; intros c Hc; apply V; auto.
Qed.
Lemma sum_tn : forall s, sums s -> labelled truth ig b n h w ->
  rsum b (fun i => rsum n (fun c => tn s i c)) = INR b * INR n * whole h w q - correct_area q ig truth o b h w - 2 * wrong_area q ig truth o b h w.
Proof.
  intros s V HL. destruct (sum_stats s V HL) as (A & B & C).
  assert (E : rsum b (fun i => rsum n (fun c => tn s i c)) + rsum b (fun i => rsum n (fun c => tp s i c)) + rsum b (fun i => rsum n (fun c => fp s i c)) + rsum b (fun i => rsum n (fun c => fn s i c)) = INR b * INR n * whole h w q).
  { rewrite <- !(bsum_plus RT). transitivity (rsum b (fun _ => INR n * whole h w q)). 2:{ rewrite rsum_const. ring. }
    apply bsum_ext. intros i Hi. rewrite <- !(bsum_plus RT). rewrite <- rsum_const. apply bsum_ext. intros c Hc. rewrite (acc_terms s i c) by auto. ring. }
  lra.
Qed.
Lemma acc_micro : labelled truth ig b n h w -> whole h w q <> 0 ->
  accuracy_s2 q None ig Micro pred truth = Some (Num (1 - 2 * wrong_area q ig truth o b h w / (INR b * INR n * whole h w q))).
Proof.
  intros HL HW. unfold accuracy_s2. destruct metric_value as (s & E & V). rewrite E. cbn [bindo]. f_equal. cbn [reduce_micro].
  destruct (sum_stats s V HL) as (A & B & C). rewrite (sum_tn s V HL), A, B, C. pose proof bn0 as D.
  assert (Nb : INR b <> 0) by (intros Z; apply D; rewrite Z; ring). assert (Nn : INR n <> 0) by (intros Z; apply D; rewrite Z; ring).
  set (A' := correct_area q ig truth o b h w). set (E' := wrong_area q ig truth o b h w). set (W := whole h w q).
  replace (A' / (INR b * INR n) + E' / (INR b * INR n) + E' / (INR b * INR n) + (INR b * INR n * W - A' - 2 * E') / (INR b * INR n)) with W by (field; auto).
  rewrite fdiv_num by auto. f_equal. field. auto.
Qed.
Lemma macro_terms : forall s c, sums s -> reduce_macro b (tn s) c = whole h w q - reduce_macro b (tp s) c - reduce_macro b (fp s) c - reduce_macro b (fn s) c.
Proof.
  intros s c V. unfold reduce_macro. assert (PB := INR_pos b Hb).
  assert (E : rsum b (fun i => tn s i c) + rsum b (fun i => tp s i c) + rsum b (fun i => fp s i c) + rsum b (fun i => fn s i c) = INR b * whole h w q).
  { rewrite <- !(bsum_plus RT), <- rsum_const. apply bsum_ext. intros i Hi. rewrite (acc_terms s i c) by auto. ring. }
  replace (whole h w q) with ((rsum b (fun i => tn s i c) + rsum b (fun i => tp s i c) + rsum b (fun i => fp s i c) + rsum b (fun i => fn s i c)) / INR b) by (rewrite E; field; lra).
  field. lra.
Qed.
Lemma acc_macro : labelled truth ig b n h w -> whole h w q <> 0 ->
  accuracy_s2 q None ig Macro pred truth = Some (Num (1 - 2 * wrong_area q ig truth o b h w / (INR b * INR n * whole h w q))).
Proof.
  intros HL HW. unfold accuracy_s2. destruct metric_value as (s & E & V). rewrite E. cbn [bindo]. f_equal. pose proof bn0 as D.
  assert (Nb : INR b <> 0) by (intros Z; apply D; rewrite Z; ring). assert (Nn : INR n <> 0) by (intros Z; apply D; rewrite Z; ring).
  assert (S : forall c, fdiv (reduce_macro b (tp s) c + reduce_macro b (tn s) c) (reduce_macro b (tp s) c + reduce_macro b (fp s) c + reduce_macro b (fn s) c + reduce_macro b (tn s) c) =
    Num (1 - (reduce_macro b (fp s) c + reduce_macro b (fn s) c) / whole h w q)).
  { intros c. rewrite (macro_terms s c V). match goal with |- fdiv ?x ?y = _ => replace y with (whole h w q) by ring end. rewrite fdiv_num by auto. f_equal. field. auto. }
  rewrite macro_value by (intros c _; rewrite S; discriminate). f_equal.
  rewrite (bsum_ext n _ (fun c => 1 + (- / (INR b * whole h w q)) * (rsum b (fun i => fp s i c) + rsum b (fun i => fn s i c)))).
  2:{ intros c _. rewrite S. cbn [score0]. unfold reduce_macro. field. auto. }
  rewrite (bsum_plus RT), rsum_const, (bsum_scal_l RT), (bsum_plus RT), !(bsum_swap RT n b). destruct (sum_stats s V HL) as (_ & B & C). rewrite B, C. field. auto.
Qed.

(** ** Ranges *)
Hypothesis HQ : forall k j, (k < h)%nat -> (j < w)%nat -> 0 <= val q [k; j].
Lemma stats_nonneg : forall s, sums s -> forall i c, (i < b)%nat -> 0 <= tp s i c /\ 0 <= fp s i c /\ 0 <= fn s i c /\ 0 <= tn s i c.
Proof.
  intros s V i c Hi. destruct (V i c Hi) as (A & B & C & D). rewrite A, B, C, D. unfold both, only_pred, only_true, neither, ignored. repeat split; try (apply area_nonneg; auto).
  apply Rplus_le_le_0_compat; apply area_nonneg; auto.
Qed.
Lemma micro_nonneg : forall wt x, (forall v, wt = Some v -> forall c, (c < n)%nat -> 0 <= v c) -> (forall i c, (i < b)%nat -> (c < n)%nat -> 0 <= x i c) -> 0 <= reduce_micro b n wt x.
Proof.
  intros wt x Hw Hx. unfold reduce_micro. destruct wt as [v|].
  - apply rsum_nonneg. intros. apply rsum_nonneg. intros. apply Rmult_le_pos. auto. now apply Hw.
  - apply Rmult_le_pos. apply rsum_nonneg. intros. apply rsum_nonneg. auto. left. apply Rinv_0_lt_compat. apply Rmult_lt_0_compat; now apply INR_pos.
Qed.
Lemma macro_nonneg : forall x c, (forall i, (i < b)%nat -> 0 <= x i c) -> 0 <= reduce_macro b x c.
Proof. intros x c Hx. unfold reduce_macro. apply Rmult_le_pos. apply rsum_nonneg; auto. left. apply Rinv_0_lt_compat. now apply INR_pos. Qed.
Lemma fdiv_range : forall x y, 0 <= x -> 0 <= y -> fdiv x (x + y) = NaN \/ exists r, fdiv x (x + y) = Num r /\ 0 <= r <= 1.
Proof.
  intros x y Hx Hy. unfold fdiv. destruct (Req_EM_T (x + y) 0) as [Z|Z].
  - left. destruct (Req_EM_T x 0); auto. exfalso. lra.
  - right. eexists. split. reflexivity. split. apply Rmult_le_pos; auto. left. apply Rinv_0_lt_compat. lra.
    apply Rmult_le_reg_r with (x + y). lra. unfold Rdiv. rewrite Rmult_assoc, Rinv_l by auto. lra.
Qed.
Lemma fdiv_score0 : forall x y, 0 <= x -> 0 <= y -> fdiv x (x + y) <> Inf /\ 0 <= score0 (fdiv x (x + y)) <= 1.
Proof. intros x y Hx Hy. destruct (fdiv_range x y Hx Hy) as [->|(r & -> & Hr)]; split; cbn; try discriminate; lra. Qed.
Definition in_range (md : mode) (wt : option (nat -> R)) (x : quot) : Prop :=
  match md with
  | Micro => x = NaN \/ exists r, x = Num r /\ 0 <= r <= 1
  | Macro => exists r, x = Num r /\ 0 <= r <= match wt with None => 1 | Some v => rsum n v end
  end.
Lemma macro_range : forall wt x y, (forall v, wt = Some v -> forall c, (c < n)%nat -> 0 <= v c) -> (forall c, (c < n)%nat -> 0 <= x c /\ 0 <= y c) ->
  in_range Macro wt (macro_average n wt (fun c => fdiv (x c) (x c + y c))).
Proof.
  intros wt x y Hw H. cbn [in_range]. rewrite macro_value by (intros c Hc; apply fdiv_score0; now apply H). eexists. split. reflexivity.
  assert (S : forall c, (c < n)%nat -> 0 <= score0 (fdiv (x c) (x c + y c)) <= 1) by (intros c Hc; apply fdiv_score0; now apply H).
  assert (PN := INR_pos n Hn). destruct wt as [v|].
  - split. apply rsum_nonneg. intros c Hc. apply Rmult_le_pos. now apply S. now apply Hw. apply rsum_le. intros c Hc. specialize (S c Hc). specialize (Hw v eq_refl c Hc).
    rewrite <- (Rmult_1_l (v c)) at 2. apply Rmult_le_compat_r; lra.
  - split. apply Rmult_le_pos. apply rsum_nonneg. intros. now apply S. left. now apply Rinv_0_lt_compat.
    apply Rmult_le_reg_r with (INR n); auto. unfold Rdiv. rewrite Rmult_assoc, Rinv_l, Rmult_1_r, Rmult_1_l by lra.
    replace (INR n) with (rsum n (fun _ => 1)) by (rewrite rsum_const; ring). apply rsum_le. intros. now apply S.
Qed.
Lemma iou_range : forall wt md, (forall v, wt = Some v -> forall c, (c < n)%nat -> 0 <= v c) -> exists x, iou_s2 q wt ig md pred truth = Some x /\ in_range md wt x.
Proof.
  intros wt md Hw. unfold iou_s2. destruct metric_value as (s & E & V). rewrite E. cbn [bindo]. assert (N := stats_nonneg s V). destruct md; eexists; (split; [reflexivity|]).
  - cbn [in_range]. rewrite Rplus_assoc. apply fdiv_range. apply micro_nonneg; auto. intros; now apply N. apply Rplus_le_le_0_compat; apply micro_nonneg; auto; intros; now apply N.
  - rewrite (macro_ext n wt _ (fun c => fdiv (reduce_macro b (tp s) c) (reduce_macro b (tp s) c + (reduce_macro b (fp s) c + reduce_macro b (fn s) c)))) by (intros; now rewrite Rplus_assoc).
    apply macro_range; auto. intros c Hc. split. apply macro_nonneg. intros; now apply N. apply Rplus_le_le_0_compat; apply macro_nonneg; intros; now apply N.
Qed.
Lemma acc_range : forall wt md, (forall v, wt = Some v -> forall c, (c < n)%nat -> 0 <= v c) -> exists x, accuracy_s2 q wt ig md pred truth = Some x /\ in_range md wt x.
Proof.
  intros wt md Hw. unfold accuracy_s2. destruct metric_value as (s & E & V). rewrite E. cbn [bindo]. assert (N := stats_nonneg s V). destruct md; eexists; (split; [reflexivity|]).
  - cbn [in_range]. match goal with |- context [fdiv (?t + ?u) (?t + ?f + ?m + ?u)] => replace (t + f + m + u) with ((t + u) + (f + m)) by ring end.
    apply fdiv_range; apply Rplus_le_le_0_compat; apply micro_nonneg; auto; intros; now apply N.
  - rewrite (macro_ext n wt _ (fun c => fdiv (reduce_macro b (tp s) c + reduce_macro b (tn s) c) ((reduce_macro b (tp s) c + reduce_macro b (tn s) c) + (reduce_macro b (fp s) c + reduce_macro b (fn s) c)))) by (intros; f_equal; ring).
    apply macro_range; auto. intros c Hc. split; apply Rplus_le_le_0_compat; apply macro_nonneg; intros; now apply N.
Qed.
Lemma areas_nonneg : 0 <= correct_area q ig truth o b h w /\ 0 <= wrong_area q ig truth o b h w /\ 0 <= ignored_area q ig truth b h w.
Proof. unfold correct_area, wrong_area, ignored_area, correct, wrong, ignored. repeat split; apply rsum_nonneg; intros; apply area_nonneg; auto. Qed.
Lemma areas_total : correct_area q ig truth o b h w + wrong_area q ig truth o b h w + ignored_area q ig truth b h w = INR b * whole h w q.
Proof.
  unfold correct_area, wrong_area, ignored_area. rewrite <- !(bsum_plus RT), <- rsum_const. apply bsum_ext. intros i Hi.
  assert (P1 : correct h w q ig (O i) (T i) + wrong h w q ig (O i) (T i) = area_of h w q (fun k j => counts ig (T i k j))).
  { apply area_plus. intros. destruct (counts _ _), (_ =? _)%Z; cbn; ring. }
  assert (P4 : area_of h w q (fun k j => counts ig (T i k j)) + ignored h w q ig (T i) = whole h w q).
  { apply area_plus. intros. destruct (counts _ _); cbn; ring. }
  lra.
Qed.

(** ** A perfect prediction, class by class *)
Lemma macro_perfect : (forall i k j, (i < b)%nat -> (k < h)%nat -> (j < w)%nat -> counts ig (val truth [i; k; j]) = true -> val truth [i; k; j] = Z.of_nat (o i k j)) ->
  iou_s2 q None ig Macro pred truth = Some (Num (rsum n (fun c => if Req_EM_T (rsum b (fun i => both h w q ig (O i) (T i) (Z.of_nat c))) 0 then 0 else 1) / INR n)).
Proof.
  intros HP. unfold iou_s2. destruct metric_value as (s & E & V). rewrite E. cbn [bindo]. f_equal. assert (PB := INR_pos b Hb).
  assert (F : forall c, (c < n)%nat -> fdiv (reduce_macro b (tp s) c) (reduce_macro b (tp s) c + reduce_macro b (fp s) c + reduce_macro b (fn s) c) =
     fdiv (rsum b (fun i => both h w q ig (O i) (T i) (Z.of_nat c))) (rsum b (fun i => both h w q ig (O i) (T i) (Z.of_nat c)))).
  { intros c Hc. rewrite <- (fdiv_scale (rsum b (fun i => both h w q ig (O i) (T i) (Z.of_nat c))) (rsum b (fun i => both h w q ig (O i) (T i) (Z.of_nat c))) (INR b)) by lra.
    replace (reduce_macro b (fp s) c) with 0. replace (reduce_macro b (fn s) c) with 0. rewrite !Rplus_0_r.
    { unfold reduce_macro. rewrite (bsum_ext b (fun i => tp s i c) (fun i => both h w q ig (O i) (T i) (Z.of_nat c))). reflexivity. intros i Hi. apply V; auto. }
    { unfold reduce_macro. rewrite (bsum_zero' RT). lra. intros i Hi. destruct (V i c Hi) as (_ & _ & -> & _). apply area_false. intros k j Hk Hj. specialize (HP i k j Hi Hk Hj). destruct (counts ig (val truth [i; k; j])); auto. rewrite HP by auto. cbn [andb]. destruct (_ =? _)%Z; auto. }
    { unfold reduce_macro. rewrite (bsum_zero' RT). lra. intros i Hi. destruct (V i c Hi) as (_ & -> & _ & _). apply area_false. intros k j Hk Hj. specialize (HP i k j Hi Hk Hj). destruct (counts ig (val truth [i; k; j])); auto. rewrite HP by auto. cbn [andb]. destruct (_ =? _)%Z; auto. } }
  assert (G : forall x, fdiv x x <> Inf /\ score0 (fdiv x x) = if Req_EM_T x 0 then 0 else 1).
  { intros x. unfold fdiv. destruct (Req_EM_T x 0); split; try discriminate; cbn; auto. now apply Rinv_r. }
  rewrite macro_value by (intros c Hc; rewrite (F c Hc); apply G). f_equal. f_equal. apply bsum_ext. intros c Hc. rewrite (F c Hc). apply G.
Qed.
End Metric.
