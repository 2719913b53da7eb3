From Coq Require Import List Arith NArith ZArith Lia Lra Bool Reals Ascii String.
From Verif Require Import TensorModel BigSum TruncModel QuadModel QuadProofs LossModel LossSpec LossProofs DatasetModel DatasetSpec.
Import ListNotations.
Local Open Scope R_scope.

(** ** Moments *)
Lemma INR_S_ne : forall n, INR (S n) <> 0.
Proof. intros n. apply not_0_INR. discriminate. Qed.

Definition moments (st : nat * R * R) : R * R := let '(c, m, v) := st in (INR c * m, v + INR c * m ^ 2).
Lemma welford_moments : forall c m v a b, moments (welford (c, m, v) (a, b)) = (INR c * m + a, v + INR c * m ^ 2 + b + a ^ 2).
Proof.
  intros c m v a b. unfold moments, welford. replace (c + 1)%nat with (S c) by lia. assert (Z := INR_S_ne c). rewrite S_INR in *.
  f_equal; field; auto.
Qed.
Lemma welford_fold : forall l c m v, let '(c', m', v') := fold_left welford l (c, m, v) in
  c' = (c + List.length l)%nat /\ moments (c', m', v') = (INR c * m + rlsum fst l, v + INR c * m ^ 2 + rlsum (fun s => snd s + fst s ^ 2) l).
Proof.
  induction l as [|[a b] l IH]; intros c m v.
  - simpl fold_left. split. simpl; lia. unfold moments. simpl lsum_. f_equal; ring.
  - change (fold_left welford ((a, b) :: l) (c, m, v)) with (fold_left welford l (welford (c, m, v) (a, b))).
    pose proof (welford_moments c m v a b) as M. destruct (welford (c, m, v) (a, b)) as [[c1 m1] v1] eqn:E.
    specialize (IH c1 m1 v1). destruct (fold_left welford l (c1, m1, v1)) as [[c2 m2] v2].
    destruct IH as [Hc Hm]. assert (c1 = S c) by (unfold welford in E; congruence). split. simpl List.length. lia.
    rewrite Hm. unfold moments in M |- *. assert (M1 := f_equal fst M). assert (M2 := f_equal snd M). cbn [fst snd] in M1, M2. rewrite M1, M2. cbn [lsum_ fold_right fst snd]. f_equal; try ring.
    all: unfold lsum_; simpl; ring.
Qed.

(** within- and between-image parts *)
Lemma moments_final : forall l m v, l <> [] -> INR (List.length l) * m = rlsum fst l ->
  v + INR (List.length l) * m ^ 2 = rlsum (fun s => snd s + fst s ^ 2) l ->
  m = rlsum fst l / INR (List.length l) /\ v = rlsum (fun s => snd s + (fst s - m) ^ 2) l.
Proof.
  intros l m v Hl H1 H2. assert (Z : INR (List.length l) <> 0) by (destruct l; [congruence|apply INR_S_ne]).
  split. rewrite <- H1. field; auto.
  assert (G : rlsum (fun s : R * R => snd s + (fst s - m) ^ 2) l = rlsum (fun s => snd s + fst s ^ 2) l - 2 * m * rlsum fst l + INR (List.length l) * m ^ 2).
  { clear. induction l as [|s l IH]. simpl. ring. change (List.length (s :: l)) with (S (List.length l)). rewrite S_INR.
    change (rlsum (fun s : R * R => snd s + (fst s - m) ^ 2) (s :: l)) with (snd s + (fst s - m) ^ 2 + rlsum (fun s : R * R => snd s + (fst s - m) ^ 2) l). rewrite IH. 
    change (rlsum (fun s : R * R => snd s + fst s ^ 2) (s :: l)) with (snd s + fst s ^ 2 + rlsum (fun s : R * R => snd s + fst s ^ 2) l).
    change (rlsum fst (s :: l)) with (fst s + rlsum fst l). ring. }
  rewrite G, <- H2, <- H1. ring.
Qed.

Lemma welford_all_ok : forall l, l <> [] -> exists m, m = rlsum fst l / INR (List.length l) /\
  welford_all l = Some (m, sqrt (rlsum (fun s => snd s + (fst s - m) ^ 2) l / INR (List.length l))).
Proof.
  intros [|[a b] l] Hl; [congruence|]. unfold welford_all. pose proof (welford_fold l 1 a b) as F.
  destruct (fold_left welford l (1%nat, a, b)) as [[c m] v]. destruct F as [-> F]. unfold moments in F. assert (F1 := f_equal fst F). assert (F2 := f_equal snd F). cbn [fst snd] in F1, F2.
  change (1 + List.length l)%nat with (List.length ((a, b) :: l)) in *.
  destruct (moments_final ((a, b) :: l) m v) as [Em Ev]; [discriminate| | |].
  - rewrite F1. cbn [lsum_ fold_right fst]. unfold lsum_; simpl; ring.
  - rewrite F2. cbn [lsum_ fold_right fst snd]. unfold lsum_; simpl; ring.
  - exists m. split; auto. now rewrite <- Ev.
Qed.

(** ** Weights *)
Lemma wsum_ext : forall H W q f g, (forall k j, f k j = g k j) -> wsum H W q f = wsum H W q g.
Proof. intros. unfold wsum. apply bsum_ext. intros. apply bsum_ext. intros. now rewrite H0. Qed.
Lemma wsum_plus : forall H W q f g, wsum H W q (fun k j => f k j + g k j) = wsum H W q f + wsum H W q g.
Proof.
  intros. unfold wsum. rewrite <- (bsum_plus RT). apply bsum_ext. intros k _. rewrite <- (bsum_plus RT). apply bsum_ext. intros. ring.
Qed.
Lemma wsum_scal : forall H W q c f, wsum H W q (fun k j => c * f k j) = c * wsum H W q f.
Proof.
  intros. unfold wsum. rewrite <- (bsum_scal_l RT). apply bsum_ext. intros k _. rewrite <- (bsum_scal_l RT). apply bsum_ext. intros. ring.
Qed.
(** the mean squared distance from any point *)
Lemma wsum_var : forall H W q a f x m c, wsum H W q f = a -> wsum H W q (fun k j => f k j * x k j) = a * m ->
  wsum H W q (fun k j => f k j * (x k j - c) ^ 2) = wsum H W q (fun k j => f k j * (x k j - m) ^ 2) + a * (m - c) ^ 2.
Proof.
  intros H W q a f x m c Ha Hm.
  rewrite (wsum_ext _ _ _ (fun k j => f k j * (x k j - c) ^ 2) (fun k j => f k j * (x k j - m) ^ 2 + (2 * (m - c) * (f k j * x k j) + (c ^ 2 - m ^ 2) * f k j))) by (intros; ring).
  rewrite !wsum_plus, !wsum_scal, Ha, Hm. ring.
Qed.

Lemma masked_stats_eq : forall H W q x, masked_stats H W q x =
  if Req_EM_T (wsum H W q (nonzero x)) 0 then None else
  Some (wsum H W q (fun k j => nonzero x k j * x k j) / wsum H W q (nonzero x),
        wsum H W q (fun k j => nonzero x k j * (x k j - wsum H W q (fun k j => nonzero x k j * x k j) / wsum H W q (nonzero x)) ^ 2) / wsum H W q (nonzero x)).
Proof. reflexivity. Qed.

Section Weighted.
Context (gl : nat -> rule) (H W : nat) (lat : rule) (q : tensor R).
Hypothesis El : precompute_latitudes gl H GEquiangular = Some lat.
Hypothesis HW : (1 <= W)%nat.
Hypothesis HT : rsum H (rw lat) <> 0.
Hypothesis Vq : forall k j, val q [k; j] = area (rw lat) H W k.

Lemma wsum_mean : forall f, wsum H W q f = mean_on_sphere (rw lat) H W f.
Proof. intros f. unfold wsum, mean_on_sphere. apply bsum_ext. intros k _. apply bsum_ext. intros j _. rewrite Vq. ring. Qed.
Lemma wsum_one : wsum H W q (fun _ _ => 1) = 1.
Proof.
  rewrite wsum_mean. unfold mean_on_sphere. etransitivity; [|exact (area_total H W lat HW HT)]. apply bsum_ext. intros k _. apply bsum_ext. intros. ring.
Qed.
Lemma sample_var : forall x c, wsum H W q (fun k j => (x k j - c) ^ 2) =
  wsum H W q (fun k j => (x k j - wsum H W q x) ^ 2) + (wsum H W q x - c) ^ 2.
Proof.
  intros x c. pose proof (wsum_var H W q 1 (fun _ _ => 1) x (wsum H W q x) c wsum_one) as V.
  assert (E : forall f, wsum H W q (fun k j => 1 * f k j) = wsum H W q f) by (intros; apply wsum_ext; intros; ring).
  rewrite E in V. specialize (V ltac:(ring)).
  rewrite (E (fun k j => (x k j - c) ^ 2)), (E (fun k j => (x k j - wsum H W q x) ^ 2)) in V. rewrite V. ring.
Qed.

Lemma input_stats : forall xs : list image, xs <> [] -> welford_all (map (sample_stats H W q) xs) =
  Some (data_mean (rw lat) H W xs, sqrt (data_var (rw lat) H W xs)).
Proof.
  intros xs Hx. destruct (welford_all_ok (map (sample_stats H W q) xs)) as (m & Em & E).
  { destruct xs; [congruence|discriminate]. }
  rewrite E. assert (M : m = data_mean (rw lat) H W xs).
  { rewrite Em. unfold data_mean. rewrite map_length, lsum_map. f_equal. apply lsum_ext. intros x _. unfold sample_stats. simpl fst. apply wsum_mean. }
  rewrite M. do 3 f_equal. unfold data_var. rewrite map_length, lsum_map. f_equal. apply lsum_ext. intros x _.
  unfold sample_stats. cbn [fst snd]. rewrite <- wsum_mean. symmetry. apply sample_var.
Qed.

(** targets *)
Lemma area_scale : forall f, wsum H W q f = rsum H (fun k => rsum W (fun j => rw lat k * f k j)) / (rsum H (rw lat) * INR W).
Proof.
  assert (Z : INR W <> 0) by (apply not_0_INR; lia).
  intros f. unfold wsum. unfold Rdiv. rewrite <- (bsum_scal_r RT). apply bsum_ext. intros k _. rewrite <- (bsum_scal_r RT). apply bsum_ext. intros j _.
  rewrite Vq. unfold area. field. auto.
Qed.
Lemma masked_mean : forall M f, rsum H (fun k => rsum W (fun j => rw lat k * M k j)) <> 0 ->
  wsum H W q M <> 0 /\ wsum H W q (fun k j => M k j * f k j) / wsum H W q M = mean_on_mask (rw lat) H W M f.
Proof.
  intros M f HM. assert (Z : INR W <> 0) by (apply not_0_INR; lia). rewrite !area_scale. unfold mean_on_mask. split.
  - intros E. apply HM. apply (Rmult_eq_reg_r (/ (rsum H (rw lat) * INR W))). rewrite Rmult_0_l. exact E. apply Rinv_neq_0_compat. apply Rmult_integral_contrapositive; auto.
  - rewrite (bsum_ext H (fun k => rsum W (fun j => rw lat k * (M k j * f k j))) (fun k => rsum W (fun j => rw lat k * M k j * f k j))) by (intros; apply bsum_ext; intros; ring).
    field. auto.
Qed.
Lemma masked_stats_ok : forall x, valid_area (rw lat) H W x <> 0 -> masked_stats H W q x =
  Some (mean_on_mask (rw lat) H W (nonzero x) x, mean_on_mask (rw lat) H W (nonzero x) (fun k j => (x k j - mean_on_mask (rw lat) H W (nonzero x) x) ^ 2)).
Proof.
  intros x Hx. rewrite masked_stats_eq.
  destruct (masked_mean (nonzero x) x Hx) as [Z E]. destruct (Req_EM_T (wsum H W q (nonzero x)) 0) as [E0|_]; [congruence|].
  rewrite E. f_equal. f_equal. now apply masked_mean.
Qed.
Lemma masked_stats_none : forall x, valid_area (rw lat) H W x = 0 -> masked_stats H W q x = None.
Proof.
  intros x Hx. rewrite masked_stats_eq.
  destruct (Req_EM_T (wsum H W q (nonzero x)) 0) as [_|E0]; auto. elim E0. rewrite area_scale. unfold valid_area in Hx. rewrite Hx. unfold Rdiv. ring.
Qed.
Lemma masked_var : forall x c, valid_area (rw lat) H W x <> 0 ->
  mean_on_mask (rw lat) H W (nonzero x) (fun k j => (x k j - c) ^ 2) =
  mean_on_mask (rw lat) H W (nonzero x) (fun k j => (x k j - mean_on_mask (rw lat) H W (nonzero x) x) ^ 2) + (mean_on_mask (rw lat) H W (nonzero x) x - c) ^ 2.
Proof.
  intros x c Hx. destruct (masked_mean (nonzero x) x Hx) as [Z E].
  rewrite <- (proj2 (masked_mean (nonzero x) (fun k j => (x k j - c) ^ 2) Hx)).
  rewrite <- (proj2 (masked_mean (nonzero x) (fun k j => (x k j - mean_on_mask (rw lat) H W (nonzero x) x) ^ 2) Hx)).
  rewrite (wsum_var H W q (wsum H W q (nonzero x)) (nonzero x) x (mean_on_mask (rw lat) H W (nonzero x) x) c eq_refl). field; auto.
  rewrite <- E. field; auto.
Qed.
Lemma all_some_map : forall A B (f : A -> option B) g l, (forall a, In a l -> f a = Some (g a)) -> all_some (map f l) = Some (map g l).
Proof. induction l as [|a l IH]; intros Hl; simpl; auto. rewrite Hl by (left; auto). rewrite IH; auto. intros; apply Hl; now right. Qed.
Lemma target_stats : forall xs : list image, xs <> [] -> (forall x, In x xs -> valid_area (rw lat) H W x <> 0) ->
  bindo (all_some (map (masked_stats H W q) xs)) welford_all = Some (valid_mean (rw lat) H W xs, sqrt (valid_var (rw lat) H W xs)).
Proof.
  intros xs Hx Hv. erewrite all_some_map by (intros x Hin; apply masked_stats_ok; auto). cbn [bindo].
  match goal with |- welford_all (map ?g xs) = _ => set (G := g) end.
  destruct (welford_all_ok (map G xs)) as (m & Em & E). { destruct xs; [congruence|discriminate]. }
  rewrite E. assert (M : m = valid_mean (rw lat) H W xs).
  { rewrite Em. unfold valid_mean. now rewrite map_length, lsum_map. }
  rewrite M. do 3 f_equal. unfold valid_var. rewrite map_length, lsum_map. f_equal. apply lsum_ext. intros x Hin.
  unfold G. cbn [fst snd]. symmetry. apply masked_var; auto.
Qed.
End Weighted.

Lemma all_some_none : forall A (l : list (option A)), In None l -> all_some l = None.
Proof. induction l as [|[a|] l IH]; simpl; intros Hl; try tauto; auto. destruct Hl as [|Hl]; [discriminate|]. now rewrite IH. Qed.

(** ** The recorded statistics *)
Definition run_pair (r : run) : R * R := (r_mean r, r_m2 r).
Lemma merge_welford : forall c a s, (S c, r_mean (merge c a s), r_m2 (merge c a s)) = welford (c, r_mean a, r_m2 a) (run_pair s).
Proof. intros. unfold merge, welford, run_pair. cbn [r_mean r_m2]. f_equal. unfold Rdiv. ring. Qed.
Lemma merge_all_welford : forall l c a, ((c + List.length l)%nat, r_mean (merge_all c a l), r_m2 (merge_all c a l)) =
  fold_left welford (map run_pair l) (c, r_mean a, r_m2 a).
Proof.
  induction l as [|s l IH]; intros c a.
  - simpl. now rewrite Nat.add_0_r.
  - cbn [merge_all map fold_left]. rewrite <- merge_welford. rewrite <- IH. simpl List.length. now rewrite Nat.add_succ_r.
Qed.
Lemma merge_all_min : forall l c a, r_min (merge_all c a l) = fold_left Rmin (map r_min l) (r_min a).
Proof. induction l as [|s l IH]; intros; auto. cbn [merge_all map fold_left]. now rewrite IH. Qed.
Lemma merge_all_max : forall l c a, r_max (merge_all c a l) = fold_left Rmin (map r_max l) (r_max a).
Proof. induction l as [|s l IH]; intros; auto. cbn [merge_all map fold_left]. now rewrite IH. Qed.

Lemma record_all_ok : forall l, (2 <= List.length l)%nat -> exists d m, record_all l = Some d /\
  m = rlsum r_mean l / INR (List.length l) /\ d_mean d = m /\
  d_std d = sqrt (rlsum (fun s => r_m2 s + (r_mean s - m) ^ 2) l / INR (List.length l - 1)) /\
  d_min d = fold_left Rmin (map r_min (tl l)) (r_min (hd (mkrun 0 0 0 0) l)) /\
  d_max d = fold_left Rmin (map r_max (tl l)) (r_max (hd (mkrun 0 0 0 0) l)).
Proof.
  intros l Hl. destruct l as [|a [|b l]]; [simpl in Hl; lia | simpl in Hl; lia |].
  unfold record_all. cbn [tl hd].
  pose proof (merge_all_welford (b :: l) 1 a) as M. pose proof (welford_fold (map run_pair (b :: l)) 1 (r_mean a) (r_m2 a)) as F.
  rewrite <- M in F. destruct F as [_ F]. change (1 + List.length (b :: l))%nat with (List.length (a :: b :: l)) in F.
  set (r := merge_all 1 a (b :: l)) in *. unfold moments in F. assert (F1 := f_equal fst F). assert (F2 := f_equal snd F). cbn [fst snd] in F1, F2.
  destruct (moments_final (map run_pair (a :: b :: l)) (r_mean r) (r_m2 r)) as [Em Ev]; [discriminate| | |].
  - rewrite map_length, F1. rewrite map_cons. cbn [lsum_ fold_right]. unfold lsum_, run_pair; simpl; ring.
  - rewrite map_length, F2. rewrite (map_cons _ a). cbn [lsum_ fold_right]. unfold lsum_, run_pair; simpl; ring.
  - rewrite map_length, lsum_map in Em. rewrite lsum_map in Ev.
    eexists. exists (r_mean r). split; [reflexivity|]. cbn [d_mean d_std d_min d_max].
    split; [exact Em|]. split; [reflexivity|]. split. { rewrite Ev. reflexivity. }
    unfold r. rewrite merge_all_min, merge_all_max. auto.
Qed.

(** minima *)
Lemma fold_min_spec : forall l x, (fold_left Rmin l x = x \/ In (fold_left Rmin l x) l) /\ fold_left Rmin l x <= x /\ forall y, In y l -> fold_left Rmin l x <= y.
Proof.
  induction l as [|a l IH]; intros x; simpl. split; auto. split. apply Rle_refl. tauto.
  destruct (IH (Rmin x a)) as (I & L & G). split; [|split].
  - destruct I as [I|I]; auto. rewrite I. unfold Rmin. destruct (Rle_dec x a); auto.
  - eapply Rle_trans. exact L. apply Rmin_l.
  - intros y [<-|Hy]; auto. eapply Rle_trans. exact L. apply Rmin_r.
Qed.
Lemma fold_max_spec : forall l x, (fold_left Rmax l x = x \/ In (fold_left Rmax l x) l) /\ x <= fold_left Rmax l x /\ forall y, In y l -> y <= fold_left Rmax l x.
Proof.
  induction l as [|a l IH]; intros x; simpl. split; auto. split. apply Rle_refl. tauto.
  destruct (IH (Rmax x a)) as (I & L & G). split; [|split].
  - destruct I as [I|I]; auto. rewrite I. unfold Rmax. destruct (Rle_dec x a); auto.
  - eapply Rle_trans; [|exact L]. apply Rmax_l.
  - intros y [<-|Hy]; auto. eapply Rle_trans; [|exact L]. apply Rmax_r.
Qed.
Lemma in_pixels : forall A H W (x : nat -> nat -> A) v, In v (pixels H W x) <-> exists k j, (k < H)%nat /\ (j < W)%nat /\ x k j = v.
Proof.
  intros. unfold pixels. rewrite in_flat_map. split.
  - intros (k & Hk & Hv). apply in_map_iff in Hv as (j & E & Hj). apply in_seq in Hk, Hj. exists k, j. repeat split; auto; lia.
  - intros (k & j & Hk & Hj & E). exists k. split. apply in_seq; lia. apply in_map_iff. exists j. split; auto. apply in_seq; lia.
Qed.
Lemma pixels_cons : forall A H W (x : nat -> nat -> A), (1 <= H)%nat -> (1 <= W)%nat -> exists l, pixels H W x = x 0%nat 0%nat :: l.
Proof. intros A [|H] [|W] x H1 H2; try lia. eexists. unfold pixels. simpl. reflexivity. Qed.
Lemma list_min_ok : forall H W x, (1 <= H)%nat -> (1 <= W)%nat -> exists v, list_min (pixels H W x) = Some v /\ is_min H W [x] v.
Proof.
  intros H W x H1 H2. destruct (pixels_cons _ H W x H1 H2) as (l & E). rewrite E. simpl. eexists. split; [reflexivity|].
  destruct (fold_min_spec l (x 0%nat 0%nat)) as (I & L & G).
  assert (In (fold_left Rmin l (x 0%nat 0%nat)) (pixels H W x)). { rewrite E. destruct I as [I|I]. left; auto. right; auto. }
  apply in_pixels in H0 as (k & j & Hk & Hj & Ev). split. exists x, k, j. repeat split; auto. left; auto.
  intros x' k' j' [<-|[]] Hk' Hj'. assert (In (x k' j') (pixels H W x)) by (apply in_pixels; eauto). rewrite E in H0. destruct H0 as [<-|H0]; auto.
Qed.
Lemma list_max_ok : forall H W x, (1 <= H)%nat -> (1 <= W)%nat -> exists v, list_max (pixels H W x) = Some v /\ is_max H W [x] v.
Proof.
  intros H W x H1 H2. destruct (pixels_cons _ H W x H1 H2) as (l & E). rewrite E. simpl. eexists. split; [reflexivity|].
  destruct (fold_max_spec l (x 0%nat 0%nat)) as (I & L & G).
  assert (In (fold_left Rmax l (x 0%nat 0%nat)) (pixels H W x)). { rewrite E. destruct I as [I|I]. left; auto. right; auto. }
  apply in_pixels in H0 as (k & j & Hk & Hj & Ev). split. exists x, k, j. repeat split; auto. left; auto.
  intros x' k' j' [<-|[]] Hk' Hj'. assert (In (x k' j') (pixels H W x)) by (apply in_pixels; eauto). rewrite E in H0. destruct H0 as [<-|H0]; auto.
Qed.

(** the minimum of the minima *)
Lemma min_of_mins : forall H W xs (f : (nat -> nat -> R) -> R) x0, (forall x, In x (x0 :: xs) -> is_min H W [x] (f x)) ->
  is_min H W (x0 :: xs) (fold_left Rmin (map f xs) (f x0)).
Proof.
  intros H W xs f x0 Hf. destruct (fold_min_spec (map f xs) (f x0)) as (I & L & G).
  assert (M : exists x, In x (x0 :: xs) /\ fold_left Rmin (map f xs) (f x0) = f x).
  { destruct I as [I|I]. exists x0. split; auto. left; auto. apply in_map_iff in I as (x & E & Hx). exists x. split. right; auto. auto. }
  destruct M as (x & Hx & E). split.
  - destruct (Hf x Hx) as [(x' & k & j & [<-|[]] & Hk & Hj & Ev) _]. exists x, k, j. rewrite E. auto.
  - intros y k j Hy Hk Hj. apply Rle_trans with (f y).
    + destruct Hy as [<-|Hy]; auto. apply G. now apply in_map.
    + apply (proj2 (Hf y Hy)); auto. left; auto.
Qed.

Lemma convert_weights_ok : forall gl H W lat, precompute_latitudes gl H GEquiangular = Some lat -> (1 <= W)%nat -> rsum H (rw lat) <> 0 ->
  exists q, convert_weights gl H W = Some q /\ forall k j, val q [k; j] = area (rw lat) H W k.
Proof.
  intros gl H W lat El HW HT. unfold convert_weights. rewrite El. cbn [bindo]. unfold guard. rewrite (proj2 (Nat.leb_le _ _)) by auto. cbn [bindo].
  assert (Z : INR W <> 0) by (apply not_0_INR; lia). assert (P : PI <> 0) by apply PI_neq0.
  match goal with |- context [Req_EM_T ?u 0] => set (t := u) end.
  assert (Et : t = 2 * PI * rsum H (rw lat)).
  { unfold t. rewrite <- (bsum_scal_l RT). apply bsum_ext. intros k _. cbn [val nth]. rewrite rsum_const. field; auto. }
  destruct (Req_EM_T t 0) as [E0|_].
  - exfalso. rewrite Et in E0. apply Rmult_integral in E0 as [E0|E0]; auto. lra.
  - eexists. split; [reflexivity|]. intros k j. unfold map_t. cbn [val nth]. rewrite Et. unfold area. field. auto.
Qed.
