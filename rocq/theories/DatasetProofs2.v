From Coq Require Import List Arith NArith ZArith Lia Lra Bool Reals Ascii String Sorted.
From Verif Require Import TensorModel BigSum TruncModel QuadModel QuadProofs LossModel LossSpec LossProofs DatasetModel DatasetSpec DatasetProofs.
Import ListNotations.
Local Open Scope R_scope.

Definition lmin (H W : nat) (x : image) : R := match list_min (pixels H W x) with Some v => v | None => 0 end.
Definition lmax (H W : nat) (x : image) : R := match list_max (pixels H W x) with Some v => v | None => 0 end.
Lemma lmin_ok : forall H W x, (1 <= H)%nat -> (1 <= W)%nat -> list_min (pixels H W x) = Some (lmin H W x) /\ is_min H W [x] (lmin H W x).
Proof. intros H W x H1 H2. destruct (list_min_ok H W x H1 H2) as (v & E & M). unfold lmin. rewrite E. auto. Qed.
Lemma lmax_ok : forall H W x, (1 <= H)%nat -> (1 <= W)%nat -> list_max (pixels H W x) = Some (lmax H W x) /\ is_max H W [x] (lmax H W x).
Proof. intros H W x H1 H2. destruct (list_max_ok H W x H1 H2) as (v & E & M). unfold lmax. rewrite E. auto. Qed.

(** What is recorded from runs of the form (min, max, mean, m2). *)
Section Record.
Context (gl : nat -> rule) (H W : nat) (lat : rule) (q : tensor R).
Hypothesis El : precompute_latitudes gl H GEquiangular = Some lat.
Hypothesis H1 : (1 <= H)%nat.
Hypothesis HW : (1 <= W)%nat.
Hypothesis HT : rsum H (rw lat) <> 0.
Hypothesis Vq : forall k j, val q [k; j] = area (rw lat) H W k.

Lemma record_runs : forall A (img : A -> image) (m2 : A -> R) (xs : list A), (2 <= List.length xs)%nat ->
  exists d, record_all (map (fun x => mkrun (lmin H W (img x)) (lmax H W (img x)) (wsum H W q (img x)) (m2 x)) xs) = Some d /\
  d_mean d = data_mean (rw lat) H W (map img xs) /\
  is_min H W (map img xs) (d_min d) /\
  d_max d = fold_left Rmin (map (fun x => lmax H W (img x)) (tl xs)) (lmax H W (hd (fun _ _ => 0) (map img xs))) /\
  d_std d = sqrt (rlsum (fun x => m2 x + (mean_on_sphere (rw lat) H W (img x) - d_mean d) ^ 2) xs / INR (List.length xs - 1)).
Proof.
  intros A img m2 xs Hx. match goal with |- context [map ?f xs] => set (F := f) end.
  destruct (record_all_ok (map F xs)) as (d & m & E & Em & Ed & Es & Emin & Emax). { now rewrite map_length. }
  rewrite map_length in *. rewrite lsum_map in Em, Es. exists d. split; [exact E|].
  assert (M : m = data_mean (rw lat) H W (map img xs)).
  { rewrite Em. unfold data_mean. rewrite map_length, lsum_map. f_equal. apply lsum_ext. intros x _. unfold F. cbn [r_mean]. apply (wsum_mean H W lat q Vq). }
  split; [congruence|]. split; [|split].
  - destruct xs as [|x0 xs]; [simpl in Hx; lia|]. rewrite Emin. cbn [map tl hd]. unfold F at 2. cbn [r_min].
    rewrite map_map. unfold F. cbn [r_min]. rewrite <- (map_map img (lmin H W)). apply (min_of_mins H W (map img xs) (lmin H W) (img x0)).
    intros. apply lmin_ok; auto.
  - rewrite Emax. destruct xs as [|x0 xs]; [simpl in Hx; lia|]. cbn [map tl hd]. rewrite map_map. reflexivity.
  - rewrite Es, Ed. do 2 f_equal. apply lsum_ext. intros x _. unfold F. cbn [r_m2 r_mean]. now rewrite (wsum_mean H W lat q Vq).
Qed.

Lemma rgb_run_ok : forall nc x c, rgb_run H W nc q x c = Some (mkrun (lmin H W (x c)) (lmax H W (x c)) (wsum H W q (x c))
  (rsum nc (fun c' => wsum H W q (fun k j => (x c' k j - wsum H W q (x c')) ^ 2)))).
Proof. intros. unfold rgb_run. rewrite (proj1 (lmin_ok H W (x c) H1 HW)), (proj1 (lmax_ok H W (x c) H1 HW)). reflexivity. Qed.
Lemma depth_run_ok : forall x, depth_run H W q x = Some (mkrun (lmin H W x) (lmax H W x) (wsum H W q x)
  (wsum H W q (fun k j => (x k j - wsum H W q x) ^ 2))).
Proof. intros. unfold depth_run. rewrite (proj1 (lmin_ok H W x H1 HW)), (proj1 (lmax_ok H W x H1 HW)). reflexivity. Qed.
End Record.

Lemma record_rgb_ok : forall gl H W lat nc xs c, precompute_latitudes gl H GEquiangular = Some lat -> (1 <= H)%nat -> (1 <= W)%nat -> rsum H (rw lat) <> 0 ->
  (2 <= List.length xs)%nat -> exists d, record_rgb gl H W nc xs c = Some d /\
  d_mean d = data_mean (rw lat) H W (map (fun x => x c) xs) /\ is_min H W (map (fun x => x c) xs) (d_min d) /\
  d_max d = fold_left Rmin (map (fun x => lmax H W (x c)) (tl xs)) (lmax H W (hd (fun _ _ => 0) (map (fun x => x c) xs))) /\
  d_std d = sqrt (rlsum (fun x : nat -> image => rsum nc (fun c' => mean_on_sphere (rw lat) H W (fun k j => (x c' k j - mean_on_sphere (rw lat) H W (x c')) ^ 2))
    + (mean_on_sphere (rw lat) H W (x c) - d_mean d) ^ 2) xs / INR (List.length xs - 1)).
Proof.
  intros gl H W lat nc xs c El H1 HW HT Hx. destruct (convert_weights_ok gl H W lat El HW HT) as (q & Eq & Vq).
  unfold record_rgb. rewrite Eq. cbn [bindo]. erewrite all_some_map by (intros x _; apply rgb_run_ok; auto). cbn [bindo].
  destruct (record_runs H W lat q H1 HW Vq (nat -> image) (fun x => x c) (fun x => rsum nc (fun c' => wsum H W q (fun k j => (x c' k j - wsum H W q (x c')) ^ 2))) xs Hx) as (d & E & A & B & C & D).
  exists d. split; [exact E|]. split; auto. split; auto. split; auto. rewrite D. do 2 f_equal. apply lsum_ext. intros x _. f_equal. apply bsum_ext. intros c' _.
  now rewrite !(wsum_mean H W lat q Vq).
Qed.
Lemma record_depth_ok : forall gl H W lat xs, precompute_latitudes gl H GEquiangular = Some lat -> (1 <= H)%nat -> (1 <= W)%nat -> rsum H (rw lat) <> 0 ->
  (2 <= List.length xs)%nat -> exists d, record_depth gl H W xs = Some d /\
  d_mean d = data_mean (rw lat) H W xs /\ is_min H W xs (d_min d) /\
  d_std d = sqrt (INR (List.length xs) * data_var (rw lat) H W xs / INR (List.length xs - 1)).
Proof.
  intros gl H W lat xs El H1 HW HT Hx. destruct (convert_weights_ok gl H W lat El HW HT) as (q & Eq & Vq).
  unfold record_depth. rewrite Eq. cbn [bindo]. erewrite all_some_map by (intros x _; apply depth_run_ok; auto). cbn [bindo].
  destruct (record_runs H W lat q H1 HW Vq image (fun x => x) (fun x => wsum H W q (fun k j => (x k j - wsum H W q x) ^ 2)) xs Hx) as (d & E & A & B & _ & D).
  rewrite map_id in *. exists d. split; [exact E|]. split; auto. split; auto. rewrite D. do 2 f_equal. unfold data_var.
  assert (Z : forall a n, n <> 0 -> n * (a / n) = a) by (intros; field; auto). rewrite Z by (apply not_0_INR; intros Z0; unfold image in *; rewrite Z0 in Hx; lia).
  apply lsum_ext. intros x _. rewrite A. rewrite <- !(wsum_mean H W lat q Vq). rewrite (sample_var H W lat q HW HT Vq x (data_mean (rw lat) H W xs)). reflexivity.
Qed.

(** scaling *)
Lemma mean_on_sphere_scal : forall w H W c f, mean_on_sphere w H W (fun k j => c * f k j) = c * mean_on_sphere w H W f.
Proof.
  intros. unfold mean_on_sphere. rewrite <- (bsum_scal_l RT). apply bsum_ext. intros k _. rewrite <- (bsum_scal_l RT). apply bsum_ext. intros. ring.
Qed.
Lemma mean_on_sphere_ext : forall w H W f g, (forall k j, (k < H)%nat -> (j < W)%nat -> f k j = g k j) -> mean_on_sphere w H W f = mean_on_sphere w H W g.
Proof. intros. unfold mean_on_sphere. apply bsum_ext. intros k Hk. apply bsum_ext. intros j Hj. now rewrite H0. Qed.
Lemma data_mean_scal : forall w H W c (g : image -> image) xs, (forall x k j, g x k j = c * x k j) -> data_mean w H W (map g xs) = c * data_mean w H W xs.
Proof.
  intros w H W c g xs Hg. unfold data_mean. rewrite map_length, lsum_map. unfold Rdiv. rewrite <- Rmult_assoc, <- (lsum_scal_l RT). f_equal. apply lsum_ext. intros x _.
  rewrite <- mean_on_sphere_scal. apply mean_on_sphere_ext. auto.
Qed.
Lemma data_var_scal : forall w H W c (g : image -> image) xs, (forall x k j, g x k j = c * x k j) -> data_var w H W (map g xs) = c ^ 2 * data_var w H W xs.
Proof.
  intros w H W c g xs Hg. unfold data_var. rewrite (data_mean_scal w H W c g xs Hg), map_length, lsum_map. unfold Rdiv. rewrite <- Rmult_assoc, <- (lsum_scal_l RT). f_equal. apply lsum_ext. intros x _.
  rewrite <- mean_on_sphere_scal. apply mean_on_sphere_ext. intros. rewrite Hg. ring.
Qed.
Lemma stored_depth_scal : forall x k j, stored_depth x k j = / IZR 65536 * x k j.
Proof. intros. unfold stored_depth, Rdiv. ring. Qed.
Lemma data_var_nonneg : forall w H W xs, (forall k, (k < H)%nat -> 0 <= area w H W k) -> 0 <= data_var w H W xs.
Proof.
  intros w H W xs Ha. unfold data_var. destruct xs as [|x0 xs0]. { simpl. unfold Rdiv. rewrite Rmult_0_l. lra. }
  set (xs := x0 :: xs0). set (m := data_mean w H W xs). apply Rmult_le_pos.
  - clearbody m xs. induction xs as [|x xs IH]; [simpl; lra|].
    change (0 <= mean_on_sphere w H W (fun k j => (x k j - m) ^ 2) + rlsum (fun x => mean_on_sphere w H W (fun k j => (x k j - m) ^ 2)) xs).
    assert (0 <= mean_on_sphere w H W (fun k j => (x k j - m) ^ 2)); [|lra].
    unfold mean_on_sphere. apply rsum_nonneg. intros k Hk. apply rsum_nonneg. intros j Hj. apply Rmult_le_pos; auto. apply pow2_ge_0.
  - left. apply Rinv_0_lt_compat. apply lt_0_INR. unfold xs. simpl. lia.
Qed.

(** ** Class labels *)
Lemma ascii_compare_eq : forall a b, Ascii.compare a b = Eq <-> a = b.
Proof.
  intros a b. unfold Ascii.compare. rewrite N.compare_eq_iff. split; intros E; [|now subst]. rewrite <- (ascii_N_embedding a), <- (ascii_N_embedding b). now f_equal.
Qed.
Lemma string_lt_trans : forall s t u, String.compare s t = Lt -> String.compare t u = Lt -> String.compare s u = Lt.
Proof.
  induction s as [|a s IH]; intros [|b t] [|c u]; simpl; intros A B; try discriminate; auto.
  destruct (Ascii.compare a b) eqn:E1; try discriminate.
  - apply ascii_compare_eq in E1. subst. destruct (Ascii.compare b c); try discriminate; eauto.
  - destruct (Ascii.compare b c) eqn:E2; try discriminate.
    + apply ascii_compare_eq in E2. subst. now rewrite E1.
    + unfold Ascii.compare in *. apply N.compare_lt_iff in E1, E2. assert (E : (N_of_ascii a < N_of_ascii c)%N) by (eapply N.lt_trans; eauto).
      apply N.compare_lt_iff in E. now rewrite E.
Qed.
Lemma string_compare_eq : forall s t, String.compare s t = Eq <-> s = t.
Proof.
  induction s as [|a s IH]; intros [|b t]; simpl; split; intros E; try discriminate; auto.
  - destruct (Ascii.compare a b) eqn:C; try discriminate. apply ascii_compare_eq in C. apply IH in E. congruence.
  - injection E as -> ->. rewrite (proj2 (ascii_compare_eq b b) eq_refl). now apply IH.
Qed.
Lemma ltb_lt : forall s t, String.ltb s t = true <-> String.compare s t = Lt.
Proof. intros. unfold String.ltb. destruct (String.compare s t); split; congruence. Qed.
Definition slt (s t : string) : Prop := String.compare s t = Lt.
Lemma slt_irrefl : forall s, ~ slt s s.
Proof. intros s E. unfold slt in E. assert (String.compare s s = Eq) by (now rewrite string_compare_eq). congruence. Qed.
Lemma insert_in : forall s l x, In x (insert_label s l) <-> x = s \/ In x l.
Proof.
  induction l as [|a l IH]; intros x; simpl. intuition.
  destruct (String.eqb_spec s a); [subst; simpl; intuition|]. destruct (String.ltb s a); simpl; [intuition|]. rewrite IH. intuition.
Qed.
Lemma insert_sorted : forall s l, StronglySorted slt l -> StronglySorted slt (insert_label s l).
Proof.
  induction l as [|a l IH]; intros S; simpl. repeat constructor.
  inversion S as [|? ? S1 F]; subst. destruct (String.eqb_spec s a); auto.
  destruct (String.ltb s a) eqn:E.
  - constructor; auto. constructor. now apply ltb_lt. apply ltb_lt in E. eapply Forall_impl; [|exact F]. intros x Hx. eapply string_lt_trans; eauto.
  - constructor; auto. apply Forall_forall. intros x Hx. apply insert_in in Hx as [->|Hx].
    + unfold slt. rewrite String.compare_antisym. unfold String.ltb in E. destruct (String.compare s a) eqn:C; simpl; auto; try discriminate. apply string_compare_eq in C. congruence.
    + rewrite Forall_forall in F. auto.
Qed.
Lemma sorted_set_sorted : forall l, StronglySorted slt (sorted_set l).
Proof. induction l; simpl. constructor. now apply insert_sorted. Qed.
Lemma sorted_set_in : forall l x, In x (sorted_set l) <-> In x l.
Proof. induction l as [|a l IH]; intros x; simpl. tauto. rewrite insert_in, IH. intuition. Qed.
Lemma sorted_nodup : forall l, StronglySorted slt l -> NoDup l.
Proof. induction 1; constructor; auto. intros Hi. rewrite Forall_forall in H0. now apply (slt_irrefl a), H0. Qed.
Lemma index_of_some : forall l s i, index_of s l = Some i -> nth_error l i = Some s.
Proof.
  induction l as [|a l IH]; simpl; intros s i E; [discriminate|]. destruct (String.eqb_spec a s).
  - injection E as <-. simpl. congruence.
  - destruct (index_of s l) eqn:F; [|discriminate]. injection E as <-. simpl. auto.
Qed.
Lemma index_of_in : forall l s, In s l -> exists i, index_of s l = Some i.
Proof.
  induction l as [|a l IH]; simpl; intros s Hs; [tauto|]. destruct Hs as [<-|Hi]. rewrite String.eqb_refl. eauto.
  destruct (String.eqb a s); [eauto|]. destruct (IH s Hi) as [i ->]. exists (S i). reflexivity.
Qed.
Lemma lookup_label : forall r g b, (if (r * 256 * 256 + g * 256 + b =? 855309)%N then 3341%N else (r * 256 * 256 + g * 256 + b)%N) = label_number (r, g, b).
Proof.
  intros. unfold label_number, colour. replace (r * 65536 + g * 256 + b)%N with (r * 256 * 256 + g * 256 + b)%N by lia.
  destruct (N.eqb_spec (r * 256 * 256 + g * 256 + b) 855309); destruct (N.eq_dec (r * 256 * 256 + g * 256 + b) 855309); congruence.
Qed.
Lemma rgb_to_id_some : forall labels p i, rgb_to_id labels p = Some i ->
  exists s, nth_error labels (N.to_nat (label_number p)) = Some s /\ nth_error (classes labels) i = Some (before_underscore s).
Proof.
  intros labels [[r g] b] i E. unfold rgb_to_id in E. rewrite lookup_label in E. unfold class_map in E.
  rewrite nth_error_map in E. destruct (nth_error labels (N.to_nat (label_number (r, g, b)))) as [s|] eqn:Es; [|discriminate].
  cbn [option_map bindo] in E. exists s. split; auto. now apply index_of_some.
Qed.
Lemma rgb_to_id_total : forall labels p, (N.to_nat (label_number p) < List.length labels)%nat -> exists i, rgb_to_id labels p = Some i.
Proof.
  intros labels [[r g] b] Hl. unfold rgb_to_id. rewrite lookup_label. unfold class_map. rewrite nth_error_map.
  destruct (nth_error labels (N.to_nat (label_number (r, g, b)))) as [s|] eqn:Es. 2:{ apply nth_error_None in Es. lia. }
  cbn [option_map bindo]. apply index_of_in. unfold classes. apply sorted_set_in. unfold class_map. apply in_map. eapply nth_error_In; eauto.
Qed.

(** ** Histogram *)
Lemma fold_left_rlsum : forall A (f : A -> R) l z, fold_left (fun h s => h + f s) l z = z + rlsum f l.
Proof. induction l as [|a l IH]; intros z; simpl. unfold lsum_; simpl; ring. rewrite IH. unfold lsum_; simpl; ring. Qed.
Lemma histogram_ok : forall gl H W lat sems c, precompute_latitudes gl H GEquiangular = Some lat -> (1 <= W)%nat -> rsum H (rw lat) <> 0 -> sems <> [] ->
  histogram gl H W sems c = Some (class_share (rw lat) H W sems c).
Proof.
  intros gl H W lat sems c El HW HT Hs. destruct (convert_weights_ok gl H W lat El HW HT) as (q & Eq & Vq).
  unfold histogram. rewrite Eq. cbn [bindo]. destruct (Nat.eqb_spec (List.length sems) 0) as [E|_]. { destruct sems; [congruence|discriminate]. }
  rewrite fold_left_rlsum, Rplus_0_l. unfold class_share. do 2 f_equal. apply lsum_ext. intros s _. apply (wsum_mean H W lat q Vq).
Qed.
Lemma shares_one : forall n w H W s, (forall k j, (k < H)%nat -> (j < W)%nat -> (s k j < n)%nat) -> rsum H (fun k => rsum W (fun _ => area w H W k)) = 1 ->
  rsum n (fun c => mean_on_sphere w H W (fun k j => if (s k j =? c)%nat then 1 else 0)) = 1.
Proof.
  intros n w H W s Hs Ha. unfold mean_on_sphere. rewrite (bsum_swap RT). etransitivity; [|exact Ha]. apply bsum_ext. intros k Hk. rewrite (bsum_swap RT). apply bsum_ext. intros j Hj.
  rewrite (bsum_scal_l RT). rewrite (bsum_ext n _ (fun c => if (c =? s k j)%nat then 1 else 0)). 2:{ intros c _. now rewrite Nat.eqb_sym. }
  rewrite (bsum_delta RT) by auto. ring.
Qed.
Lemma class_shares_one : forall n gl H W lat sems, precompute_latitudes gl H GEquiangular = Some lat -> (1 <= W)%nat -> rsum H (rw lat) <> 0 -> sems <> [] ->
  (forall s k j, In s sems -> (k < H)%nat -> (j < W)%nat -> (s k j < n)%nat) -> rsum n (class_share (rw lat) H W sems) = 1.
Proof.
  intros n gl H W lat sems El HW HT Hs Hn. unfold class_share, Rdiv. rewrite (bsum_scal_r RT). rewrite <- (lsum_bsum_swap RT).
  rewrite (lsum_ext _ _ (fun _ => 1)). 2:{ intros s Hin. apply shares_one. intros; eapply Hn; eauto. exact (area_total H W lat HW HT). }
  assert (C : forall l : list (nat -> nat -> nat), rlsum (fun _ => 1) l = INR (List.length l)).
  { induction l as [|a l IH]; auto. change (List.length (a :: l)) with (S (List.length l)). rewrite S_INR, <- IH. unfold lsum_. simpl. ring. }
  rewrite C. apply Rinv_r. apply not_0_INR. destruct sems; [congruence|discriminate].
Qed.
