(** Normalisation of the harmonic basis; the Zernike and Fourier-Bessel bases. *)
From Coq Require Import List Arith ZArith Lia Bool Reals Lra Permutation.
From Verif Require Import TensorModel BigSum ResampleModel ResampleProofs FilterModel FilterSpec AttnGradProofs AttnUpProofs AttnOpValProofs AttnPropProofs FilterProofs FilterPLProofs FilterPLTotal FilterBasesProofs.
Import ListNotations.
Local Open Scope R_scope.

(** ** Harmonic: normalisation *)
Lemma INR_lit50 : INR 50 = 50. Proof. rewrite INR_IZR_INZ. reflexivity. Qed.
Lemma INR_lit200 : INR 200 = 200. Proof. rewrite INR_IZR_INZ. reflexivity. Qed.
Lemma rsum_nonneg : forall n f, (forall i, (i < n)%nat -> 0 <= f i) -> 0 <= rsum n f.
Proof. induction n; intros f H; cbn [bsum_]; [lra|]. pose proof (IHn f ltac:(intros; apply H; lia)). pose proof (H n ltac:(lia)). lra. Qed.
Lemma rsum_ge_term : forall n f k, (forall i, (i < n)%nat -> 0 <= f i) -> (k < n)%nat -> f k <= rsum n f.
Proof.
  induction n; intros f k H Hk; [lia|]. cbn [bsum_]. pose proof (H n ltac:(lia)). destruct (Nat.eq_dec k n) as [->|N].
  - pose proof (rsum_nonneg n f ltac:(intros; apply H; lia)). lra.
  - pose proof (IHn f k ltac:(intros; apply H; lia) ltac:(lia)). lra.
Qed.
Lemma disk_norm2_nonneg : forall f nr np, 0 <= disk_norm2 f nr np.
Proof.
  intros. unfold disk_norm2. apply rsum_nonneg. intros i Hi. apply rsum_nonneg. intros j Hj. pose proof (pos_INR i). assert (0 < INR nr) by (apply lt_0_INR; lia). assert (0 < INR np) by (apply lt_0_INR; lia). pose proof PI_RGT_0.
  assert (0 <= / INR nr) by (left; apply Rinv_0_lt_compat; auto). assert (0 <= / INR np) by (left; apply Rinv_0_lt_compat; auto).
  apply Rmult_le_pos; [apply Rmult_le_pos; [apply Rmult_le_pos; [apply pow2_ge_0|]|]|]; unfold Rdiv; apply Rmult_le_pos; lra.
Qed.
Lemma disk_norm2_scale : forall f c nr np, disk_norm2 (fun r p => f r p / c) nr np = disk_norm2 f nr np * / c ^ 2.
Proof.
  intros. unfold disk_norm2. rewrite <- (bsum_scal_r RT). apply rsum_ext'. intros i _. rewrite <- (bsum_scal_r RT). apply rsum_ext'. intros j _. unfold Rdiv. rewrite Rpow_mult_distr, pow_inv. ring.
Qed.
Lemma l2_norms_spec : forall k0 k1 k, (k < length (pairs k0 k1))%nat -> l2_norms (hm_support k0 k1 None) k = sqrt (disk_norm2 (harmonic 1 (nth k (pairs k0 k1) (0, 0)%nat)) 50 200).
Proof.
  intros k0 k1 k Hk. unfold l2_norms, disk_norm2. f_equal. rewrite INR_lit50, INR_lit200. apply rsum_ext'. intros i Hi. apply rsum_ext'. intros j Hj.
  assert (Hi' : INR i <= 49). { replace 49 with (INR 49) by (rewrite INR_IZR_INZ; reflexivity). apply le_INR. lia. }
  rewrite (represents_dense _ _ _ _ _ _ _ _ (hm_ok k0 k1 None 50 200 l2_r l2_phi 1 Rlt_0_1) k i j Hk Hi Hj) by (unfold l2_r; lra).
  unfold scaled, l2_phi. replace (l2_r i j) with ((INR i + / 2) / 50) by (unfold l2_r; lra). reflexivity.
Qed.
(** the functions of the normalised basis have unit norm on the grid used for the
    normalisation, unless the norm is below the clamp *)
Theorem hm_normalised : forall k0 k1 k, (k < length (pairs k0 k1))%nat -> / 10 ^ 12 <= sqrt (disk_norm2 (harmonic 1 (nth k (pairs k0 k1) (0, 0)%nat)) 50 200) ->
  disk_norm2 (fun r p => scaled (Some (l2_norms (hm_support k0 k1 None))) k (harmonic 1 (nth k (pairs k0 k1) (0, 0)%nat) r p)) 50 200 = 1.
Proof.
  intros k0 k1 k Hk Hc. unfold scaled. rewrite disk_norm2_scale, l2_norms_spec by auto. rewrite Rmax_left by auto. set (d := disk_norm2 _ _ _) in *. assert (D : 0 <= d) by apply disk_norm2_nonneg.
  assert (0 < / 10 ^ 12) by (apply Rinv_0_lt_compat, pow_lt; lra).
  assert (d <> 0). { intros E. rewrite E, sqrt_0 in Hc. lra. } replace (sqrt d ^ 2) with d by (simpl; rewrite Rmult_1_r, sqrt_sqrt; auto). field. auto.
Qed.
(** the constant mode is well above the clamp *)
Theorem hm_first_norm : / 10 ^ 12 <= sqrt (disk_norm2 (harmonic 1 (0, 0)%nat) 50 200).
Proof.
  rewrite <- (sqrt_pow2 (/ 10 ^ 12)) by (left; apply Rinv_0_lt_compat, pow_lt; lra). apply sqrt_le_1_alt. pose proof PI_RGT_0 as P0.
  set (F := fun i => rsum 200 (fun j => harmonic 1 (0, 0)%nat ((INR i + / 2) / INR 50) (INR j * (2 * PI / INR 200)) ^ 2 * ((INR i + / 2) / INR 50) * (1 / INR 50) * (2 * PI / INR 200))).
  assert (T : forall i j, 0 <= harmonic 1 (0, 0)%nat ((INR i + / 2) / INR 50) (INR j * (2 * PI / INR 200)) ^ 2 * ((INR i + / 2) / INR 50) * (1 / INR 50) * (2 * PI / INR 200)).
  { intros i j. rewrite INR_lit50, INR_lit200. pose proof (pos_INR i). apply Rmult_le_pos; [apply Rmult_le_pos; [apply Rmult_le_pos; [apply pow2_ge_0|]|]|]; lra. }
  apply Rle_trans with (F 0%nat). 2:{ unfold disk_norm2. fold F. apply rsum_ge_term; [|lia]. intros i _. apply rsum_nonneg. intros j _. apply T. }
  apply Rle_trans with (harmonic 1 (0, 0)%nat ((INR 0 + / 2) / INR 50) (INR 0 * (2 * PI / INR 200)) ^ 2 * ((INR 0 + / 2) / INR 50) * (1 / INR 50) * (2 * PI / INR 200)).
  2:{ apply (rsum_ge_term 200 (fun j => harmonic 1 (0, 0)%nat ((INR 0 + / 2) / INR 50) (INR j * (2 * PI / INR 200)) ^ 2 * ((INR 0 + / 2) / INR 50) * (1 / INR 50) * (2 * PI / INR 200)) 0); [|lia]. intros; apply T. }
  rewrite INR_lit50, INR_lit200. cbn [INR]. unfold harmonic, wave. cbn [fst snd Nat.even Nat.div2 INR]. rewrite !Rmult_0_l, cos_0, !Rmult_1_r.
  assert (C : 1 / 2 <= cos (PI / 2 * ((0 + / 2) / 50 / 1))).
  { rewrite <- cos_PI3. apply cos_decr_1; lra. }
  set (c := cos _) in *. assert (/ 4 <= c ^ 2) by (simpl; nra). set (q := c ^ 2) in *. assert (/ 16 <= q ^ 2) by (simpl; nra). assert (3 < PI) by (pose proof PI2_3_2; unfold PI2 in *; lra).
  apply Rle_trans with (/ 16 * ((0 + / 2) / 50) * (1 / 50) * (2 * 3 / 200)); [|apply Rmult_le_compat; try lra; apply Rmult_le_compat; try lra; apply Rmult_le_compat; lra].
  replace ((/ 10 ^ 12) ^ 2) with (/ 10 ^ 24) by (field). lra.
Qed.

(** ** Zernike *)
Definition tri (n : nat) : nat := ((n + 1) * n / 2)%nat.
Lemma tri_S : forall n, tri (S n) = (tri n + S n)%nat.
Proof. intros. unfold tri. replace ((S n + 1) * S n)%nat with ((n + 1) * n + S n * 2)%nat by lia. rewrite Nat.div_add by lia. reflexivity. Qed.
Lemma zk_size_tri : forall N, zk_size N = tri N.
Proof. intros. unfold zk_size, tri. f_equal. lia. Qed.
Lemma tri_mono : forall a b, (a <= b)%nat -> (tri a <= tri b)%nat.
Proof. intros a b H. induction H; [auto|]. rewrite tri_S. lia. Qed.
Lemma orders_S : forall N, zernike_orders (S N) = zernike_orders N ++ map (fun l => (N, (2 * Z.of_nat l - Z.of_nat N)%Z)) (seq 0 (S N)).
Proof. intros. unfold zernike_orders. rewrite (seq_S N) at 1. rewrite flat_map_app. cbn [flat_map Nat.add]. rewrite app_nil_r. reflexivity. Qed.
Lemma orders_length : forall N, length (zernike_orders N) = tri N.
Proof. induction N; [reflexivity|]. rewrite orders_S, app_length, IHN, map_length, seq_length, tri_S. reflexivity. Qed.
Lemma shifts_S : forall N, zk_shifts (S N) = zk_shifts N ++ [tri N].
Proof. intros. unfold zk_shifts. rewrite seq_S, map_app. reflexivity. Qed.
Lemma shifts_length : forall N, length (zk_shifts N) = N.
Proof. intros. unfold zk_shifts. rewrite map_length, seq_length. auto. Qed.
Lemma zk_n_S : forall N k, (k < tri (S N))%nat -> zk_n (S N) k = if (k <? tri N)%nat then zk_n N k else N.
Proof.
  intros N k Hk. unfold zk_n. rewrite shifts_S, filter_app, app_length. cbn [filter]. destruct (Nat.ltb_spec k (tri N)) as [L|L].
  - rewrite (proj2 (Nat.leb_gt _ _) L). cbn [length]. lia.
  - rewrite (proj2 (Nat.leb_le _ _) L). cbn [length].
    assert (A : filter (fun s => (s <=? k)%nat) (zk_shifts N) = zk_shifts N).
    { assert (G : forall l, (forall x, In x l -> (x <= k)%nat) -> filter (fun s => (s <=? k)%nat) l = l).
      { clear. induction l as [|x l IH]; intros H; [reflexivity|]. cbn [filter]. rewrite (proj2 (Nat.leb_le _ _)) by (apply H; left; auto). f_equal. apply IH. intros; apply H; right; auto. }
      apply G. intros x I. unfold zk_shifts in I. apply in_map_iff in I. destruct I as (n & <- & I). apply in_seq in I. fold (tri n). pose proof (tri_mono n N ltac:(lia)). lia. }
    rewrite A, shifts_length. lia.
Qed.
Lemma zk_n_lt : forall N k, (k < tri N)%nat -> (zk_n N k < N)%nat.
Proof. induction N; intros k Hk; [cbn in Hk; lia|]. rewrite zk_n_S by auto. destruct (Nat.ltb_spec k (tri N)); [pose proof (IHN k H)|]; lia. Qed.
Lemma shifts_nth : forall N n, (n < N)%nat -> nth n (zk_shifts N) 0%nat = tri n.
Proof. intros. unfold zk_shifts. rewrite nth_map_seq by auto. reflexivity. Qed.
Lemma zk_l_tri : forall N k, (k < tri N)%nat -> zk_l N k = (k - tri (zk_n N k))%nat.
Proof. intros. unfold zk_l. rewrite shifts_nth by (apply zk_n_lt; auto). reflexivity. Qed.
Lemma orders_nth : forall N k, (k < tri N)%nat -> nth k (zernike_orders N) (0%nat, 0%Z) = (zk_n N k, (2 * Z.of_nat (zk_l N k) - Z.of_nat (zk_n N k))%Z).
Proof.
  induction N; intros k Hk; [cbn in Hk; lia|]. rewrite (zk_l_tri (S N)) by auto. rewrite zk_n_S by auto. rewrite orders_S. destruct (Nat.ltb_spec k (tri N)) as [L|L].
  - rewrite app_nth1 by (rewrite orders_length; auto). rewrite IHN by auto. rewrite zk_l_tri by auto. reflexivity.
  - rewrite app_nth2 by (rewrite orders_length; auto). rewrite orders_length. rewrite tri_S in Hk. rewrite nth_map_seq by lia. reflexivity.
Qed.
Lemma orders_NoDup : forall N, NoDup (zernike_orders N).
Proof.
  intros. unfold zernike_orders. apply NoDup_flat_map; [apply seq_NoDup| |].
  - intros n _. apply NoDup_map_inj; [|apply seq_NoDup]. intros x y E. apply (f_equal snd) in E. cbn [snd] in E. lia.
  - intros x y b _ _ I I'. apply in_map_iff in I. apply in_map_iff in I'. destruct I as (u & <- & _). destruct I' as (v & E & _). injection E. auto.
Qed.
Lemma in_orders : forall N n m, In (n, m) (zernike_orders N) <-> (n < N)%nat /\ (Z.abs m <= Z.of_nat n)%Z /\ Z.even (Z.of_nat n - m) = true.
Proof.
  intros. unfold zernike_orders. rewrite in_flat_map. split.
  - intros (x & Ix & I). apply in_map_iff in I. destruct I as (l & E & Il). pose proof (f_equal fst E) as E1; pose proof (f_equal snd E) as E2; cbn [fst snd] in E1, E2; subst x; clear E. apply in_seq in Ix. apply in_seq in Il. split; [lia|]. split; [lia|].
    apply Z.even_spec. exists (Z.of_nat n - Z.of_nat l)%Z. lia.
  - intros (A & B & C). apply Z.even_spec in C. destruct C as (q & C). exists n. split; [apply in_seq; lia|]. apply in_map_iff. exists (Z.to_nat (Z.of_nat n - q)). split; [|apply in_seq; lia]. f_equal. lia.
Qed.
Lemma zk_radial_spec : forall u n m, zk_radial u n m = radial n m u.
Proof. intros. unfold zk_radial, radial. apply rsum_ext'. intros k _. unfold Rdiv. ring. Qed.
Lemma zk_norm_spec : forall n l, INR n + 1 <= 10 ^ 24 -> zk_norm n l = sqrt (PI * (if (2 * Z.of_nat l - Z.of_nat n =? 0)%Z then 2 else 1) / (2 * (INR n + 1))).
Proof.
  intros n l Hn. unfold zk_norm. apply Rmax_left. rewrite <- (sqrt_pow2 (/ 10 ^ 12)) by (left; apply Rinv_0_lt_compat, pow_lt; lra). apply sqrt_le_1_alt.
  assert (3 < PI) by (pose proof PI2_3_2; unfold PI2 in *; lra). pose proof (pos_INR n). set (b := (_ =? 0)%Z). set (e := if b then 2 else 1). assert (1 <= e) by (unfold e; destruct b; lra).
  replace ((/ 10 ^ 12) ^ 2) with (/ 10 ^ 24) by field. apply div_ge; [lra|]. apply Rle_trans with (/ 10 ^ 24 * (2 * 10 ^ 24)); [apply Rmult_le_compat_l; lra|]. assert (3 * 1 <= PI * e) by (apply Rmult_le_compat; lra). lra.
Qed.
Theorem zk_ok : forall N H W r phi rc s, zk_support N H W r phi rc = Some s -> INR N <= 10 ^ 24 ->
  represents s (length (zernike_orders N)) H W r phi rc (fun k => zernike rc (nth k (zernike_orders N) (0%nat, 0%Z))).
Proof.
  intros N H W r phi rc s E HN. unfold zk_support in E. destruct (negb _); cbn [guard bindo] in E; [|discriminate]. injection E as <-. rewrite orders_length, <- zk_size_tri. apply table_represents; intros k i j Hk Hi Hj C.
  - split; [apply Rleb_true; auto|]. rewrite zk_size_tri in Hk. rewrite orders_nth by auto. set (n := zk_n N k). set (l := zk_l N k). unfold zernike, zk_poly.
    assert (INR n + 1 <= 10 ^ 24). { assert (INR (S n) <= INR N) by (apply le_INR; apply zk_n_lt; auto). rewrite S_INR in H0. lra. }
    rewrite zk_norm_spec by auto. rewrite !zk_radial_spec. destruct (Z.ltb_spec (2 * Z.of_nat l - Z.of_nat n) 0).
    + replace (Z.to_nat (- (2 * Z.of_nat l - Z.of_nat n))) with (Z.abs_nat (2 * Z.of_nat l - Z.of_nat n)) by lia. reflexivity.
    + replace (Z.to_nat (2 * Z.of_nat l - Z.of_nat n)) with (Z.abs_nat (2 * Z.of_nat l - Z.of_nat n)) by lia. reflexivity.
  - intros R. apply (proj2 (Rleb_true _ _)) in R. congruence.
Qed.
(** evaluating raises exactly when there is nothing to evaluate *)
Theorem zk_raises : forall N H W r phi rc, zk_support N H W r phi rc = None <-> (N = 0)%nat \/ forall i j, (i < H)%nat -> (j < W)%nat -> rc < r i j.
Proof.
  intros N H W r phi rc. unfold zk_support. set (l := argwhere _ _ _ _). split.
  - intros E. destruct (Nat.eqb_spec (length l) 0) as [L|L]; cbn [negb guard bindo] in E; [|discriminate]. apply length_zero_iff_nil in L. destruct (Nat.eq_dec N 0) as [|N0]; [auto|right]. intros i j Hi Hj.
    destruct (Rleb_cases (r i j) rc) as [(C & _)|(_ & C)]; [|auto]. exfalso. assert (I : In (0%nat, i, j) l). { apply in_argwhere. repeat split; auto. rewrite zk_size_tri. destruct N; [lia|]. rewrite tri_S. lia. } rewrite L in I. destruct I.
  - intros A. replace l with (@nil idx3); [reflexivity|]. symmetry. destruct l as [|((k, i), j) l'] eqn:L; [auto|]. exfalso. assert (I : In (k, i, j) l) by (rewrite L; left; auto). apply in_argwhere in I. destruct I as ((Hk & Hi & Hj) & C). apply Rleb_true in C. destruct A as [->|A]; [cbn in Hk; lia|].
    pose proof (A i j Hi Hj). lra.
Qed.
Theorem zk_mask_spec : forall N, zk_mask N = map (fun nm => (snd nm =? 0)%Z) (zernike_orders N).
Proof.
  intros. unfold zk_mask, zernike_orders. generalize (seq 0 N). induction l as [|n l IH]; [reflexivity|]. cbn [flat_map]. rewrite map_app, IH, map_map. rewrite Nat.add_1_r. reflexivity.
Qed.
Theorem zernike_isotropic : forall rc n r p q, zernike rc (n, 0%Z) r p = zernike rc (n, 0%Z) r q.
Proof. intros. unfold zernike. cbn [Z.ltb Z.compare]. rewrite !Rmult_0_l. reflexivity. Qed.
Theorem zernike_constant : forall rc r p, zernike rc (0%nat, 0%Z) r p = / sqrt PI.
Proof.
  intros. unfold zernike, radial. cbn. rewrite !Rmult_0_l, cos_0. replace (PI * 2 / (2 * (0 + 1))) with PI by field. field. apply Rgt_not_eq. apply sqrt_lt_R0. apply PI_RGT_0.
Qed.

(** ** Fourier-Bessel *)
Definition key (e : bessel) : R * nat * nat * bool := (be_alpha e, be_m e, be_n e, be_cos e).
Lemma Rltb_cases : forall x y, (Rltb x y = true /\ x < y) \/ (Rltb x y = false /\ y <= x).
Proof. intros. unfold Rltb. destruct (Rlt_dec x y); [left|right]; split; auto; lra. Qed.
Lemma insert_perm : forall e l, Permutation (fbs_insert e l) (e :: l).
Proof. induction l as [|x l IH]; [reflexivity|]. cbn [fbs_insert]. destruct (Rltb _ _); [|reflexivity]. etransitivity; [apply perm_skip, IH|apply perm_swap]. Qed.
Lemma sort_perm : forall l, Permutation (fbs_sort l) l.
Proof. induction l as [|x l IH]; [reflexivity|]. cbn [fbs_sort]. etransitivity; [apply insert_perm|apply perm_skip, IH]. Qed.
Lemma insert_sorted : forall e l, ascending (map be_alpha l) -> ascending (map be_alpha (fbs_insert e l)).
Proof.
  induction l as [|x l IH]; intros H; [cbn; tauto|]. cbn [map ascending] in H. destruct H as (H1 & H2). cbn [fbs_insert]. destruct (Rltb_cases (be_alpha x) (be_alpha e)) as [(-> & L)|(-> & L)].
  - cbn [map ascending]. split; [|apply IH; auto]. intros y I. apply (Permutation_in _ (Permutation_map be_alpha (insert_perm e l))) in I. destruct I as [<-|I]; [lra|auto].
  - cbn [map ascending]. split; [|split; auto]. intros y [<-|I]; [auto|]. pose proof (H1 y I). lra.
Qed.
Lemma sort_sorted : forall l, ascending (map be_alpha (fbs_sort l)).
Proof. induction l as [|x l IH]; [exact I|]. apply insert_sorted. auto. Qed.
(** rows *)
Lemma in_row : forall amax m zs n e, increasing zs -> (In e (fbs_row amax m n zs) <-> exists i, (i < length zs)%nat /\ be_alpha e = nth i zs 0 /\ be_alpha e <= amax /\ be_m e = m /\ be_n e = (n + i)%nat /\ (be_cos e = true \/ (0 < m)%nat)).
Proof.
  intros amax m. induction zs as [|a zs IH]; intros n e Hinc; [split; [intros []|intros (i & Hi & _); cbn in Hi; lia]|]. cbn [increasing] in Hinc. destruct Hinc as (H1 & H2). cbn [fbs_row].
  destruct (Rltb_cases amax a) as [(-> & L)|(-> & L)].
  - split; [intros []|]. intros (i & Hi & Ea & Le & _). exfalso. destruct i as [|i]; cbn [nth] in Ea; [lra|]. assert (In (nth i zs 0) zs) by (apply nth_In; cbn in Hi; lia). pose proof (H1 _ H). lra.
  - cbn [In]. rewrite in_app_iff, IH by auto. split.
    + intros [<-|[I|(i & Hi & E1 & E2 & E3 & E4 & E5)]].
      * exists 0%nat. cbn. repeat split; auto; lia.
      * destruct (Nat.ltb_spec 0 m); [|destruct I]. destruct I as [<-|[]]. exists 0%nat. cbn. repeat split; auto; lia.
      * exists (S i). cbn [nth length]. repeat split; auto; lia.
    + intros (i & Hi & E1 & E2 & E3 & E4 & E5). destruct i as [|i].
      * cbn [nth] in E1. destruct e as [a' m' n' c']. cbn [be_alpha be_m be_n be_cos] in *. subst. rewrite Nat.add_0_r. destruct c'; [left; reflexivity|]. right. left. destruct E5 as [|E5]; [discriminate|]. apply Nat.ltb_lt in E5. rewrite E5. left. reflexivity.
      * right. right. exists i. cbn [nth length] in *. repeat split; auto; lia.
Qed.
Lemma row_lower : forall amax m zs n e, In e (fbs_row amax m n zs) -> be_m e = m /\ (n <= be_n e)%nat.
Proof.
  intros amax m. induction zs as [|a zs IH]; intros n e I; [destruct I|]. cbn [fbs_row] in I. destruct (Rltb amax a); [destruct I|]. cbn [In] in I. rewrite in_app_iff in I. destruct I as [<-|[I|I]].
  - cbn. lia.
  - destruct (0 <? m)%nat; [|destruct I]. destruct I as [<-|[]]. cbn. lia.
  - destruct (IH _ _ I). lia.
Qed.
Lemma row_NoDup : forall amax m zs n, NoDup (fbs_row amax m n zs).
Proof.
  intros amax m. induction zs as [|a zs IH]; intros n; [constructor|]. cbn [fbs_row]. destruct (Rltb amax a); [constructor|]. constructor.
  - rewrite in_app_iff. intros [I|I].
    + destruct (0 <? m)%nat; [|destruct I]. destruct I as [E|[]]. discriminate E.
    + apply row_lower in I. cbn in I. lia.
  - apply NoDup_app'; [|apply IH|].
    + destruct (0 <? m)%nat; repeat constructor. intros [].
    + intros x I I'. apply row_lower in I'. destruct (0 <? m)%nat; [|destruct I]. destruct I as [<-|[]]. cbn in I'. lia.
Qed.
Section FB.
Variables (jn : nat -> R -> R) (jn_zeros : nat -> nat -> list R).
(** what scipy's jn_zeros returns: the first positive zeros, in increasing order *)
Definition bessel_zeros (n : nat) : Prop := forall m, length (jn_zeros m n) = n /\ increasing (jn_zeros m n) /\ forall a, In a (jn_zeros m n) -> 0 < a /\ jn m a = 0.
Theorem fbs_index_spec : forall nmax mmax es, bessel_zeros nmax -> fbs_index jn_zeros nmax mmax = Some es ->
  NoDup (map key es) /\ ascending (map be_alpha es) /\
  (forall e, In e (map key es) <-> wanted (fun m => jn_zeros m nmax) nmax mmax (last (jn_zeros 0%nat nmax) 0) e).
Proof.
  intros nmax mmax es HZ E. unfold fbs_index in E. destruct (HZ 0%nat) as (L0 & _). destruct (jn_zeros 0%nat nmax) as [|z0 zs] eqn:Z; cbn [bindo] in E; [discriminate|]. rewrite <- Z in E |- *. injection E as <-.
  set (am := last (jn_zeros 0%nat nmax) 0). set (l := flat_map _ _). split; [|split; [apply sort_sorted|]].
  - apply NoDup_map_inj; [intros [a m n c] [a' m' n' c'] E; unfold key in E; cbn in E; congruence|]. apply (Permutation_NoDup (Permutation_sym (sort_perm l))). unfold l. apply NoDup_flat_map; [apply seq_NoDup|intros; apply row_NoDup|].
    intros x y b _ _ I I'. apply row_lower in I. apply row_lower in I'. destruct I as (<- & _). destruct I' as (<- & _). auto.
  - intros (((a, m), n), c). rewrite in_map_iff. unfold wanted. split.
    + intros (e & Ek & I). apply (Permutation_in _ (sort_perm l)) in I. unfold l in I. apply in_flat_map in I. destruct I as (m' & Im & I). destruct (HZ m') as (Lz & Iz & _). apply (in_row _ _ _ _ _ Iz) in I. destruct I as (i & Hi & E1 & E2 & E3 & E4 & E5).
      unfold key in Ek. injection Ek as <- <- <- <-. apply in_seq in Im. rewrite Lz in Hi. subst m'. rewrite E4. replace (1 + i - 1)%nat with i by lia. repeat split; auto; lia.
    + intros (Hm & (Hn1 & Hn2) & Ea & Le & Hc). exists (mkB a m n c). split; [reflexivity|]. apply (Permutation_in _ (Permutation_sym (sort_perm l))). unfold l. apply in_flat_map. exists m. split; [apply in_seq; lia|]. destruct (HZ m) as (Lz & Iz & _).
      apply (in_row _ _ _ _ _ Iz). exists (n - 1)%nat. cbn [be_alpha be_m be_n be_cos]. rewrite Lz. repeat split; auto; lia.
Qed.
(** the k-th function: an eigenfunction of the disk divided by its clamped norm *)
Definition fb_fun (rc : R) (e : bessel) (r phi : R) : R :=
  jn (be_m e) (be_alpha e * (r / rc)) * (if be_cos e then cos (INR (be_m e) * phi) else sin (INR (be_m e) * phi)) / fbs_norm jn e.
Theorem fbs_ok : forall es H W r phi rc, represents (fbs_support jn es H W r phi rc) (length es) H W r phi rc (fun k => fb_fun rc (nth k es (mkB 0 0 0 true))).
Proof.
  intros. unfold fbs_support. apply table_represents; intros k i j Hk Hi Hj C.
  - split; [apply Rleb_true; auto|]. reflexivity.
  - intros R. apply (proj2 (Rleb_true _ _)) in R. congruence.
Qed.
Theorem fb_edge : forall nmax mmax es k rc phi, bessel_zeros nmax -> fbs_index jn_zeros nmax mmax = Some es -> (k < length es)%nat -> 0 < rc -> fb_fun rc (nth k es (mkB 0 0 0 true)) rc phi = 0.
Proof.
  intros nmax mmax es k rc phi HZ E Hk Hrc. set (e := nth k es _). assert (I : In (key e) (map key es)) by (apply in_map, nth_In; auto).
  apply (proj2 (proj2 (fbs_index_spec _ _ _ HZ E))) in I. unfold wanted, key in I. destruct I as (_ & (Hn1 & Hn2) & Ea & _). destruct (HZ (be_m e)) as (Lz & _ & Z). unfold fb_fun. replace (be_alpha e * (rc / rc)) with (be_alpha e) by (field; lra).
  rewrite (proj2 (Z (be_alpha e) ltac:(rewrite Ea; apply nth_In; lia))). unfold Rdiv. ring.
Qed.
Theorem fb_isotropic : forall nmax mmax es k rc r p q, bessel_zeros nmax -> fbs_index jn_zeros nmax mmax = Some es -> (k < length es)%nat -> be_m (nth k es (mkB 0 0 0 true)) = 0%nat -> fb_fun rc (nth k es (mkB 0 0 0 true)) r p = fb_fun rc (nth k es (mkB 0 0 0 true)) r q.
Proof.
  intros nmax mmax es k rc r p q HZ E Hk M. unfold fb_fun. rewrite M. cbn [INR]. rewrite !Rmult_0_l. reflexivity.
Qed.
End FB.
