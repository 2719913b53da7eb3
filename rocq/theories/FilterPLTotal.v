(** Centres, values, isotropy and the sum of the piecewise linear basis. *)
From Coq Require Import List Arith ZArith Lia Bool Reals Lra.
From Verif Require Import TensorModel BigSum ResampleModel ResampleProofs FilterModel FilterSpec AttnGradProofs AttnUpProofs AttnOpValProofs AttnPropProofs FilterProofs FilterPLProofs.
Import ListNotations.
Local Open Scope R_scope.

(** ** Entries of a table at one point *)
Lemma idx3_eqb : forall a b : nat * nat * nat, (let '(k', i', j') := a in let '(k, i, j) := b in (k' =? k)%nat && (i' =? i)%nat && (j' =? j)%nat) = true <-> a = b.
Proof.
  intros ((k', i'), j') ((k, i), j). rewrite !andb_true_iff, !Nat.eqb_eq. split; [intros ((-> & ->) & ->); auto|intros E; injection E; auto].
Qed.
Lemma dense_in : forall s k i j v, NoDup (map fst s) -> In ((k, i, j), v) s -> dense_at s k i j = v.
Proof.
  induction s as [|(((k', i'), j'), w) s IH]; intros k i j v N I; [destruct I|]. cbn [map fst] in N. inversion N as [|? ? Nx Ns]; subst. unfold dense_at. cbn [lsum_].
  rewrite rlsum_cons. fold (dense_at s k i j). destruct I as [E|I].
  - injection E as -> -> -> ->. rewrite !Nat.eqb_refl. cbn [andb].
    assert (Z : dense_at s k i j = 0). { clear - Nx. induction s as [|(((k', i'), j'), w) s IH]; [reflexivity|]. unfold dense_at. rewrite rlsum_cons. fold (dense_at s k i j). rewrite IH by (intros I; apply Nx; right; auto).
      destruct ((k' =? k)%nat && (i' =? i)%nat && (j' =? j)%nat) eqn:E; [|ring]. exfalso. apply Nx. left. apply (proj1 (idx3_eqb (k', i', j') (k, i, j))). exact E. }
    rewrite Z. ring.
  - rewrite (IH k i j v) by auto. destruct ((k' =? k)%nat && (i' =? i)%nat && (j' =? j)%nat) eqn:E; [|ring].
    exfalso. apply (proj1 (idx3_eqb (k', i', j') (k, i, j))) in E. apply Nx. rewrite E. apply (in_map fst) in I. exact I.
Qed.
Lemma dense_out : forall s k i j, ~ In (k, i, j) (map fst s) -> dense_at s k i j = 0.
Proof.
  induction s as [|(((k', i'), j'), w) s IH]; intros k i j N; [reflexivity|]. unfold dense_at. rewrite rlsum_cons. fold (dense_at s k i j). rewrite IH by (intros I; apply N; right; auto).
  destruct ((k' =? k)%nat && (i' =? i)%nat && (j' =? j)%nat) eqn:E; [|ring]. exfalso. apply N. left. apply (proj1 (idx3_eqb (k', i', j') (k, i, j))). exact E.
Qed.
Definition idx3_dec : forall a b : nat * nat * nat, {a = b} + {a <> b}.
Proof. repeat decide equality. Defined.
Lemma represents_dense : forall s K H W r phi rc f, represents s K H W r phi rc f -> forall k i j, (k < K)%nat -> (i < H)%nat -> (j < W)%nat -> r i j <= rc -> dense_at s k i j = f k (r i j) (phi i j).
Proof.
  intros s K H W r phi rc f (N & I & O) k i j Hk Hi Hj Hr.
  destruct (in_dec idx3_dec (k, i, j) (map fst s)) as [D|D].
  - apply in_map_iff in D. destruct D as ((t & v) & E & D). cbn [fst] in E. subst t. rewrite (dense_in s k i j v N D). apply (I k i j v D).
  - rewrite dense_out by auto. symmetry. apply O; auto.
Qed.
Lemma total_dense : forall s K H W r phi rc f, represents s K H W r phi rc f -> forall i j, total_at s i j = rsum K (fun k => dense_at s k i j).
Proof.
  intros s K H W r phi rc f (_ & I & _) i j. unfold total_at, dense_at. rewrite <- (lsum_bsum_swap RT). apply rlsum_ext'. intros (((k', i'), j'), v) Ie.
  destruct (I _ _ _ _ Ie) as (Hk & _). rewrite (rsum_ext' K _ (fun k => if (k =? k')%nat then (if (i' =? i)%nat && (j' =? j)%nat then v else 0) else 0)).
  - rewrite (bsum_delta RT K k' _ Hk). reflexivity.
  - intros k _. rewrite (Nat.eqb_sym k' k). destruct (k =? k')%nat; reflexivity.
Qed.
Lemma represents_total : forall s K H W r phi rc f, represents s K H W r phi rc f -> forall i j, (i < H)%nat -> (j < W)%nat -> r i j <= rc -> total_at s i j = rsum K (fun k => f k (r i j) (phi i j)).
Proof. intros. rewrite (total_dense _ _ _ _ _ _ _ _ H0). apply rsum_ext'. intros. eapply represents_dense; eauto. Qed.

Lemma rlsum_nth : forall A (d : A) (g : A -> R) l, rlsum g l = rsum (length l) (fun k => g (nth k l d)).
Proof.
  intros A d g. induction l as [|x l IH]; [reflexivity|]. rewrite rlsum_cons, IH. cbn [length]. rewrite (bsum_S_l RT). reflexivity.
Qed.

Section PL.
Variables (nr nphi : nat) (rc : R).
Hypothesis Hphi : (1 <= nphi)%nat.
Hypothesis Hrc : 0 < rc.
Let dr := rc / ((INR nr + 1) / 2).
Let dphi := 2 * PI / INR nphi.
Let odd := (nr mod 2 =? 1)%nat.
Let h := (nr / 2)%nat.
Lemma nr_eq : nr = (2 * h + (if odd then 1 else 0))%nat.
Proof. unfold h, odd. pose proof (Nat.div_mod nr 2 ltac:(lia)). pose proof (Nat.mod_upper_bound nr 2). destruct (Nat.eqb_spec (nr mod 2) 1); lia. Qed.
Lemma rc_dr : rc = dr * (INR h + (if odd then 1 else / 2)).
Proof.
  unfold dr. pose proof (pos_INR h). pose proof nr_eq as E. assert (I : INR nr = 2 * INR h + (if odd then 1 else 0)).
  { rewrite E at 1. rewrite plus_INR, mult_INR. destruct odd; simpl; ring. } rewrite I. destruct odd; field; lra.
Qed.
Lemma drp : 0 < dr. Proof. exact (dr_pos nr rc Hrc). Qed.
Lemma dphip : 0 < dphi. Proof. exact (dphi_pos nphi Hphi). Qed.
Definition ringr (i : nat) : R := if odd then INR (S i) * dr else (INR i + / 2) * dr.
Lemma rings_eq : rings nr rc = map ringr (seq 0 h).
Proof. unfold rings, ringr. fold odd. destruct odd; reflexivity. Qed.
Lemma ringr_inj : forall i j, ringr i = ringr j -> i = j.
Proof.
  intros i j E. unfold ringr in E. pose proof drp. destruct odd.
  - apply Rmult_eq_reg_r in E; [|lra]. apply INR_eq in E. lia.
  - apply Rmult_eq_reg_r in E; [|lra]. apply INR_eq. lra.
Qed.
Lemma ringr_half : forall i, dr / 2 <= ringr i.
Proof.
  intros i. unfold ringr. pose proof drp. pose proof (pos_INR i). assert (0 <= INR i * dr) by (apply Rmult_le_pos; lra). destruct odd; [rewrite S_INR|]; lra.
Qed.
Definition ang (j : nat) : R := INR j * dphi - PI.
Lemma angles_eq : angles nphi = map ang (seq 0 nphi). Proof. reflexivity. Qed.
Theorem centres_NoDup : NoDup (centres nr nphi rc).
Proof.
  unfold centres. rewrite rings_eq. fold odd. apply NoDup_app'.
  - destruct odd; repeat constructor. intros [].
  - destruct (nphi =? 1)%nat.
    + apply NoDup_map_inj; [intros x y E; injection E; auto|]. apply NoDup_map_inj; [apply ringr_inj|apply seq_NoDup].
    + apply NoDup_flat_map.
      * apply NoDup_map_inj; [apply ringr_inj|apply seq_NoDup].
      * intros x _. apply NoDup_map_inj; [intros a b E; injection E; auto|]. rewrite angles_eq. apply NoDup_map_inj; [|apply seq_NoDup].
        intros a b E. unfold ang in E. pose proof dphip. apply INR_eq. apply Rmult_eq_reg_r with dphi; lra.
      * intros x y b _ _ I I'. apply in_map_iff in I. apply in_map_iff in I'. destruct I as (p & <- & _). destruct I' as (p' & E & _). injection E. auto.
  - intros x I I'. destruct odd eqn:O; [|destruct I]. destruct I as [<-|[]]. pose proof drp.
    destruct (nphi =? 1)%nat.
    + apply in_map_iff in I'. destruct I' as (a & E & Ia). injection E as ->. apply in_map_iff in Ia. destruct Ia as (i & E & _). pose proof (ringr_half i). lra.
    + apply in_flat_map in I'. destruct I' as (a & _ & I'). apply in_map_iff in I'. destruct I' as (p & E & _). discriminate E.
Qed.
(** every centre is either radial or sits on a ring *)
Lemma centre_kinds : forall c, In c (centres nr nphi rc) ->
  (snd c = None /\ (nphi = 1%nat \/ (odd = true /\ c = (0, None)))) \/ ((2 <= nphi)%nat /\ exists i j, (i < h)%nat /\ (j < nphi)%nat /\ c = (ringr i, Some (ang j))).
Proof.
  intros c I. unfold centres in I. fold odd in I. apply in_app_or in I. destruct I as [I|I].
  - left. destruct odd; [|destruct I]. destruct I as [<-|[]]. auto.
  - destruct (Nat.eqb_spec nphi 1).
    + left. apply in_map_iff in I. destruct I as (a & <- & _). auto.
    + right. split; [lia|]. rewrite rings_eq in I. apply in_flat_map in I. destruct I as (a & Ia & I). apply in_map_iff in Ia. destruct Ia as (i & <- & Ii). apply in_map_iff in I. destruct I as (p & <- & Ip).
      rewrite angles_eq in Ip. apply in_map_iff in Ip. destruct Ip as (j & <- & Ij). apply in_seq in Ii. apply in_seq in Ij. exists i, j. repeat split; lia.
Qed.
Lemma quot_nonneg : forall a w, 0 < w -> 0 <= a -> 0 <= a / w.
Proof. intros. unfold Rdiv. apply Rmult_le_pos; auto. left. apply Rinv_0_lt_compat. auto. Qed.
Lemma hat_r : forall x, 0 <= hat (Rabs x / dr) <= 1.
Proof. intros. apply hat_range, quot_nonneg; [apply drp|apply Rabs_pos]. Qed.
Lemma hat_a : forall x y, 0 <= hat (adist x y / dphi) <= 1.
Proof. intros. apply hat_range, quot_nonneg; [apply dphip|apply adist_range]. Qed.
Lemma div_ge : forall a b w, 0 < w -> b * w <= a -> b <= a / w.
Proof. intros. apply Rmult_le_reg_r with w; auto. unfold Rdiv. rewrite Rmult_assoc, Rinv_l by lra. lra. Qed.
Lemma div_le : forall a b w, 0 < w -> a <= b * w -> a / w <= b.
Proof. intros. apply Rmult_le_reg_r with w; auto. unfold Rdiv. rewrite Rmult_assoc, Rinv_l by lra. lra. Qed.
Lemma mirrored : forall r a, 0 <= r -> dr / 2 <= a -> hat (Rabs (r - a) / dr) + hat (Rabs (- r - a) / dr) <= 1.
Proof.
  intros r a Hr Ha. pose proof drp. pose proof (hat_r (r - a)). rewrite (Rabs_left1 (- r - a)) by lra. destruct (Rle_lt_dec dr (r + a)).
  - rewrite (hat_out (- (- r - a) / dr)); [lra|]. apply div_ge; lra.
  - rewrite (Rabs_left1 (r - a)) by lra. rewrite !hat_in; [|apply div_le; lra|apply div_le; lra].
    assert (1 <= (2 * a) / dr) by (apply div_ge; lra). replace (1 - - (r - a) / dr + (1 - - (- r - a) / dr)) with (2 - 2 * a / dr) by (field; lra). lra.
Qed.
Theorem tent_bounds : forall c r phi, In c (centres nr nphi rc) -> 0 <= r -> 0 <= tent nr nphi rc c r phi <= 1.
Proof.
  intros c r phi I Hr. destruct (centre_kinds c I) as [(E & _)|(_ & i & j & _ & _ & ->)]; unfold tent; fold dr dphi odd.
  - rewrite E. apply hat_r.
  - cbn [fst snd]. pose proof (hat_r (r - ringr i)) as A. pose proof (hat_r (- r - ringr i)) as B. pose proof (hat_a phi (ang j)) as C. pose proof (hat_a (phi + PI) (ang j)) as D.
    pose proof (mirrored r (ringr i) Hr (ringr_half i)) as M. set (x := hat _) in *. set (y := hat (adist phi _ / _)) in *. set (z := hat (Rabs (- r - _) / _)) in *. set (w := hat (adist (phi + _) _ / _)) in *.
    assert (0 <= x * y <= x) by (split; [apply Rmult_le_pos; lra|rewrite <- (Rmult_1_r x) at 2; apply Rmult_le_compat_l; lra]).
    assert (0 <= z * w <= z) by (split; [apply Rmult_le_pos; lra|rewrite <- (Rmult_1_r z) at 2; apply Rmult_le_compat_l; lra]). destruct odd; lra.
Qed.
(** the centre itself gets value 1 on its own hat *)
Lemma adist_self : forall a, adist a a = 0.
Proof. intros. unfold adist. rewrite Rminus_diag_eq by auto. rewrite cos_0. apply acos_1. Qed.
Lemma adist_opp : forall a, adist (a + PI) a = PI.
Proof. intros. unfold adist. replace (a + PI - a) with PI by ring. rewrite acos_cos; [auto|]. pose proof PI_RGT_0. lra. Qed.
Lemma dphi_le_pi : (2 <= nphi)%nat -> dphi <= PI.
Proof.
  intros N. unfold dphi. assert (2 <= INR nphi) by (replace 2 with (INR 2) by reflexivity; apply le_INR; auto). pose proof PI_RGT_0. apply div_le; [lra|]. rewrite Rmult_comm. apply Rmult_le_compat_l; lra.
Qed.
Lemma tent_opposite : forall i j, (2 <= nphi)%nat -> tent nr nphi rc (ringr i, Some (ang j)) (ringr i) (ang j) = 1 /\ tent nr nphi rc (ringr i, Some (ang j)) (ringr i) (ang j + PI) = 0.
Proof.
  intros i j N. unfold tent. fold dr dphi odd. cbn [fst snd]. rewrite adist_self, adist_opp. replace (ringr i - ringr i) with 0 by ring. rewrite Rabs_R0. unfold Rdiv. rewrite !Rmult_0_l. rewrite (hat_in 0) by lra.
  fold (PI / dphi). rewrite (hat_out (PI / dphi)) by (apply div_ge; [apply dphip|pose proof (dphi_le_pi N); lra]).
  pose proof (ringr_half i). pose proof drp. rewrite (hat_out (Rabs (- ringr i - ringr i) * / dr)); [destruct odd; split; ring|]. apply div_ge; [auto|]. rewrite Rabs_left1 by lra. lra.
Qed.
Theorem mask_spec : length (pl_mask nr nphi) = length (centres nr nphi rc) /\
  forall k, (k < length (centres nr nphi rc))%nat ->
   (nth k (pl_mask nr nphi) false = true <-> forall r p q, tent nr nphi rc (nth k (centres nr nphi rc) (0, None)) r p = tent nr nphi rc (nth k (centres nr nphi rc) (0, None)) r q).
Proof.
  rewrite centres_length by auto. unfold pl_mask. destruct (Nat.eqb_spec nphi 1) as [E|N].
  - rewrite repeat_length. split; [reflexivity|]. intros k Hk. rewrite centre_iso by auto. split; [intros _ r p q; reflexivity|]. intros _.
    assert (G : forall n k, (k < n)%nat -> nth k (repeat true n) false = true). { clear. induction n as [|n IH]; intros [|k] Hk; try lia; [reflexivity|]. cbn [repeat nth]. apply IH. lia. } apply G. auto.
  - rewrite map_length, seq_length. split; [reflexivity|]. intros k Hk. rewrite nth_map_seq by auto.
    assert (I : In (nth k (centres nr nphi rc) (0, None)) (centres nr nphi rc)) by (apply nth_In; rewrite centres_length by auto; auto).
    assert (N2 : (2 <= nphi)%nat) by lia. destruct (Nat.eq_dec (nr mod 2) 1) as [O|O].
    + rewrite (centre_odd nr nphi rc Hphi N2 O k Hk) in I |- *. rewrite (proj2 (Nat.eqb_eq _ _) O). cbn [andb]. destruct (Nat.eqb_spec k 0) as [->|Nk].
      * split; [|auto]. intros _ r p q. reflexivity.
      * split; [discriminate|]. intros A. exfalso. destruct (centre_kinds _ I) as [(E & _)|(_ & i & j & _ & _ & E)]; [discriminate E|]. rewrite E in A. destruct (tent_opposite i j N2) as (T1 & T0). rewrite (A (ringr i) (ang j) (ang j + PI)) in T1. lra.
    + rewrite (centre_even nr nphi rc Hphi N2 O k Hk) in I |- *. rewrite (proj2 (Nat.eqb_neq _ _) O). cbn [andb]. split; [discriminate|]. intros A. exfalso.
      destruct (centre_kinds _ I) as [(E & _)|(_ & i & j & _ & _ & E)]; [discriminate E|]. rewrite E in A. destruct (tent_opposite i j N2) as (T1 & T0). rewrite (A (ringr i) (ang j) (ang j + PI)) in T1. lra.
Qed.

(** ** Sums of hats *)
Definition tot (r phi : R) : R := rlsum (fun c => tent nr nphi rc c r phi) (centres nr nphi rc).
Lemma tot_nth : forall r phi, rsum (length (centres nr nphi rc)) (fun k => tent nr nphi rc (nth k (centres nr nphi rc) (0, None)) r phi) = tot r phi.
Proof. intros. unfold tot. rewrite (rlsum_nth _ (0, None)). reflexivity. Qed.
Lemma abs_scale : forall x i, Rabs (x * dr - i * dr) / dr = Rabs (x - i).
Proof. intros. replace (x * dr - i * dr) with ((x - i) * dr) by ring. pose proof drp. rewrite Rabs_mult, (Rabs_pos_eq dr) by lra. field. lra. Qed.
Lemma tail_min : forall r, 0 <= r <= rc -> Rmin 1 (Rmax 0 (INR h + (if odd then 1 else / 2) - r / dr)) = Rmin 1 ((rc - r) / dr).
Proof.
  intros r Hr. pose proof drp. rewrite Rmax_right.
  - f_equal. rewrite rc_dr at 1. field. lra.
  - assert (r / dr <= INR h + (if odd then 1 else / 2)); [|lra]. apply div_le; auto. rewrite Rmult_comm, <- rc_dr. lra.
Qed.
Lemma iso_rings : forall r, nphi = 1%nat -> tot r 0 = (if odd then hat (Rabs r / dr) else 0) + rsum h (fun i => hat (Rabs (r - ringr i) / dr)).
Proof.
  intros r E. unfold tot, centres. rewrite E, rings_eq. cbn [Nat.eqb]. rewrite (lsum_app RT), !lsum_map, (lsum_seq RT). fold odd. rewrite <- E. f_equal.
  destruct odd; [|reflexivity]. rewrite rlsum_cons. unfold tent. cbn [fst snd]. fold dr. rewrite Rminus_0_r. simpl. ring.
Qed.
Lemma aniso_rings : forall r phi, (2 <= nphi)%nat -> 0 <= phi < 2 * PI -> tot r phi = (if odd then hat (Rabs r / dr) else 0) + rsum h (fun i => hat (Rabs (r - ringr i) / dr) + (if odd then 0 else hat (Rabs (- r - ringr i) / dr))).
Proof.
  intros r phi N Hp. unfold tot, centres. rewrite rings_eq. destruct (Nat.eqb_spec nphi 1); [lia|]. rewrite (lsum_app RT). fold odd. f_equal.
  - destruct odd; [|reflexivity]. rewrite rlsum_cons. unfold tent. cbn [fst snd]. fold dr. rewrite Rminus_0_r. simpl. ring.
  - rewrite (lsum_flat_map RT), lsum_map, (lsum_seq RT). apply rsum_ext'. intros i Hi. rewrite lsum_map, angles_eq, lsum_map, (lsum_seq RT). unfold tent. fold dr dphi odd. cbn [fst snd].
    assert (U : rsum nphi (fun j => hat (adist phi (ang j) / dphi)) = 1) by (apply angular_unity; auto).
    assert (U' : rsum nphi (fun j => hat (adist (phi + PI) (ang j) / dphi)) = 1).
    { destruct (Rle_lt_dec PI phi).
      - rewrite <- (angular_unity nphi (phi - PI) N) by lra. apply rsum_ext'. intros j Hj. f_equal. f_equal. fold dphi. fold (ang j). rewrite <- (adist_shift (phi - PI) _ 1). f_equal. simpl. ring.
      - apply angular_unity; auto. lra. }
    rewrite (bsum_plus RT), (bsum_scal_l RT), U. destruct odd.
    + rewrite (bsum_zero' RT) by auto. ring.
    + rewrite (bsum_scal_l RT), U'. ring.
Qed.
Lemma odd_radial : forall r, odd = true -> 0 <= r <= rc -> hat (Rabs r / dr) + rsum h (fun i => hat (Rabs (r - ringr i) / dr)) = Rmin 1 ((rc - r) / dr).
Proof.
  intros r O Hr. rewrite <- (tail_min r Hr). rewrite O. pose proof drp. replace (INR h + 1) with (INR (S h)) by (rewrite S_INR; ring).
  rewrite <- hats_right; [|lia|apply quot_nonneg; lra]. rewrite (bsum_S_l RT). assert (E : r = r / dr * dr) by (field; lra).
  f_equal; [|apply rsum_ext'; intros i _; unfold ringr; rewrite O]; f_equal.
  - cbn [INR]. rewrite E at 1. replace (r / dr * dr) with (r / dr * dr - 0 * dr) by ring. rewrite abs_scale. reflexivity.
  - rewrite E at 1. rewrite abs_scale. reflexivity.
Qed.
Lemma even_right : forall r, odd = false -> dr / 2 <= r <= rc -> (1 <= h)%nat -> rsum h (fun i => hat (Rabs (r - ringr i) / dr)) = Rmin 1 ((rc - r) / dr).
Proof.
  intros r O Hr Hh. pose proof drp. rewrite <- tail_min by lra. rewrite O. replace (INR h + / 2 - r / dr) with (INR h - (r / dr - / 2)) by ring.
  assert (/ 2 <= r / dr) by (apply div_ge; lra). rewrite <- hats_right; [|lia|lra]. apply rsum_ext'. intros i _. f_equal. unfold ringr. rewrite O.
  replace r with (r / dr * dr) at 1 by (field; lra). rewrite abs_scale. f_equal. ring.
Qed.
Lemma even_left : forall r, odd = false -> - dr / 2 <= r <= dr / 2 -> (1 <= h)%nat -> rsum h (fun i => hat (Rabs (r - ringr i) / dr)) = / 2 + r / dr.
Proof.
  intros r O Hr Hh. pose proof drp. assert (r / dr <= / 2) by (apply div_le; lra). assert (- / 2 <= r / dr) by (apply div_ge; lra).
  replace (/ 2 + r / dr) with (1 + (r / dr - / 2)) by lra. rewrite <- (hats_left h) by (auto || lra). apply rsum_ext'. intros i _. f_equal. unfold ringr. rewrite O.
  replace r with (r / dr * dr) at 1 by (field; lra). rewrite abs_scale. f_equal. ring.
Qed.
(** the hats add up to one up to the last ring and fall off linearly from there;
    with an even number of rings this needs directional hats *)
Theorem tot_spec : forall r phi, (1 <= nr)%nat -> odd = true \/ (2 <= nphi)%nat -> 0 <= r <= rc -> 0 <= phi < 2 * PI -> tot r phi = Rmin 1 ((rc - r) / dr).
Proof.
  intros r phi Hn Hod Hr Hp. pose proof drp. destruct (Nat.eq_dec nphi 1) as [E|N].
  - destruct Hod as [O|Hc]; [|lia]. assert (T : tot r phi = tot r 0).
    { unfold tot. apply rlsum_ext'. intros c Ic. destruct (centre_kinds c Ic) as [(Es & _)|(Hc & _)]; [|lia]. unfold tent. rewrite Es. reflexivity. }
    rewrite T, iso_rings by auto. rewrite O at 1. apply odd_radial; auto.
  - rewrite aniso_rings by (lia || auto). destruct odd eqn:O.
    + rewrite (rsum_ext' h _ (fun i => hat (Rabs (r - ringr i) / dr))) by (intros; ring). apply odd_radial; auto.
    + rewrite (bsum_plus RT), Rplus_0_l. assert (Hh : (1 <= h)%nat) by (pose proof nr_eq as Q; rewrite O in Q; lia).
      destruct (Rle_lt_dec (dr / 2) r).
      * rewrite even_right by (auto || lra). rewrite (bsum_zero' RT); [ring|]. intros i Hi. pose proof (ringr_half i). rewrite Rabs_left1 by lra. apply hat_out. apply div_ge; lra.
      * rewrite (even_left r) by (auto || lra). rewrite (even_left (- r)) by (auto || lra). rewrite <- tail_min, O by lra. assert (1 <= INR h) by (replace 1 with (INR 1) by reflexivity; apply le_INR; auto). assert (r / dr <= / 2) by (apply div_le; lra).
        rewrite Rmax_right, Rmin_left by lra. field. lra.
Qed.
(** radial hats on an even number of rings do not: at the centre they add up to 1/2 *)
Theorem tot_even_iso : (2 <= nr)%nat -> odd = false -> nphi = 1%nat -> tot 0 0 = / 2 /\ rc - dr >= 0.
Proof.
  intros Hn O E. pose proof drp. assert (Hh : (1 <= h)%nat) by (pose proof nr_eq as Q; rewrite O in Q; lia). split.
  - rewrite iso_rings by auto. rewrite O, Rplus_0_l, even_left by (auto || lra). unfold Rdiv. ring.
  - rewrite rc_dr, O. assert (1 <= INR h) by (replace 1 with (INR 1) by reflexivity; apply le_INR; auto). assert (dr * 1 <= dr * INR h) by (apply Rmult_le_compat_l; lra). lra.
Qed.
End PL.
