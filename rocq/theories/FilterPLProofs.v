(** The piecewise linear basis tabulates hat functions around distinct centres. *)
From Coq Require Import List Arith ZArith Lia Bool Reals Lra.
From Verif Require Import TensorModel BigSum ResampleModel ResampleProofs FilterModel FilterSpec AttnGradProofs AttnUpProofs AttnOpValProofs AttnPropProofs FilterProofs.
Import ListNotations.
Local Open Scope R_scope.

Lemma Rleb_cases : forall x y, (Rleb x y = true /\ x <= y) \/ (Rleb x y = false /\ y < x).
Proof. intros. unfold Rleb. destruct (Rle_dec x y); [left|right]; split; auto; lra. Qed.
Lemma hat_div : forall d w, 0 < w -> hat (d / w) = if Rleb d w then 1 - d / w else 0.
Proof.
  intros d w Hw. destruct (Rleb_cases d w) as [(-> & H)|(-> & H)].
  - apply hat_in. apply Rmult_le_reg_r with w; auto. unfold Rdiv. rewrite Rmult_assoc, Rinv_l by lra. lra.
  - apply hat_out. apply Rmult_le_reg_r with w; auto. unfold Rdiv. rewrite Rmult_assoc, Rinv_l by lra. lra.
Qed.
Lemma nth_blocks : forall A B (f : A -> list B) n (da : A) (d : B) l k, (forall x, In x l -> length (f x) = n) -> (k < length l * n)%nat -> nth k (flat_map f l) d = nth (k mod n) (f (nth (k / n) l da)) d.
Proof.
  intros A B f n da d l. induction l as [|x l IH]; intros k Hl Hk; [cbn in Hk; lia|]. cbn [length] in Hk. assert (N : (n <> 0)%nat) by lia. cbn [flat_map]. destruct (lt_dec k n).
  - rewrite app_nth1 by (rewrite Hl; [auto|left; auto]). rewrite Nat.div_small, Nat.mod_small by auto. reflexivity.
  - rewrite app_nth2; rewrite Hl by (left; auto); [|lia]. rewrite IH; [|intros; apply Hl; right; auto|lia].
    replace (k / n)%nat with (S ((k - n) / n)). 2:{ replace k with ((k - n) + 1 * n)%nat at 2 by lia. rewrite Nat.div_add by auto. lia. }
    replace (k mod n)%nat with ((k - n) mod n)%nat. 2:{ replace k with ((k - n) + 1 * n)%nat at 2 by lia. rewrite Nat.mod_add by auto. reflexivity. }
    reflexivity.
Qed.
Lemma length_blocks : forall A B (f : A -> list B) n l, (forall x, In x l -> length (f x) = n) -> length (flat_map f l) = (length l * n)%nat.
Proof. intros A B f n l. induction l as [|x l IH]; intros H; [reflexivity|]. cbn [flat_map length]. rewrite app_length, H, IH; [lia|intros; apply H; right; auto|left; auto]. Qed.
Lemma nth_map_seq : forall A (f : nat -> A) n k d, (k < n)%nat -> nth k (map f (seq 0 n)) d = f k.
Proof. intros. rewrite (nth_indep _ d (f 0%nat)) by (rewrite map_length, seq_length; auto). rewrite map_nth. rewrite seq_nth by auto. reflexivity. Qed.

(** ** Centres *)
Section PL.
Variables (nr nphi : nat) (rc : R).
Hypothesis Hphi : (1 <= nphi)%nat.
Hypothesis Hrc : 0 < rc.
Let dr := rc / ((INR nr + 1) / 2).
Let dphi := 2 * PI / INR nphi.
Lemma dr_eq : pl_dr nr rc = dr.
Proof. unfold pl_dr, dr. field. pose proof (pos_INR nr). lra. Qed.
Lemma dr_pos : 0 < dr.
Proof. unfold dr. pose proof (pos_INR nr). apply Rdiv_lt_0_compat; lra. Qed.
Lemma dphi_pos : 0 < dphi.
Proof. unfold dphi. apply Rdiv_lt_0_compat; [pose proof PI_RGT_0; lra|apply lt_0_INR; lia]. Qed.
Lemma rings_length : length (rings nr rc) = (nr / 2)%nat.
Proof. unfold rings. destruct (nr mod 2 =? 1)%nat; rewrite map_length, seq_length; reflexivity. Qed.
Lemma angles_length : length (angles nphi) = nphi.
Proof. unfold angles. rewrite map_length, seq_length. reflexivity. Qed.
Lemma centres_length : length (centres nr nphi rc) = pl_size nr nphi.
Proof.
  unfold centres, pl_size. rewrite app_length. pose proof (Nat.mod_upper_bound nr 2). replace (length (if (nr mod 2 =? 1)%nat then [(0, @None R)] else [])) with (nr mod 2)%nat by (destruct (Nat.eqb_spec (nr mod 2) 1) as [E|E]; cbn [length]; lia).
  destruct (Nat.eqb_spec nphi 1) as [->|N].
  - rewrite map_length, rings_length. lia.
  - rewrite (length_blocks _ _ _ nphi), rings_length; [lia|]. intros x _. rewrite map_length. apply angles_length.
Qed.
Lemma ring_nth : forall i, (i < nr / 2)%nat -> nth i (rings nr rc) 0 = if (nr mod 2 =? 1)%nat then INR (S i) * dr else (INR i + / 2) * dr.
Proof. intros i Hi. unfold rings. destruct (nr mod 2 =? 1)%nat; rewrite nth_map_seq by auto; reflexivity. Qed.
Lemma centre_iso : nphi = 1%nat -> forall k, (k < pl_size nr nphi)%nat -> nth k (centres nr nphi rc) (0, None) = (pl_ir_iso nr rc k, None).
Proof.
  intros E k. unfold pl_size, centres, pl_ir_iso. rewrite E, Nat.eqb_refl, dr_eq. destruct (Nat.eqb_spec (nr mod 2) 1) as [O|O]; intros Hk.
  - destruct k as [|k]; cbn [app nth]; [f_equal; cbn [INR]; ring|]. change (0, @None R) with ((fun a => (a, @None R)) 0). rewrite map_nth, ring_nth by lia. rewrite O, Nat.eqb_refl. reflexivity.
  - cbn [app]. pose proof (Nat.mod_upper_bound nr 2). change (0, @None R) with ((fun a => (a, @None R)) 0). rewrite map_nth, ring_nth by lia. destruct (Nat.eqb_spec (nr mod 2) 1); [lia|]. f_equal. f_equal. f_equal. lra.
Qed.
Lemma centre_odd : (2 <= nphi)%nat -> (nr mod 2 = 1)%nat -> forall k, (k < pl_size nr nphi)%nat ->
  nth k (centres nr nphi rc) (0, None) = (pl_ir nr nphi rc k, if (k =? 0)%nat then None else Some (pl_iphi nr nphi k)).
Proof.
  intros N O k. unfold pl_size, centres, pl_ir, pl_iphi. rewrite O, Nat.eqb_refl, dr_eq. destruct (Nat.eqb_spec nphi 1); [lia|]. intros Hk. destruct k as [|k].
  - cbn [app nth]. cbn [Nat.eqb]. f_equal. replace (Z.of_nat 0 - 1)%Z with (-1)%Z by lia. replace ((-1) / Z.of_nat nphi)%Z with (-1)%Z; [simpl; ring|]. apply (Z.div_unique _ _ _ (Z.of_nat nphi - 1)); lia.
  - cbn [app nth Nat.eqb]. rewrite (nth_blocks _ _ _ nphi 0); [|intros; rewrite map_length; apply angles_length|rewrite rings_length; lia].
    assert (D : (k / nphi < nr / 2)%nat) by (apply Nat.div_lt_upper_bound; lia). pose proof (Nat.mod_upper_bound k nphi).
    rewrite (nth_indep _ _ (nth (k / nphi) (rings nr rc) 0, Some 0)) by (rewrite map_length, angles_length; lia).
    rewrite (map_nth (fun p => (nth (k / nphi) (rings nr rc) 0, Some p))). unfold angles. rewrite nth_map_seq, ring_nth by lia. rewrite O, Nat.eqb_refl.
    replace (Z.of_nat (S k) - 1)%Z with (Z.of_nat k) by lia. rewrite <- Nat2Z.inj_div, <- Nat2Z.inj_mod. f_equal.
    + f_equal. rewrite plus_IZR, <- INR_IZR_INZ, S_INR. reflexivity.
    + f_equal. f_equal. f_equal. apply INR_IZR_INZ.
Qed.
Lemma centre_even : (2 <= nphi)%nat -> (nr mod 2 <> 1)%nat -> forall k, (k < pl_size nr nphi)%nat ->
  nth k (centres nr nphi rc) (0, None) = (pl_ir nr nphi rc k, Some (pl_iphi nr nphi k)).
Proof.
  intros N O k. unfold pl_size, centres, pl_ir, pl_iphi. rewrite dr_eq. destruct (Nat.eqb_spec (nr mod 2) 1); [lia|]. destruct (Nat.eqb_spec nphi 1); [lia|]. pose proof (Nat.mod_upper_bound nr 2). intros Hk.
  cbn [app]. rewrite (nth_blocks _ _ _ nphi 0); [|intros; rewrite map_length; apply angles_length|rewrite rings_length; lia].
  assert (D : (k / nphi < nr / 2)%nat) by (apply Nat.div_lt_upper_bound; lia). pose proof (Nat.mod_upper_bound k nphi).
  rewrite (nth_indep _ _ (nth (k / nphi) (rings nr rc) 0, Some 0)) by (rewrite map_length, angles_length; lia).
  rewrite (map_nth (fun p => (nth (k / nphi) (rings nr rc) 0, Some p))). unfold angles. rewrite nth_map_seq, ring_nth by lia. destruct (Nat.eqb_spec (nr mod 2) 1); [lia|]. f_equal. f_equal. f_equal. lra.
Qed.

(** angles of the centres lie in [-pi, pi) *)
Lemma iphi_range : forall k, - PI <= pl_iphi nr nphi k < PI.
Proof.
  intros k. unfold pl_iphi. pose proof PI_RGT_0. assert (P : 0 < INR nphi) by (apply lt_0_INR; lia). assert (D : pl_dphi nphi * INR nphi = 2 * PI) by (unfold pl_dphi; field; lra).
  assert (DP : 0 < pl_dphi nphi) by (unfold pl_dphi; apply Rdiv_lt_0_compat; lra).
  assert (G : forall a, 0 <= a < INR nphi -> - PI <= a * pl_dphi nphi - PI < PI).
  { intros a Ha. split; [assert (0 <= a * pl_dphi nphi) by (apply Rmult_le_pos; lra); lra|].
    assert (a * pl_dphi nphi < INR nphi * pl_dphi nphi) by (apply Rmult_lt_compat_r; lra). lra. }
  destruct (nr mod 2 =? 1)%nat.
  - apply G. pose proof (Z.mod_pos_bound (Z.of_nat k - 1) (Z.of_nat nphi) ltac:(lia)) as (A & B). rewrite INR_IZR_INZ. split; [apply (IZR_le 0); auto|apply IZR_lt; auto].
  - apply G. pose proof (Nat.mod_upper_bound k nphi ltac:(lia)). split; [apply pos_INR|apply lt_INR; auto].
Qed.

Section Grid.
Variables (H W : nat) (r phi : nat -> nat -> R).
Hypothesis HP : polar H W r phi.
Let f (k : nat) := tent nr nphi rc (nth k (centres nr nphi rc) (0, None)).

Lemma pl_iso_ok : nphi = 1%nat -> represents (pl_iso nr nphi H W r phi rc) (pl_size nr nphi) H W r phi rc f.
Proof.
  intros E. unfold pl_iso. rewrite dr_eq. apply table_represents; intros k i j Hk Hi Hj C; unfold f; rewrite centre_iso by auto; unfold tent; cbn [fst snd]; fold dr; rewrite hat_div by apply dr_pos.
  - apply andb_true_iff in C. destruct C as (C1 & C2). rewrite C1. split; [apply Rleb_true; auto|reflexivity].
  - intros R. apply (proj2 (Rleb_true _ _)) in R. rewrite R, andb_true_r in C. rewrite C. reflexivity.
Qed.
Lemma cd_ok : forall i j k, (i < H)%nat -> (j < W)%nat -> circle_dist (phi i j) (pl_iphi nr nphi k) = adist (phi i j) (pl_iphi nr nphi k) /\ circle_dist (phi i j - PI) (pl_iphi nr nphi k) = adist (phi i j + PI) (pl_iphi nr nphi k).
Proof.
  intros i j k Hi Hj. destruct (HP i j Hi Hj) as (_ & P). pose proof (iphi_range k). pose proof PI_RGT_0. split.
  - apply circle_dist_spec. unfold Rabs. destruct (Rcase_abs _); lra.
  - rewrite circle_dist_spec by (unfold Rabs; destruct (Rcase_abs _); lra). rewrite <- (adist_shift _ _ 1). f_equal. simpl. ring.
Qed.
Lemma adist_abs : forall a b, Rabs (adist a b) = adist a b.
Proof. intros. apply Rabs_pos_eq, adist_range. Qed.
Lemma pl_odd_ok : (2 <= nphi)%nat -> (nr mod 2 = 1)%nat -> represents (pl_odd nr nphi H W r phi rc) (pl_size nr nphi) H W r phi rc f.
Proof.
  intros N O. unfold pl_odd. rewrite dr_eq. apply table_represents; intros k i j Hk Hi Hj C; unfold f; rewrite centre_odd by auto; unfold tent; cbn [fst snd]; fold dr dphi; fold dphi in C; rewrite O, Nat.eqb_refl;
    rewrite (proj1 (cd_ok i j k Hi Hj)), adist_abs in C; rewrite ?(proj1 (cd_ok i j k Hi Hj)).
  - apply andb_true_iff in C. destruct C as (C & C3). apply andb_true_iff in C. destruct C as (C1 & C2). split; [apply Rleb_true; auto|].
    destruct (Nat.eqb_spec k 0) as [->|Nk]; cbn [orb] in C3.
    + rewrite hat_div, C1 by apply dr_pos. rewrite Nat.ltb_irrefl. ring.
    + replace (0 <? k)%nat with true by (symmetry; apply Nat.ltb_lt; lia). rewrite !hat_div, C1 by (apply dr_pos || apply dphi_pos). change dphi with (pl_dphi nphi). rewrite C3. ring.
  - intros R. apply (proj2 (Rleb_true _ _)) in R. rewrite R, andb_true_r in C. destruct (Nat.eqb_spec k 0) as [->|Nk]; cbn [orb] in C.
    + rewrite andb_true_r in C. rewrite hat_div, C by apply dr_pos. reflexivity.
    + rewrite !hat_div by (apply dr_pos || apply dphi_pos). change dphi with (pl_dphi nphi). apply andb_false_iff in C. destruct C as [C|C]; rewrite C; ring.
Qed.
Lemma ir_even : (nr mod 2 <> 1)%nat -> forall k, dr / 2 <= pl_ir nr nphi rc k.
Proof.
  intros O k. unfold pl_ir. rewrite dr_eq. destruct (Nat.eqb_spec (nr mod 2) 1); [lia|]. pose proof (pos_INR (k / nphi)). pose proof dr_pos. assert (0 <= INR (k / nphi) * dr) by (apply Rmult_le_pos; lra). lra.
Qed.
Lemma pl_even_ok : (2 <= nphi)%nat -> (nr mod 2 <> 1)%nat -> represents (pl_even nr nphi H W r phi rc) (pl_size nr nphi) H W r phi rc f.
Proof.
  intros N O. unfold pl_even. rewrite dr_eq.
  assert (PN : forall i j, (i < H)%nat -> (j < W)%nat -> (if Rleb PI (phi i j + PI) then phi i j - PI else phi i j + PI) = phi i j - PI).
  { intros i j Hi Hj. destruct (HP i j Hi Hj). rewrite (proj2 (Rleb_true _ _)) by lra. reflexivity. }
  assert (RN : forall i j, (i < H)%nat -> (j < W)%nat -> Rleb (- r i j) rc = true).
  { intros i j Hi Hj. destruct (HP i j Hi Hj). apply Rleb_true. lra. }
  apply table_represents; intros k i j Hk Hi Hj C; unfold f; rewrite centre_even by auto; unfold tent; cbn [fst snd]; fold dr; fold (pl_dphi nphi); destruct (Nat.eqb_spec (nr mod 2) 1); try lia; cbv beta in C;
    rewrite !PN, !RN, (proj1 (cd_ok i j k Hi Hj)), (proj2 (cd_ok i j k Hi Hj)), adist_abs, andb_true_r in C by auto;
    rewrite ?PN, ?RN, ?(proj1 (cd_ok i j k Hi Hj)), ?(proj2 (cd_ok i j k Hi Hj)), ?adist_abs, ?andb_true_r by auto.
  - assert (R : r i j <= rc).
    { destruct (Rleb_cases (r i j) rc) as [(E & ?)|(E & L)]; [auto|]. rewrite E, andb_false_r in C. cbn [andb orb] in C. apply andb_true_iff in C. destruct C as (C & _). apply Rleb_true in C.
      pose proof (ir_even O k). destruct (HP i j Hi Hj). rewrite Rabs_left1 in C by (pose proof dr_pos; lra).
      assert (dr <= 2 * rc). { rewrite <- dr_eq. unfold pl_dr. pose proof (pos_INR nr). apply Rmult_le_reg_r with (INR nr + 1); [lra|]. unfold Rdiv. rewrite Rmult_assoc, Rinv_l by lra. assert (0 <= INR nr * rc) by (apply Rmult_le_pos; lra). lra. } lra. }
    split; [auto|]. rewrite (proj2 (Rleb_true _ _) R), andb_true_r. fold (pl_dphi nphi). rewrite !hat_div by (apply dr_pos || apply dphi_pos).
    repeat match goal with |- context [Rleb ?a ?b] => destruct (Rleb a b) end; cbn [b2r]; ring.
  - intros R. rewrite (proj2 (Rleb_true _ _) R), andb_true_r in C. fold (pl_dphi nphi). rewrite !hat_div by (apply dr_pos || apply dphi_pos).
    revert C. repeat match goal with |- context [Rleb ?a ?b] => destruct (Rleb a b) end; cbn [andb orb]; intros C; try discriminate C; ring.
Qed.
Theorem pl_ok : represents (pl_support nr nphi H W r phi rc) (length (centres nr nphi rc)) H W r phi rc f.
Proof.
  rewrite centres_length. unfold pl_support. destruct (Nat.ltb_spec 1 nphi).
  - destruct (Nat.eqb_spec (nr mod 2) 1); [apply pl_odd_ok|apply pl_even_ok]; auto.
  - apply pl_iso_ok. lia.
Qed.
End Grid.
End PL.
