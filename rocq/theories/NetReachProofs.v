(** Which grids lie within reach of each other's filters. *)
From Coq Require Import String List Arith Lia Bool Reals ZArith Lra.
From Coquelicot Require Import Coquelicot.
From Verif Require Import TensorModel QuadModel TruncModel ResampleModel ResampleSpec ResampleProofs FilterModel PsiModel PsiSpec PsiProofs PsiUseProofs PsiGeoProofs DistDiscoProofs6 NetModel NetModels NetSpec.
Import ListNotations.
Local Open Scope list_scope.
Local Open Scope R_scope.

Lemma cutoff_bound : forall h ks b c, (2 <= h)%nat -> cutoff_radius h ks b = Some c -> 0 < c /\ PI / (2 * INR (h - 1)) <= c.
Proof.
  intros h ks b c Hh H. unfold cutoff_radius in H. destruct ks as [|[|k l]]; try discriminate. apply bindo_some in H. destruct H as (f & Hf & H). apply bindo_some in H. destruct H as (u & _ & H). injection H as <-.
  assert (F : / 2 <= f). { unfold cutoff_factor in Hf. destruct b; try discriminate; injection Hf as <-; try lra. pose proof (sqrt_lt_1 1 2 ltac:(lra) ltac:(lra) ltac:(lra)) as Q. rewrite sqrt_1 in Q. lra. }
  assert (E : INR h - 1 = INR (h - 1)) by (rewrite minus_INR by lia; reflexivity). rewrite E. assert (P : 0 < INR (h - 1)) by (apply lt_0_INR; lia). pose proof PI_RGT_0 as PP. pose proof (pos_INR k) as K.
  assert (X : / 2 <= (INR k + 1) * f) by nra. pose proof (Rinv_0_lt_compat _ P) as I0. unfold Rdiv. rewrite Rinv_mult. set (v := / INR (h - 1)) in *. set (u0 := (INR k + 1) * f) in *. split.
  - clearbody u0. apply Rmult_lt_0_compat; [apply Rmult_lt_0_compat; lra|auto].
  - replace (PI * (/ 2 * v)) with (/ 2 * (PI * v)) by ring. replace (u0 * PI * v) with (u0 * (PI * v)) by ring. apply Rmult_le_compat_r; [|exact X]. apply Rlt_le, Rmult_lt_0_compat; auto.
Qed.
Lemma reaches_self : forall gl g h t c, (2 <= g_nlat g)%nat -> (1 <= g_nlon g)%nat -> 0 < c -> reaches gl (mkG (g_nlat g) (g_nlon g) t) (mkG (g_nlat g) h t) c.
Proof.
  intros gl g h t c H2 HW Hc qi qo Ei Eo. cbn [g_nlat g_nlon g_type] in *. rewrite Ei in Eo. injection Eo as <-. split; apply reached_self; auto; try lia; lra.
Qed.
Lemma reached_meridian : forall Hi Wi tin tout rc t i, (1 <= Wi)%nat -> (i < Hi)%nat -> 0 <= tin i <= PI -> 0 <= tout t <= PI -> Rabs (tin i - tout t) <= rc -> reached Hi Wi tin tout rc t.
Proof.
  intros Hi Wi tin tout rc t i HW Hh A B D. exists i, 0%nat. split; [auto|]. split; [lia|]. replace (lon Wi 0) with 0 by (unfold lon, Rdiv; cbn [INR]; ring).
  destruct (Rle_dec (tout t) (tin i)) as [L|L].
  - rewrite gcdist_meridian by lra. rewrite Rabs_pos_eq in D by lra. exact D.
  - rewrite gcdist_sym, gcdist_meridian by lra. rewrite Rabs_left1 in D by lra. lra.
Qed.
Lemma reaches_equi : forall gl gi go c, (2 <= g_nlat gi)%nat -> (2 <= g_nlat go)%nat -> (1 <= g_nlon gi)%nat -> g_type gi = GEquiangular -> g_type go = GEquiangular -> 0 < c -> reaches gl gi go c.
Proof.
  intros gl gi go c HI HO HW Ti To Hc qi qo Ei Eo. rewrite Ti in Ei. rewrite To in Eo. destruct (equi_two gl _ _ qi qo HI HO Ei Eo) as (_ & A & B & C & D). pose proof PI_RGT_0.
  split; [apply reached_meridian with 0%nat|apply reached_meridian with (g_nlat gi - 1)%nat]; try lia; rewrite ?A, ?B, ?C, ?D; try lra.
  - rewrite Rminus_diag_eq, Rabs_R0 by auto. lra.
  - rewrite Rminus_diag_eq, Rabs_R0 by auto. lra.
Qed.
Lemma nearest : forall n x, (1 <= n)%nat -> 0 <= x <= PI -> exists i, (i <= n)%nat /\ Rabs (PI * INR i / INR n - x) <= PI / (2 * INR n).
Proof.
  intros n x Hn Hx. pose proof PI_RGT_0 as PP. assert (P : 0 < INR n) by (apply lt_0_INR; lia). set (r := x * INR n / PI).
  assert (R0 : 0 <= r <= INR n). { unfold r. split. - apply Rdiv_le_0_compat; nra. - apply Rmult_le_reg_r with PI; auto. unfold Rdiv. rewrite Rmult_assoc, Rinv_l by lra. nra. }
  destruct (archimed (r - / 2)) as (A1 & A2). set (z := up (r - / 2)) in *.
  assert (Z0 : (0 <= z)%Z). { apply le_IZR. assert (-1 < IZR z) by lra. apply (lt_IZR (-1)) in H. apply IZR_le. lia. }
  assert (EZ : INR (Z.to_nat z) = IZR z) by (rewrite INR_IZR_INZ, Z2Nat.id by auto; reflexivity).
  assert (ZN : (Z.to_nat z <= n)%nat). { apply Nat.nlt_ge. intros L. apply lt_INR in L. rewrite EZ in L. assert (INR n + 1 <= IZR z). { rewrite <- EZ in *. rewrite <- S_INR. apply le_INR. apply INR_lt in L. lia. } lra. }
  exists (Z.to_nat z). split; [auto|]. rewrite EZ. replace (PI * IZR z / INR n - x) with (PI / INR n * (IZR z - r)) by (unfold r; field; lra).
  rewrite Rabs_mult. assert (Q : 0 < PI / INR n) by (apply Rdiv_lt_0_compat; auto). rewrite (Rabs_pos_eq (PI / INR n)) by lra. replace (PI / (2 * INR n)) with (PI / INR n * / 2) by (field; lra).
  apply Rmult_le_compat_l; [lra|]. apply Rabs_le. lra.
Qed.
Lemma good_range : forall n xs i, good_lats n xs -> (i < n)%nat -> 0 <= xs i <= PI.
Proof.
  intros n xs i (A & B & C & D & _) Hi. split.
  - destruct i; [auto|]. specialize (B 0%nat (S i) ltac:(lia) Hi). lra.
  - destruct (Nat.eq_dec i (n - 1)) as [->|N]; [auto|]. specialize (B i (n - 1)%nat ltac:(lia) ltac:(lia)). lra.
Qed.
Lemma reaches_spaced : forall gl gi go c, (2 <= g_nlat gi)%nat -> (1 <= g_nlon gi)%nat -> (1 <= g_nlat go)%nat -> g_type gi = GEquiangular -> supported gl (g_nlat go) (g_type go) -> 0 < c -> PI / (2 * INR (g_nlat gi - 1)) <= c -> reaches gl gi go c.
Proof.
  intros gl gi go c HI HW HO Ti So Hc Hb qi qo Ei Eo. rewrite Ti in Ei. destruct (lats_equiangular gl _ HI) as (q & E & GI & Li). rewrite Ei in E. injection E as <-.
  assert (RO : forall t, (t < g_nlat go)%nat -> 0 <= rn qo t <= PI). { destruct (supported_good gl _ _ So) as (q' & Eq' & El & GO). rewrite Eo in Eq'. injection Eq' as <-. rewrite <- El in GO. intros t Ht. eapply good_range; eauto. }
  assert (RI : forall t, (t < g_nlat gi)%nat -> 0 <= rn qi t <= PI) by (intros t Ht; eapply good_range; eauto).
  assert (X : forall t, (t < g_nlat go)%nat -> reached (g_nlat gi) (g_nlon gi) (rn qi) (rn qo) ((1 + 1 / 1000) * c) t).
  { intros t Ht. destruct (nearest (g_nlat gi - 1) (rn qo t)) as (i & Hi & D); [lia|auto|]. apply reached_meridian with i; auto; try lia. { apply RI. lia. } rewrite Li by lia. lra. }
  split; apply X; lia.
Qed.
