(** Resampling under rotations. *)
From Coq Require Import List Arith Lia Bool Reals ZArith Lra.
From Verif Require Import TensorModel TensorProofs BigSum QuadModel FFTModel SHTSpec SHTValueProofs ResampleModel ResampleSpec ResampleProofs LossProofs2.
Import ListNotations.
Local Open Scope list_scope.
Local Open Scope R_scope.

Lemma nat_of_near : forall a b : Z, IZR a - IZR b < 1 -> IZR b - IZR a < 1 -> a = b.
Proof. intros a b H1 H2. rewrite <- minus_IZR in *. apply lt_IZR in H1, H2. lia. Qed.

Definition back (n s j : nat) : nat := ((j + (n - s mod n)) mod n)%nat.
Lemma back_lt : forall n s j, (1 <= n)%nat -> (back n s j < n)%nat.
Proof. intros. apply Nat.mod_upper_bound. lia. Qed.
Lemma back_eq : forall n s j, (1 <= n)%nat -> exists q : Z, (Z.of_nat (back n s j) = Z.of_nat j - Z.of_nat s + q * Z.of_nat n)%Z.
Proof.
  intros n s j Hn. unfold back. pose proof (Nat.mod_upper_bound s n ltac:(lia)) as U. pose proof (Nat.div_mod s n ltac:(lia)) as D.
  pose proof (Nat.div_mod (j + (n - s mod n)) n ltac:(lia)) as E. exists (Z.of_nat (s / n) + 1 - Z.of_nat ((j + (n - s mod n)) / n))%Z. nia.
Qed.
Lemma mod_unique : forall (n a b : nat) q, (a < n)%nat -> (b < n)%nat -> (Z.of_nat a = Z.of_nat b + q * Z.of_nat n)%Z -> a = b.
Proof. intros n a b q Ha Hb E. assert (q = 0)%Z by nia. nia. Qed.
(** the cell of a rotated longitude is the rotated cell, at the same relative position *)
Lemma located_lon_rot : forall wi wo sin sout j b c t b' c' t', (1 <= wi)%nat -> (1 <= wo)%nat -> (j < wo)%nat -> (sin * wo = sout * wi)%nat ->
  located_lon wi (lon wo j) b c t -> located_lon wi (lon wo (back wo sout j)) b' c' t' ->
  b' = back wi sin b /\ c' = back wi sin c /\ t' = t.
Proof.
  intros wi wo sin sout j b c t b' c' t' Hi Ho Hj Hs (Hb & Ec & Ht & V) (Hb' & Ec' & Ht' & V').
  destruct (back_eq wo sout j Ho) as [q Eq]. pose proof PI_RGT_0 as HP.
  assert (Ri : 0 < INR wi) by (apply lt_0_INR; lia). assert (Ro : 0 < INR wo) by (apply lt_0_INR; lia).
  assert (U : forall n x b t, 0 < INR n -> x = 2 * PI * INR b / INR n + t * (2 * PI / INR n) -> x * INR n = 2 * PI * (INR b + t)).
  { intros n x b0 t0 Hn ->. field. lra. }
  unfold lon in V, V'. apply (U wi) in V; [|exact Ri]. apply (U wi) in V'; [|exact Ri].
  assert (W : INR j * INR wi = INR wo * (INR b + t)).
  { apply (Rmult_eq_reg_l (2 * PI)); [|lra]. replace (2 * PI * (INR wo * (INR b + t))) with (INR wo * (2 * PI * (INR b + t))) by ring. rewrite <- V. field. lra. }
  assert (W' : INR (back wo sout j) * INR wi = INR wo * (INR b' + t')).
  { apply (Rmult_eq_reg_l (2 * PI)); [|lra]. replace (2 * PI * (INR wo * (INR b' + t'))) with (INR wo * (2 * PI * (INR b' + t'))) by ring. rewrite <- V'. field. lra. }
  rewrite (INR_IZR_INZ (back wo sout j)), Eq, plus_IZR, minus_IZR, mult_IZR, <- !INR_IZR_INZ in W'.
  assert (S : INR sin * INR wo = INR sout * INR wi) by (rewrite <- !mult_INR; f_equal; exact Hs).
  assert (K : INR b' + t' = INR b + t - INR sin + IZR q * INR wi).
  { apply (Rmult_eq_reg_l (INR wo)); [|lra]. rewrite <- W'. rewrite Rmult_plus_distr_l. unfold Rminus. rewrite Rmult_plus_distr_l, <- W.
    replace (INR wo * - INR sin) with (- (INR sin * INR wo)) by ring. rewrite S. ring. }
  assert (Z1 : (Z.of_nat b' = Z.of_nat b - Z.of_nat sin + q * Z.of_nat wi)%Z).
  { apply nat_of_near; rewrite plus_IZR, minus_IZR, mult_IZR, <- !INR_IZR_INZ; lra. }
  assert (Et : t' = t).
  { apply (f_equal IZR) in Z1. rewrite plus_IZR, minus_IZR, mult_IZR, <- !INR_IZR_INZ in Z1. lra. }
  assert (Eb : b' = back wi sin b).
  { destruct (back_eq wi sin b Hi) as [q2 E2]. apply (mod_unique wi _ _ (q - q2)%Z); auto. apply back_lt; auto. nia. }
  split; [exact Eb|]. split; [|exact Et]. rewrite Ec', Ec, Eb. unfold back. rewrite !Nat.add_mod_idemp_l by lia. f_equal. lia.
Qed.

(** values of a rotated field with polar rows *)
Lemma with_poles_rot : forall (e : bool) h w s (f g : nat -> nat -> R) a b, (1 <= h)%nat -> (1 <= w)%nat -> (b < w)%nat -> (a < if e then h + 2 else h)%nat ->
  (forall i j : nat, (i < h)%nat -> (j < w)%nat -> g i j = f i (back w s j)) -> eff_field e h w g a b = eff_field e h w f a (back w s b).
Proof.
  intros e h w s f g a b Hh Hw Hb Ha G. unfold eff_field. destruct e; [|apply G; auto]. unfold with_poles, mean_row.
  assert (M : forall i, (i < h)%nat -> rsum w (g i) = rsum w (f i)).
  { intros i Hi. transitivity (rsum w (fun j => f i (back w s j))); [apply bsum_ext; intros; apply G; auto|]. unfold back. apply (bsum_rot RT w _ (f i)). }
  destruct (Nat.eqb_spec a 0); [rewrite M by lia; reflexivity|]. destruct (Nat.eqb_spec a (h + 1)); [rewrite M by lia; reflexivity|]. apply G; auto. lia.
Qed.

(** ResampleS2 commutes with rotations by an angle that is a multiple of both grid spacings;
    stated for any tensor with the values of the rotated one *)
Lemma resample_turn : forall gl hi wi ho wo gi go mode r lead X X' sin sout, supported gl hi gi -> supported gl ho go ->
  (2 <= hi)%nat -> (2 <= wi)%nat -> (1 <= wo)%nat -> mode <> MUnknown -> resample_init gl hi wi ho wo gi go mode = Some r ->
  shp X = lead ++ [hi; wi] -> (sin * wo = sout * wi)%nat -> teq X' (roll_last sin X) ->
  exists Y Y', resample r X = Some Y /\ resample r X' = Some Y' /\ shp Y = lead ++ [ho; wo] /\ teq Y' (roll_last sout Y).
Proof.
  intros gl hi wi ho wo gi go mode r lead X X' sin sout Si So Hhi Hwi Hwo Hm Er SX Hs T.
  destruct (init_spec gl hi wi ho wo gi go mode Si So Hhi Hwi Hwo Hm r Er) as [RS SK].
  assert (SX' : shp X' = lead ++ [hi; wi]) by (rewrite (proj1 T); exact SX).
  destruct (rs_skip r) eqn:K.
  - destruct (skip_same gl hi wi ho wo gi go mode Si So Hhi Hwi Hwo Hm r Er K) as (E1 & E2 & _).
    assert (sin = sout) by nia. subst. exists X, X'. unfold resample. rewrite K. auto.
  - destruct (resample_value r _ _ _ _ _ _ _ lead X RS ltac:(lia) Hwi K SX) as (Y & EY & SY & VY).
    destruct (resample_value r _ _ _ _ _ _ _ lead X' RS ltac:(lia) Hwi K SX') as (Y' & EY' & SY' & VY').
    exists Y, Y'. split; [auto|]. split; [auto|]. split; [auto|]. split; [cbn [shp roll_last]; congruence|].
    intros i Vi. rewrite SY' in Vi. destruct (valid_last2 _ _ _ _ Vi) as (L & p & j & -> & HL & VL & Hp & Hj).
    rewrite (roll_last_value R Y lead ho wo sout L p j) by auto. unfold rollv.
    destruct (VY' L p j HL Hp Hj) as (k1 & b1 & c1 & A1 & A2 & A3 & F1). change (val Y' (L ++ [p; j])) with (field Y' L p j). rewrite F1.
    set (j' := ((j + (wo - sout mod wo)) mod wo)%nat). assert (Hj' : (j' < wo)%nat) by (apply Nat.mod_upper_bound; lia).
    destruct (VY L p j' HL Hp Hj') as (k2 & b2 & c2 & B1 & B2 & B3 & F2). change (val Y (L ++ [p; j'])) with (field Y L p j'). rewrite F2. cbv zeta.
    assert (k2 = k1) by lia. subst k2.
    destruct (sp_lon _ _ _ _ _ _ _ _ RS j Hj) as (b1' & c1' & C1 & C2 & L1). destruct (sp_lon _ _ _ _ _ _ _ _ RS j' Hj') as (b2' & c2' & D1 & D2 & L2).
    assert (b1' = b1) by lia. assert (c1' = c1) by lia. assert (b2' = b2) by lia. assert (c2' = c2) by lia. subst b1' c1' b2' c2'.
    destruct (located_lon_rot wi wo sin sout j b1 c1 _ b2 c2 _ ltac:(lia) Hwo Hj Hs L1 L2) as (Eb & Ec & Et). rewrite Eb, Ec, Et.
    assert (Hb : (b1 < wi)%nat) by (apply L1). assert (Hc : (c1 < wi)%nat) by (destruct L1 as (_ & -> & _); apply Nat.mod_upper_bound; lia).
    destruct (sp_lat _ _ _ _ _ _ _ _ RS p Hp) as (k1' & G1 & (G2 & _)). assert (k1' = k1) by lia. subst k1'.
    assert (G : forall a b, (a < hi)%nat -> (b < wi)%nat -> field X' L a b = field X L a (back wi sin b)).
    { intros a b Ha Hb0. unfold field. rewrite (proj2 T). rewrite (roll_last_value R X lead hi wi sin L a b) by auto. reflexivity.
      rewrite SX'. apply valid_2'; auto. }
    assert (Q : forall a b, (a < k1 + 2)%nat -> (b < wi)%nat -> eff_field (need_expand hi ho (lats gl hi gi) (lats gl ho go)) hi wi (field X' L) a b = eff_field (need_expand hi ho (lats gl hi gi) (lats gl ho go)) hi wi (field X L) a (back wi sin b)).
    { intros a b Ha Hb0. apply with_poles_rot; auto; try lia. unfold eff_n in G2. destruct (need_expand hi ho _ _); lia. }
    rewrite !Q by (auto; lia). reflexivity.
Qed.
