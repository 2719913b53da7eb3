(** Properties of the quadrature rules. *)
From Coq Require Import List Arith Lia Bool Reals Lra.
From Coquelicot Require Import Coquelicot.
From Verif Require Import TensorModel TensorProofs BigSum FFTModel FFTProofs TruncModel QuadModel QuadSpec PolyProofs CCProofs.
Import ListNotations.
Local Open Scope R_scope.

Lemma half : 0.5 = / 2. Proof. lra. Qed.
Lemma rescale_exact : forall n q a b d, exact_rule n q (-1) 1 d -> exact_rule n (rescale a b q) a b d.
Proof.
  intros n q a b d E f Pf. unfold rescale; cbn [rw rn].
  set (u := (b - a) * 0.5). set (v := (b + a) * 0.5).
  rewrite (bsum_ext n _ (fun i => u * (rw q i * f (u * rn q i + v)))) by (intros; unfold u; ring).
  assert (Pa : is_poly d (fun x => f (u * x + v))) by now apply is_poly_affine.
  rewrite (bsum_scal_l RT), (E (fun x => f (u * x + v)) Pa).
  rewrite <- (RInt_scal' (fun x => f (u * x + v))) by (eapply is_poly_integrable; eauto).
  replace a with (u * (-1) + v) at 1 by (unfold u, v; lra). replace b with (u * 1 + v) at 1 by (unfold u, v; lra).
  apply (RInt_comp_lin (V := R_CompleteNormedModule) f u v (-1) 1). eapply is_poly_integrable; eauto.
Qed.
Lemma rescale_symmetric : forall n q a b, symmetric_rule n q (-1) 1 -> symmetric_rule n (rescale a b q) a b.
Proof. intros n q a b S i Hi. destruct (S i Hi) as [W X]. unfold rescale; cbn [rw rn]. rewrite W, X. split; lra. Qed.
Lemma rescale_pos : forall q a b i, a < b -> 0 < rw q i -> 0 < rw (rescale a b q) i.
Proof. intros. unfold rescale; cbn [rw]. apply Rmult_lt_0_compat; [|lra]. apply Rmult_lt_0_compat; lra. Qed.
Lemma exact_total : forall n q a b d, exact_rule n q a b d -> rsum n (rw q) = b - a.
Proof.
  intros n q a b d E. rewrite (bsum_ext n _ (fun i => rw q i * 1)) by (intros; ring).
  rewrite (E (fun _ => 1)) by (apply is_poly_mono with 0%nat; [lia|apply is_poly_const]).
  rewrite (RInt_const (V := R_CompleteNormedModule)). unfold scal; simpl; unfold mult; simpl. ring.
Qed.
Lemma exact_mono : forall n q a b d e, (e <= d)%nat -> exact_rule n q a b d -> exact_rule n q a b e.
Proof. intros n q a b d e H E f Pf. apply E. now apply is_poly_mono with e. Qed.

(** Symmetric rules gain a degree when d is even. *)
Lemma pow_odd_opp : forall d x, Nat.even d = true -> (- x) ^ S d = - x ^ S d.
Proof.
  intros d x E. apply Nat.even_spec in E. destruct E as (k & ->). rewrite <- !tech_pow_Rmult, !pow_mult.
  replace ((- x) ^ 2) with (x ^ 2) by ring. ring.
Qed.
Lemma even_pow_int : forall d, Nat.even d = true -> RInt (fun x => x ^ S d) (-1) 1 = 0.
Proof.
  intros d E. assert (P : is_poly (S d) (fun x => x ^ S d)).
  { replace (S d) with (S d + 0)%nat at 1 by lia. apply is_poly_ext with (fun x => x ^ S d * 1). intros; ring. apply is_poly_pow, is_poly_const. }
  assert (I := is_poly_integrable _ _ (-1) 1 P).
  assert (C : RInt (fun y => scal (-1) ((-1 * y + 0) ^ S d)) (-1) 1 = RInt (fun x => x ^ S d) (-1 * -1 + 0) (-1 * 1 + 0)).
  { apply (RInt_comp_lin (V := R_CompleteNormedModule) (fun x => x ^ S d) (-1) 0 (-1) 1). eapply is_poly_integrable; eauto. }
  replace (-1 * -1 + 0) with 1 in C by ring. replace (-1 * 1 + 0) with (-1) in C by ring.
  rewrite (RInt_ext _ (fun x => x ^ S d)) in C.
  2:{ intros x _. unfold scal; simpl (@Hierarchy.scal _ _ _); unfold mult; simpl (@Hierarchy.mult _ _ _).
      replace (-1 * x + 0) with (- x) by ring. rewrite pow_odd_opp by auto. change (-1 * - x ^ S d = x ^ S d). ring. }
  assert (SW := opp_RInt_swap (V := R_CompleteNormedModule) _ _ _ I).
  change (- RInt (fun x => x ^ S d) (-1) 1 = RInt (fun x => x ^ S d) 1 (-1)) in SW. rewrite <- SW in C. lra.
Qed.
Lemma exact_even_gain : forall n q d, symmetric_rule n q (-1) 1 -> Nat.even d = true -> exact_rule n q (-1) 1 d -> exact_rule n q (-1) 1 (S d).
Proof.
  intros n q d Sy Ev E f (c & F).
  set (g := fun x => rsum (S d) (fun k => c k * x ^ k)).
  assert (Pg : is_poly d g) by (exists c; auto).
  assert (FG : forall x, f x = 1 * g x + c (S d) * x ^ S d) by (intros; rewrite F; cbn [bsum_]; unfold g; cbn [bsum_]; ring).
  assert (Pp : is_poly (S d) (fun x => x ^ S d)).
  { replace (S d) with (S d + 0)%nat at 1 by lia. apply is_poly_ext with (fun x => x ^ S d * 1). intros; ring. apply is_poly_pow, is_poly_const. }
  rewrite (RInt_ext f (fun x => 1 * g x + c (S d) * x ^ S d)) by (intros; apply FG).
  rewrite RInt_lin, even_pow_int by (eauto using is_poly_integrable).
  rewrite (bsum_ext n _ (fun i => rw q i * g (rn q i) + c (S d) * (rw q i * rn q i ^ S d))) by (intros; rewrite FG; ring).
  rewrite (bsum_plus RT), (bsum_scal_l RT), (E g Pg).
  assert (Z : rsum n (fun i => rw q i * rn q i ^ S d) = - rsum n (fun i => rw q i * rn q i ^ S d)).
  { rewrite (bsum_rev RT) at 1. rewrite <- (bsum_opp RT). apply bsum_ext. intros i Hi. destruct (Sy i Hi) as [W X]. rewrite W, X.
    replace (-1 + 1 - rn q i) with (- rn q i) by ring. rewrite pow_odd_opp by auto. ring. }
  assert (Z0 : rsum n (fun i => rw q i * rn q i ^ S d) = 0) by lra. rewrite Z0. ring.
Qed.

(** ** Clenshaw-Curtis *)
Definition cc_rule (n : nat) : rule := mkRule (fun i => cos (linspace PI 0 n i)) (cc_weight n).
Lemma cc_model : forall n a b, (2 <= n)%nat ->
  exists q, clenshaw_curtiss_weights n a b = Some q /\ (forall i, rn q i = rn (rescale a b (cc_rule n)) i /\ rw q i = rw (rescale a b (cc_rule n)) i).
Proof.
  intros n a b Hn. unfold clenshaw_curtiss_weights. rewrite (proj2 (Nat.leb_gt n 1)) by lia. eexists. split; [reflexivity|].
  intros i. unfold rescale, cc_rule, cc_weight; cbn [rn rw]. split; auto. destruct (n =? 2)%nat; auto.
Qed.
Lemma cc_node : forall n i, rn (cc_rule n) i = cos (PI - PI * INR i / INR (n - 1)).
Proof. intros. unfold cc_rule, linspace; cbn [rn]. f_equal. unfold Rdiv. ring. Qed.
Lemma cc_rule_exact : forall n, (2 <= n)%nat -> exact_rule n (cc_rule n) (-1) 1 (n - 1).
Proof.
  intros n Hn f Pf. rewrite <- (cc_exact_unit n f Hn Pf). apply bsum_ext. intros i Hi. now rewrite cc_node.
Qed.
Lemma cc_rule_symmetric : forall n, (2 <= n)%nat -> symmetric_rule n (cc_rule n) (-1) 1.
Proof.
  intros n Hn i Hi. split. now apply cc_weight_sym. rewrite !cc_node. rewrite minus_INR by lia.
  assert (INR (n - 1) <> 0) by (apply not_0_INR; lia).
  replace (PI - PI * (INR (n - 1) - INR i) / INR (n - 1)) with (PI * INR i / INR (n - 1)) by (field; auto).
  rewrite (cos_minus PI), cos_PI, sin_PI. ring.
Qed.
Lemma exact_of_eq : forall n q q' a b d, (forall i, rn q i = rn q' i /\ rw q i = rw q' i) -> exact_rule n q' a b d -> exact_rule n q a b d.
Proof. intros n q q' a b d H E f Pf. rewrite <- (E f Pf). apply bsum_ext. intros i _. destruct (H i) as [-> ->]. auto. Qed.
Lemma symmetric_of_eq : forall n q q' a b, (forall i, rn q i = rn q' i /\ rw q i = rw q' i) -> symmetric_rule n q' a b -> symmetric_rule n q a b.
Proof. intros n q q' a b H E i Hi. destruct (H i) as [-> ->], (H (n - 1 - i)%nat) as [-> ->]. now apply E. Qed.

Lemma cc_exact : forall n a b, (2 <= n)%nat -> exists q, clenshaw_curtiss_weights n a b = Some q /\ exact_rule n q a b (n - 1).
Proof.
  intros n a b Hn. destruct (cc_model n a b Hn) as (q & E & H). exists q; split; auto. eapply exact_of_eq; eauto.
  now apply rescale_exact, cc_rule_exact.
Qed.
Lemma cc_exact_odd : forall n a b, (2 <= n)%nat -> Nat.odd n = true -> exists q, clenshaw_curtiss_weights n a b = Some q /\ exact_rule n q a b n.
Proof.
  intros n a b Hn Od. destruct (cc_model n a b Hn) as (q & E & H). exists q; split; auto. eapply exact_of_eq; eauto.
  apply rescale_exact. replace n with (S (n - 1)) at 3 by lia. apply exact_even_gain; auto using cc_rule_exact, cc_rule_symmetric.
  destruct n; [lia|]. rewrite Nat.odd_succ in Od. replace (S n - 1)%nat with n by lia. auto.
Qed.

(** Chebyshev polynomials and the sharpness of the degree. *)
Lemma cheb_exists : forall k, exists f g, is_poly k f /\ is_poly (S k) g /\ (forall t, f (cos t) = cos (INR k * t)) /\ (forall t, g (cos t) = cos (INR (S k) * t)).
Proof.
  induction k as [|k (f & g & Pf & Pg & Ef & Eg)].
  - exists (fun _ => 1), (fun x => x). repeat split; auto using is_poly_const, is_poly_id.
    intros; simpl; now rewrite Rmult_0_l, cos_0. intros; simpl; now rewrite Rmult_1_l.
  - exists g, (fun x => 2 * (x * g x) - f x). repeat split; auto.
    + apply is_poly_minus. apply is_poly_scal. now apply is_poly_x. apply is_poly_mono with k; auto.
    + intros t. rewrite Eg, Ef. rewrite !S_INR. replace ((INR k + 1 + 1) * t) with ((INR k + 1) * t + t) by ring. replace (INR k * t) with ((INR k + 1) * t - t) by ring.
      rewrite cos_plus, cos_minus. ring.
Qed.
Lemma cheb_RInt_poly : forall k f, is_poly k f -> (forall t, f (cos t) = cos (INR k * t)) -> RInt f (-1) 1 = cheb_int k.
Proof.
  intros k f Pf E. rewrite (poly_RInt_cos k f (fun j => if (j =? k)%nat then 1 else 0) Pf).
  - rewrite (bsum_ext _ _ (fun j => if (j =? k)%nat then cheb_int j else 0)). now rewrite (bsum_delta_f RT) by lia.
    intros i _. destruct (i =? k)%nat; ring.
  - intros t. rewrite E. rewrite (bsum_ext _ _ (fun j => if (j =? k)%nat then cos (INR j * t) else 0)). now rewrite (bsum_delta_f RT) by lia.
    intros i _. destruct (i =? k)%nat; ring.
Qed.
Lemma cc_alias : forall n r, (2 <= n)%nat -> (r <= n - 1)%nat ->
  rsum n (fun j => cc_weight n j * cos (INR (n - 1 + r) * (PI - PI * INR j / INR (n - 1)))) = cheb_int (n - 1 - r).
Proof.
  intros n r Hn Hr. rewrite <- (cc_cheb n (n - 1 - r)) by lia. apply bsum_ext. intros j Hj. f_equal. set (N := (n - 1)%nat) in *.
  assert (INR N <> 0) by (apply not_0_INR; unfold N; lia). rewrite plus_INR, minus_INR by auto.
  set (s := PI - PI * INR j / INR N).
  assert (Z : sin (INR N * s) = 0).
  { unfold s. replace (INR N * (PI - PI * INR j / INR N)) with (INR (N - j) * PI) by (rewrite minus_INR by (unfold N; lia); field; auto).
    rewrite INR_IZR_INZ. apply sin_eq_0_1. eexists; reflexivity. }
  replace ((INR N + INR r) * s) with (INR N * s + INR r * s) by ring. replace ((INR N - INR r) * s) with (INR N * s - INR r * s) by ring.
  rewrite cos_plus, cos_minus, Z. ring.
Qed.
Lemma cheb_int_inj : forall k k', (k < k')%nat -> Nat.even k = true -> Nat.even k' = true -> cheb_int k <> cheb_int k'.
Proof.
  intros k k' H E E'. unfold cheb_int. rewrite E, E'. intros Q.
  assert (K : forall j, Nat.even j = true -> 1 - INR j * INR j <> 0).
  { intros j Ej Z. assert (INR j = 1 \/ INR j = -1) as [A|A].
    { assert ((INR j - 1) * (INR j + 1) = 0) by lra. apply Rmult_integral in H0. destruct H0; [left|right]; lra. }
    - assert (j = 1)%nat by (apply INR_eq; simpl; auto). subst. discriminate.
    - pose proof (pos_INR j). lra. }
  pose proof (K k E) as K1. pose proof (K k' E') as K2. assert (L := lt_INR _ _ H). pose proof (pos_INR k).
  assert (2 * (1 - INR k' * INR k') = 2 * (1 - INR k * INR k)).
  { transitivity (2 / (1 - INR k * INR k) * ((1 - INR k * INR k) * (1 - INR k' * INR k'))). field; auto. rewrite Q. field. auto. }
  nra.
Qed.
Lemma cc_sharp : forall n a b, (2 <= n)%nat -> a < b ->
  exists q, clenshaw_curtiss_weights n a b = Some q /\ ~ exact_rule n q a b (if Nat.odd n then n + 1 else n).
Proof.
  intros n a b Hn Hab. destruct (cc_model n a b Hn) as (q & Eq & H). exists q; split; auto. intros Ex.
  set (r := if Nat.odd n then 2%nat else 1%nat).
  assert (Hr : (r <= n - 1)%nat). { unfold r. destruct (Nat.odd n) eqn:O; [|lia]. destruct (Nat.eq_dec n 2); [subst; discriminate|lia]. }
  replace (if Nat.odd n then (n + 1)%nat else n) with (n - 1 + r)%nat in Ex by (unfold r; destruct (Nat.odd n); lia).
  (* pull the rule back to [-1,1] *)
  assert (Ex1 : exact_rule n (cc_rule n) (-1) 1 (n - 1 + r)).
  { intros f Pf. set (u := 2 / (b - a)). set (v := - (a + b) / (b - a)).
    assert (Pa : is_poly (n - 1 + r) (fun x => f (u * x + v))) by now apply is_poly_affine.
    pose proof (Ex _ Pa) as X.
    rewrite (bsum_ext n _ (fun i => (b - a) / 2 * (rw (cc_rule n) i * f (rn (cc_rule n) i)))) in X.
    2:{ intros i _. destruct (H i) as [-> ->]. unfold rescale; cbn [rn rw].
        replace (u * ((b - a) * 0.5 * rn (cc_rule n) i + (b + a) * 0.5) + v) with (rn (cc_rule n) i). rewrite half. field.
        unfold u, v. rewrite half. field. lra. }
    rewrite (bsum_scal_l RT) in X.
    assert (Y : RInt (fun y => scal u (f (u * y + v))) a b = RInt f (u * a + v) (u * b + v)).
    { apply (RInt_comp_lin (V := R_CompleteNormedModule) f u v a b). eapply is_poly_integrable; eauto. }
    replace (u * a + v) with (-1) in Y by (unfold u, v; field; lra). replace (u * b + v) with 1 in Y by (unfold u, v; field; lra).
    rewrite (RInt_ext _ (fun y => u * f (u * y + v))) in Y by auto. rewrite RInt_scal' in Y by (eapply is_poly_integrable; eauto).
    rewrite <- X in Y. rewrite <- Y. unfold u. field. lra. }
  destruct (cheb_exists (n - 1 + r)) as (f & _ & Pf & _ & Ef & _).
  pose proof (Ex1 f Pf) as X. rewrite (cheb_RInt_poly _ _ Pf Ef) in X.
  rewrite (bsum_ext n _ (fun j => cc_weight n j * cos (INR (n - 1 + r) * (PI - PI * INR j / INR (n - 1))))) in X.
  2:{ intros j _. rewrite cc_node, Ef. auto. }
  rewrite cc_alias in X by auto. revert X. apply cheb_int_inj. unfold r; destruct (Nat.odd n); lia.
  - unfold r. destruct (Nat.odd n) eqn:O.
    + apply Nat.odd_spec in O. destruct O as (k & ->). replace (2 * k + 1 - 1 - 2)%nat with (2 * (k - 1))%nat by lia. apply Nat.even_spec. eexists; eauto.
    + rewrite <- Nat.negb_even in O. apply negb_false_iff in O. apply Nat.even_spec in O. destruct O as (k & ->). replace (2 * k - 1 - 1)%nat with (2 * (k - 1))%nat by lia. apply Nat.even_spec. eexists; eauto.
  - unfold r. destruct (Nat.odd n) eqn:O.
    + apply Nat.odd_spec in O. destruct O as (k & ->). replace (2 * k + 1 - 1 + 2)%nat with (2 * (k + 1))%nat by lia. apply Nat.even_spec. eexists; eauto.
    + rewrite <- Nat.negb_even in O. apply negb_false_iff in O. apply Nat.even_spec in O. destruct O as (k & ->). replace (2 * k - 1 + 1)%nat with (2 * k)%nat by lia. apply Nat.even_spec. eexists; eauto.
Qed.

(** ** Trapezoidal *)
Lemma rsum_const : forall n c, rsum n (fun _ => c) = INR n * c.
Proof. induction n; intros. simpl; ring. cbn [bsum_]. rewrite IHn, S_INR. ring. Qed.
Lemma rsum_INR : forall n, 2 * rsum n INR = INR n * (INR n - 1).
Proof. induction n. simpl; ring. cbn [bsum_]. rewrite Rmult_plus_distr_l, IHn, S_INR. ring. Qed.
Lemma trap_weight : forall n a b q, (2 <= n)%nat -> trapezoidal_weights n a b false = Some q ->
  forall i, (i < n)%nat -> rw q i = (b - a) / INR (n - 1) * (1 - (if (i =? 0)%nat then / 2 else 0) - (if (i =? n - 1)%nat then / 2 else 0)) /\
    rn q i = a + (b - a) * INR i / INR (n - 1).
Proof.
  intros n a b q Hn E i Hi. unfold trapezoidal_weights in E. rewrite Nat.add_0_r in E.
  rewrite (proj2 (Nat.eqb_neq n 0)), (proj2 (Nat.eqb_neq (n - 1) 0)) in E by lia. cbn [orb] in E. inversion E; subst; clear E; cbn [rn rw]. split; auto.
  rewrite half. destruct (Nat.eqb_spec i (n - 1)), (Nat.eqb_spec i 0); try (exfalso; lia); unfold Rdiv; field; apply not_0_INR; lia.
Qed.
Lemma trap_exact : forall n a b q, (2 <= n)%nat -> trapezoidal_weights n a b false = Some q -> exact_rule n q a b 1.
Proof.
  intros n a b q Hn E f (c & F). assert (Nz : INR (n - 1) <> 0) by (apply not_0_INR; lia).
  assert (FG : forall x, f x = c 0%nat * 1 + c 1%nat * x) by (intros; rewrite F; cbn [bsum_ pow]; ring).
  rewrite (RInt_ext f (fun x => c 0%nat * 1 + c 1%nat * x)) by (intros; apply FG).
  rewrite RInt_lin by (eauto using is_poly_integrable, is_poly_const, is_poly_id).
  assert (I1 : @eq R (RInt (fun _ : R => 1) a b) (b - a)).
  { rewrite (RInt_const (V := R_CompleteNormedModule)). unfold scal; simpl; unfold mult; simpl. ring. }
  rewrite I1. assert (I : @eq R (RInt (fun x : R => x) a b) ((b * b - a * a) / 2)).
  { rewrite (RInt_derive (fun x => x * x / 2) (fun x => x)). field. intros; auto_derive; auto; field. intros; apply continuous_id. }
  rewrite I. set (h := (b - a) / INR (n - 1)).
  rewrite (bsum_ext n _ (fun i => (c 0%nat + c 1%nat * a) * h + c 1%nat * h * h * INR i - (if (i =? 0)%nat then h / 2 * (c 0%nat + c 1%nat * a) else 0)
     - (if (i =? n - 1)%nat then h / 2 * (c 0%nat + c 1%nat * b) else 0))).
  2:{ intros i Hi. destruct (trap_weight _ _ _ _ Hn E i Hi) as [-> ->]. rewrite F. cbn [bsum_ pow]. fold h.
      replace ((b - a) * INR i / INR (n - 1)) with (h * INR i) by (unfold h; field; auto).
      assert (HB : (i = n - 1)%nat -> h * INR i = b - a) by (intros ->; unfold h; field; auto).
      destruct (Nat.eqb_spec i 0), (Nat.eqb_spec i (n - 1)); try (exfalso; lia).
      - subst i. simpl (INR 0). field.
      - rewrite (HB e). replace (c 1%nat * h * h * INR i) with (c 1%nat * h * (h * INR i)) by ring. rewrite (HB e). field.
      - ring. }
  rewrite !(bsum_sub RT), (bsum_plus RT), !(bsum_delta RT), (bsum_scal_l RT n (c 1%nat * h * h)), rsum_const by lia.
  assert (SI := rsum_INR n). assert (SI' : rsum n INR = INR n * INR (n - 1) / 2) by (rewrite minus_INR by lia; simpl (INR 1); lra).
  rewrite SI'. assert (Hn1 : INR n = INR (n - 1) + 1) by (rewrite minus_INR by lia; simpl; ring). rewrite Hn1. unfold h.
 field. auto.
Qed.
Lemma trap_symmetric : forall n a b q, (2 <= n)%nat -> trapezoidal_weights n a b false = Some q -> symmetric_rule n q a b.
Proof.
  intros n a b q Hn E i Hi. assert (INR (n - 1) <> 0) by (apply not_0_INR; lia).
  destruct (trap_weight _ _ _ _ Hn E i Hi) as [-> ->]. destruct (trap_weight _ _ _ _ Hn E (n - 1 - i) ltac:(lia)) as [-> ->]. split.
  - destruct (Nat.eqb_spec (n - 1 - i) 0), (Nat.eqb_spec (n - 1 - i) (n - 1)), (Nat.eqb_spec i 0), (Nat.eqb_spec i (n - 1)); try (exfalso; lia); ring.
  - rewrite (minus_INR _ i) by lia. field. auto.
Qed.
Lemma trap_pos : forall n a b q i, (2 <= n)%nat -> a < b -> trapezoidal_weights n a b false = Some q -> (i < n)%nat -> 0 < rw q i.
Proof.
  intros n a b q i Hn Hab E Hi. destruct (trap_weight _ _ _ _ Hn E i Hi) as [-> _]. apply Rmult_lt_0_compat.
  apply Rdiv_lt_0_compat; [lra|apply INR_pos; lia]. destruct (Nat.eqb_spec i 0), (Nat.eqb_spec i (n - 1)); try (exfalso; lia); lra.
Qed.
Lemma trap_periodic : forall n a b, (1 <= n)%nat -> exists q, trapezoidal_weights n a b true = Some q /\
  (forall i, rw q i = (b - a) / INR n /\ rn q i = a + (b - a) * INR i / INR n).
Proof.
  intros n a b Hn. unfold trapezoidal_weights. replace (n - 1 + 1)%nat with n by lia. rewrite (proj2 (Nat.eqb_neq n 0)) by lia. cbn [orb].
  eexists. split; [reflexivity|]. intros i. cbn [rn rw]. split; [ring|auto].
Qed.
(** Trigonometric exactness of the periodic rule. *)
Lemma sin_sum_zero : forall N j, (0 < j < N)%nat -> rsum N (fun k => sin (2 * PI * INR j * INR k / INR N)) = 0.
Proof.
  intros N j Hj. pose proof (dft_zero N j Hj) as Z. apply (f_equal Im) in Z. rewrite csum_Im in Z.
  rewrite <- (bsum_ext N (fun k => Im (cis (2 * PI * INR k * INR j / INR N)))). exact Z.
  intros. unfold Im, cis. cbn [snd]. f_equal. field. apply not_0_INR; lia.
Qed.
Lemma trig_sum : forall n m phi, (1 <= n)%nat -> (m < n)%nat ->
  rsum n (fun j => cos (INR m * precompute_longitudes n j + phi)) = if (m =? 0)%nat then INR n * cos phi else 0.
Proof.
  intros n m phi Hn Hm. assert (INR n <> 0) by (apply not_0_INR; lia).
  unfold precompute_longitudes, linspace. replace (n + 1 - 1)%nat with n by lia.
  destruct (Nat.eqb_spec m 0).
  - subst. rewrite (bsum_ext n _ (fun _ => cos phi)). apply rsum_const. intros. simpl (INR 0). rewrite Rmult_0_l, Rplus_0_l. auto.
  - rewrite (bsum_ext n _ (fun j => cos (2 * PI * INR m * INR j / INR n) * cos phi - sin (2 * PI * INR m * INR j / INR n) * sin phi)).
    rewrite (bsum_sub RT), !(bsum_scal_r RT), cos_sum_zero, sin_sum_zero by lia. ring.
    intros. rewrite <- cos_plus. f_equal. field. auto.
Qed.

(** ** The latitude rules of the grids *)
Lemma gl_rule_exact : forall gl n a b q d, legendre_gauss_weights gl n a b = Some q -> exact_rule n (gl n) (-1) 1 d -> exact_rule n q a b d.
Proof. intros gl n a b q d E X. unfold legendre_gauss_weights in E. destruct (n =? 0)%nat; inversion E; subst. now apply rescale_exact. Qed.
Lemma gl_rule_symmetric : forall gl n a b q, legendre_gauss_weights gl n a b = Some q -> symmetric_rule n (gl n) (-1) 1 -> symmetric_rule n q a b.
Proof. intros gl n a b q E X. unfold legendre_gauss_weights in E. destruct (n =? 0)%nat; inversion E; subst. now apply rescale_symmetric. Qed.
Lemma gl_rule_pos : forall gl n a b q, legendre_gauss_weights gl n a b = Some q -> a < b -> (forall i, (i < n)%nat -> 0 < rw (gl n) i) -> forall i, (i < n)%nat -> 0 < rw q i.
Proof. intros gl n a b q E H X i Hi. unfold legendre_gauss_weights in E. destruct (n =? 0)%nat; inversion E; subst. apply rescale_pos; auto. Qed.

(** ** Lobatto *)
Lemma legP_SS : forall k t, legP (S (S k)) t = ((2 * INR k + 3) * t * legP (S k) t - (INR k + 1) * legP k t) / (INR k + 2).
Proof.
  intros k t. unfold legP.
  assert (P : forall j, snd (leg_pair t (S j)) = fst (leg_pair t j)).
  { destruct j. reflexivity. cbn [leg_pair]. destruct (match j with O => (t, 1) | S _ => _ end) eqn:E. reflexivity. }
  change (leg_pair t (S (S k))) with (let '(p1, p2) := leg_pair t (S k) in (((2 * INR (S (S k)) - 1) * t * p1 - (INR (S (S k)) - 1) * p2) / INR (S (S k)), p1)).
  rewrite <- (P k). destruct (leg_pair t (S k)) as [p1 p2]. cbn [fst snd]. rewrite !S_INR. 
  pose proof (pos_INR k). field. lra.
Qed.
Lemma legendre_SS : forall k t, legendre (S (S k)) t = ((2 * INR k + 3) * t * legendre (S k) t - (INR k + 1) * legendre k t) / (INR k + 2).
Proof. intros. unfold legendre. cbn [legendre2]. destruct (legendre2 k t). reflexivity. Qed.
Lemma nat_ind2 : forall P : nat -> Prop, P 0%nat -> P 1%nat -> (forall k, P k -> P (S k) -> P (S (S k))) -> forall k, P k.
Proof. intros P H0 H1 HS k. assert (P k /\ P (S k)) as [? _]; auto. induction k; split; auto; destruct IHk; auto. Qed.
Lemma legP_legendre : forall k t, legP k t = legendre k t.
Proof. intros k t. revert k. apply nat_ind2; auto. intros k A B. now rewrite legP_SS, legendre_SS, A, B. Qed.
Lemma legP_parity : forall k t, legP k (- t) = (-1) ^ k * legP k t.
Proof.
  intros k t. revert k. apply nat_ind2. unfold legP; simpl; ring. unfold legP; simpl; ring.
  intros k A B. rewrite !legP_SS, A, B. simpl. unfold Rdiv. ring.
Qed.
Lemma legP_1 : forall k, legP k 1 = 1.
Proof. apply nat_ind2; auto. intros k A B. rewrite legP_SS, A, B. pose proof (pos_INR k). field. lra. Qed.
Lemma legP_m1 : forall k, legP k (-1) = (-1) ^ k.
Proof. intros. replace (legP k (-1)) with (legP k (Ropp 1)) by (f_equal; ring). rewrite legP_parity, legP_1. ring. Qed.
Lemma sweep_odd : forall n t, (2 <= n)%nat -> lobatto_sweep n (- t) = - lobatto_sweep n t.
Proof.
  intros n t Hn. unfold lobatto_sweep. rewrite !legP_parity. replace (n - 1)%nat with (S (n - 2)) by lia. cbn [pow].
  set (e := (-1) ^ (n - 2)). set (p := legP (S (n - 2)) t). set (p' := legP (n - 2) t).
  assert (E2 : e * e = 1). { unfold e. rewrite <- pow_add. replace (n - 2 + (n - 2))%nat with (2 * (n - 2))%nat by lia. apply pow_1_even. }
  assert (Ie : / e = e). { apply Rmult_eq_reg_l with e. rewrite E2. apply Rinv_r. intros Z; rewrite Z in E2; lra. intros Z; rewrite Z in E2; lra. }
  unfold Rdiv. replace (INR n * (-1 * e * p)) with (- e * (INR n * p)) by ring. rewrite Rinv_mult, Rinv_opp, Ie.
  replace (- t * (-1 * e * p) - e * p') with (e * (t * p - p')) by ring.
  replace (e * (t * p - p') * (- e * / (INR n * p))) with (- ((e * e) * ((t * p - p') * / (INR n * p)))) by ring. rewrite E2. ring.
Qed.
Lemma sweep_m1 : forall n, (2 <= n)%nat -> lobatto_sweep n (-1) = -1.
Proof.
  intros n Hn. unfold lobatto_sweep. rewrite !legP_m1. replace (n - 1)%nat with (S (n - 2)) by lia. cbn [pow].
  replace (-1 * (-1 * (-1) ^ (n - 2)) - (-1) ^ (n - 2)) with 0 by ring. unfold Rdiv. ring.
Qed.
Lemma guess_m1 : forall n, lobatto_guess n 0 = -1.
Proof. intros. unfold lobatto_guess. simpl. replace (PI * 0 / (INR n - 1)) with 0 by (unfold Rdiv; ring). rewrite cos_0. ring. Qed.
Lemma guess_antisym : forall n i, (2 <= n)%nat -> (i < n)%nat -> lobatto_guess n (n - 1 - i) = - lobatto_guess n i.
Proof.
  intros n i Hn Hi. unfold lobatto_guess. rewrite !minus_INR by lia. simpl (INR 1). assert (N1 : INR n - 1 <> 0). { pose proof (INR_ge2 n Hn). lra. }
  replace (PI * (INR n - 1 - INR i) / (INR n - 1)) with (PI - PI * INR i / (INR n - 1)) by (field; auto). rewrite cos_minus, cos_PI, sin_PI. ring.
Qed.
(** Invariant of the iteration *)
Definition lob_inv (n : nat) (t : nat -> R) : Prop := t 0%nat = -1 /\ forall i, (i < n)%nat -> t (n - 1 - i)%nat = - t i.
Lemma lob_inv_sweep : forall n t, (2 <= n)%nat -> lob_inv n t -> lob_inv n (fun i => lobatto_sweep n (t i)).
Proof. intros n t Hn [A B]. split. now rewrite A, sweep_m1. intros. rewrite B, sweep_odd; auto. Qed.
Lemma lob_iter_inv : forall n tol fuel t, (2 <= n)%nat -> lob_inv n t -> lob_inv n (fst (lobatto_iter n tol fuel t)) /\ lob_inv n (snd (lobatto_iter n tol fuel t)).
Proof.
  intros n tol fuel. induction fuel; intros t Hn I; cbn [lobatto_iter]. split; auto.
  destruct (lobatto_small n tol t _). cbn [fst snd]. split; auto using lob_inv_sweep.
  destruct fuel. cbn [fst snd]. split; auto using lob_inv_sweep. apply IHfuel; auto using lob_inv_sweep.
Qed.
(** The nodes returned are one sweep after those used for the weights. *)
Lemma lob_iter_step : forall n tol fuel t, (1 <= fuel)%nat ->
  forall i, fst (lobatto_iter n tol fuel t) i = lobatto_sweep n (snd (lobatto_iter n tol fuel t) i).
Proof.
  intros n tol fuel. induction fuel; intros t H i; [lia|]. cbn [lobatto_iter]. destruct (lobatto_small n tol t _); [reflexivity|].
  destruct fuel; [reflexivity|]. apply IHfuel. lia.
Qed.
Lemma pow_neg1_sq : forall k, (-1) ^ k * (-1) ^ k = 1.
Proof. intros. rewrite <- pow_add. replace (k + k)%nat with (2 * k)%nat by lia. apply pow_1_even. Qed.

Lemma lobatto_shape : forall n a b tol maxiter q, lobatto_weights n a b tol maxiter = Some q ->
  exists s : nat -> R, lob_inv n s /\
   (forall i, rn q i = (b - a) * 0.5 * lobatto_sweep n (s i) + (b + a) * 0.5) /\
   (forall i, rw q i = 2 / ((INR n * (INR n - 1)) * (legP (n - 1) (s i) * legP (n - 1) (s i))) * (b - a) * 0.5).
Proof.
  intros n a b tol maxiter q E. unfold lobatto_weights in E. destruct (Nat.leb_spec n 1); [discriminate|]. destruct (Nat.eqb_spec maxiter 0); [discriminate|]. cbn [orb] in E.
  assert (I0 : lob_inv n (lobatto_guess n)) by (split; [apply guess_m1|intros; apply guess_antisym; lia]).
  pose proof (lob_iter_inv n tol maxiter (lobatto_guess n) ltac:(lia) I0) as [_ I2].
  pose proof (lob_iter_step n tol maxiter (lobatto_guess n) ltac:(lia)) as St.
  destruct (lobatto_iter n tol maxiter (lobatto_guess n)) as [t s]. cbn [fst snd] in *. inversion E; subst; clear E.
  exists s. split; auto. split; intros i; unfold rescale; cbn [rn rw]. rewrite St. auto. auto.
Qed.
Lemma lobatto_structure : forall n a b tol maxiter q, lobatto_weights n a b tol maxiter = Some q ->
  rn q 0%nat = a /\ rn q (n - 1)%nat = b /\ symmetric_rule n q a b /\
  rw q 0%nat = (b - a) / (INR n * (INR n - 1)) /\ rw q (n - 1)%nat = (b - a) / (INR n * (INR n - 1)).
Proof.
  intros n a b tol maxiter q E. assert (Hn : (2 <= n)%nat). { unfold lobatto_weights in E. destruct (Nat.leb_spec n 1); [discriminate|lia]. }
  destruct (lobatto_shape _ _ _ _ _ _ E) as (s & [S0 SA] & NX & WX).
  assert (Sn : s (n - 1)%nat = 1). { replace (n - 1)%nat with (n - 1 - 0)%nat by lia. rewrite SA by lia. rewrite S0. ring. }
  assert (X1 : lobatto_sweep n 1 = 1). { replace 1 with (- -1) at 1 by ring. rewrite sweep_odd, sweep_m1 by auto. ring. }
  assert (Nn : INR n * (INR n - 1) <> 0). { pose proof (INR_ge2 n Hn). apply Rmult_integral_contrapositive. split; lra. }
  split; [|split; [|split; [|split]]].
  - rewrite NX, S0, sweep_m1 by auto. lra.
  - rewrite NX, Sn, X1. lra.
  - intros i Hi. split. rewrite !WX, SA, legP_parity by auto.
    replace ((-1) ^ (n - 1) * legP (n - 1) (s i) * ((-1) ^ (n - 1) * legP (n - 1) (s i))) with ((-1) ^ (n - 1) * (-1) ^ (n - 1) * (legP (n - 1) (s i) * legP (n - 1) (s i))) by ring.
    now rewrite pow_neg1_sq, Rmult_1_l. rewrite !NX, SA, sweep_odd by auto. lra.
  - rewrite WX, S0, legP_m1, pow_neg1_sq, half. field. split; [|]; pose proof (INR_ge2 n Hn); lra.
  - rewrite WX, Sn, legP_1, half. field. split; [|]; pose proof (INR_ge2 n Hn); lra.
Qed.
Lemma sq_nonneg_pos : forall x, x <> 0 -> 0 < x * x.
Proof. intros. apply Rsqr_pos_lt in H. exact H. Qed.
(** Derivative of the Legendre polynomial *)
Fixpoint legD (k : nat) (t : R) : R := match k with O => 0 | S j => (INR j + 1) * legP j t + t * legD j t end.
Lemma legP_rel : forall k t, (t * t - 1) * legD k t = INR k * (t * legP k t - legP (k - 1) t).
Proof.
  intros k t. revert k. apply nat_ind2. simpl; ring. simpl; unfold legP; simpl; ring.
  intros k A B. replace (S (S k) - 1)%nat with (S k) by lia. replace (S k - 1)%nat with k in B by lia.
  change (legD (S (S k)) t) with ((INR (S k) + 1) * legP (S k) t + t * legD (S k) t).
  rewrite Rmult_plus_distr_l. replace ((t * t - 1) * (t * legD (S k) t)) with (t * ((t * t - 1) * legD (S k) t)) by ring. rewrite B, legP_SS.
  rewrite !S_INR. pose proof (pos_INR k). field. lra.
Qed.
Lemma legD_derive : forall k t, is_derive (legP k) t (legD k t).
Proof.
  (* P'_{k+2} from the recurrence, using P'_{k+1} = (k+1) P_k + t P'_k *)
  assert (R2 : forall k t, legD (S (S k)) t = (2 * INR k + 3) * legP (S k) t + legD k t).
  { intros k t. change (legD (S (S k)) t) with ((INR (S k) + 1) * legP (S k) t + t * legD (S k) t).
    change (legD (S k) t) with ((INR k + 1) * legP k t + t * legD k t). 
    replace (t * ((INR k + 1) * legP k t + t * legD k t)) with (t * (INR k + 1) * legP k t + (t * t - 1) * legD k t + legD k t) by ring. rewrite legP_rel.
    destruct k. unfold legP; simpl; ring. replace (S k - 1)%nat with k by lia. rewrite legP_SS, !S_INR. pose proof (pos_INR k). field. lra. }
  intros k. assert (H : (forall t, is_derive (legP k) t (legD k t)) /\ (forall t, is_derive (legP (S k)) t (legD (S k) t))).
  { induction k as [|k [A B]].
    - split; intros t. unfold legP; simpl. apply (is_derive_const (V := R_NormedModule) 1). 
      apply (is_derive_ext (fun t => t)). intros; reflexivity. replace (legD 1 t) with 1 by (simpl; unfold legP; simpl; ring). apply (is_derive_id (K := R_AbsRing)).
    - split; auto. intros t. apply (is_derive_ext (fun t => ((2 * INR k + 3) * t * legP (S k) t - (INR k + 1) * legP k t) / (INR k + 2))). intros; now rewrite legP_SS.
      pose proof (pos_INR k).
      replace (legD (S (S k)) t) with (((2 * INR k + 3) * (legP (S k) t + t * legD (S k) t) - (INR k + 1) * legD k t) / (INR k + 2)).
      + auto_derive. split; [exists (legD (S k) t); apply B|split; [exists (legD k t); apply A|auto]].
        replace (Derive (fun x => legP (S k) x) t) with (legD (S k) t) by (symmetry; apply is_derive_unique, B).
        replace (Derive (fun x => legP k x) t) with (legD k t) by (symmetry; apply is_derive_unique, A). field. lra.
      + replace (legD k t) with (legD (S (S k)) t - (2 * INR k + 3) * legP (S k) t) by (rewrite R2; ring).
        change (legD (S (S k)) t) with ((INR (S k) + 1) * legP (S k) t + t * legD (S k) t). rewrite S_INR. field. lra. }
  intros t. apply H.
Qed.
(** Stationary points of the sweep *)
Lemma sweep_fix : forall n t, (2 <= n)%nat -> legP (n - 1) t <> 0 -> (lobatto_sweep n t = t <-> (t * t - 1) * Derive (legP (n - 1)) t = 0).
Proof.
  intros n t Hn Pz. rewrite (is_derive_unique _ _ _ (legD_derive (n - 1) t)), legP_rel.
  replace (n - 1 - 1)%nat with (n - 2)%nat by lia. unfold lobatto_sweep.
  assert (N0 : INR n <> 0) by (apply not_0_INR; lia). assert (N1 : INR (n - 1) <> 0) by (apply not_0_INR; lia).
  set (z := t * legP (n - 1) t - legP (n - 2) t). split; intros H.
  - assert (z / (INR n * legP (n - 1) t) = 0) by lra. assert (z = 0).
    { replace z with (z / (INR n * legP (n - 1) t) * (INR n * legP (n - 1) t)) by (field; auto). rewrite H0. ring. }
    rewrite H1. ring.
  - apply Rmult_integral in H. destruct H as [H|H]; [congruence|]. rewrite H. unfold Rdiv. ring.
Qed.
