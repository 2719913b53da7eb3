(** Whole-sphere quadrature, and Lobatto totals. *)
From Coq Require Import List Arith Lia ZArith Znumtheory Bool Reals Lra.
From Coquelicot Require Import Coquelicot.
From Verif Require Import TensorModel TensorProofs BigSum FFTModel FFTProofs TruncModel QuadModel QuadSpec PolyProofs CCProofs QuadProofs.
Import ListNotations.
Local Open Scope R_scope.

(** ** QuadratureS2 on products of a polynomial in cos(theta) and a harmonic in longitude *)
Lemma quad_rule_lat : forall gl nlat g, precompute_quadrature_weights gl nlat g (-1) 1 false = quadrature_s2_rule gl nlat g.
Proof. intros. destruct g; reflexivity. Qed.
Lemma lat_value : forall gl nlat g q lat, quadrature_s2_rule gl nlat g = Some q -> precompute_latitudes gl nlat g = Some lat ->
  forall i, rn lat i = acos (rn q (nlat - 1 - i)%nat) /\ rw lat i = rw q (nlat - 1 - i)%nat.
Proof.
  intros gl nlat g q lat E L. unfold precompute_latitudes in L. rewrite quad_rule_lat, E in L. inversion L; subst. intros; split; reflexivity.
Qed.
Lemma sphere_quad : forall gl nlat nlon g q lat d lead A p m phi normalize x,
  quadrature_s2_rule gl nlat g = Some q -> precompute_latitudes gl nlat g = Some lat ->
  exact_rule nlat q (-1) 1 d -> symmetric_rule nlat q (-1) 1 -> (forall i, (i < nlat)%nat -> -1 <= rn q i <= 1) ->
  (1 <= nlon)%nat -> (m < nlon)%nat -> is_poly d p -> (2 <= length lead)%nat ->
  shp x = lead ++ [nlat; nlon] ->
  (forall L i j, valid lead L -> (i < nlat)%nat -> (j < nlon)%nat ->
     val x (L ++ [i; j]) = A L * p (cos (rn lat i)) * cos (INR m * precompute_longitudes nlon j + phi)) ->
  exists y, quadrature_s2 gl nlat nlon g normalize x = Some y /\
    teq y (mkT lead (fun L => A L * ((if (m =? 0)%nat then 2 * PI * cos phi else 0) * RInt p (-1) 1) / (if normalize then 4 * PI else 1))).
Proof.
  intros gl nlat nlon g q lat d lead A p m phi normalize x Eq El Ex Sy Nd Hl Hm Pp HL Sx Vx.
  pose proof (lat_value _ _ _ _ _ Eq El) as LV. assert (PI0 := PI_RGT_0). assert (Nz : INR nlon <> 0) by (apply not_0_INR; lia).
  unfold quadrature_s2. rewrite Eq. unfold integrate_last2.
  assert (Nd2 : ndim x = (length lead + 2)%nat) by (unfold ndim; rewrite Sx, app_length; reflexivity).
  rewrite Nd2. replace (length lead + 2 - 2)%nat with (length lead) by lia.
  assert (D1 : dimsz x (length lead) = nlat) by (unfold dimsz; rewrite Sx, app_nth2, Nat.sub_diag by lia; reflexivity).
  assert (D2 : dimsz x (length lead + 1) = nlon). { unfold dimsz; rewrite Sx, app_nth2 by lia. replace (length lead + 1 - length lead)%nat with 1%nat by lia. reflexivity. }
  rewrite D1, D2. cbn [shp quad_weight_tensor]. rewrite (proj2 (Nat.leb_le 2 _)) by lia. unfold shape_eqb at 1.
  match goal with |- context [if true && ?b then _ else _] => assert (Eb : b = true) by (destruct (list_eq_dec Nat.eq_dec _ _); [reflexivity|congruence]) end.
  rewrite Eb. cbn [andb]. eexists. split; [reflexivity|]. split.
  - cbn [shp]. replace (2 - length lead)%nat with 0%nat by lia. cbn [repeat app]. rewrite Sx, firstn_app, Nat.sub_diag, firstn_all. cbn [firstn]. apply app_nil_r.
  - cbn [shp]. replace (2 - length lead)%nat with 0%nat by lia. cbn [repeat app skipn]. rewrite Sx, firstn_app, Nat.sub_diag, firstn_all. cbn [firstn]. rewrite app_nil_r.
    intros L VL. cbn [val].
    set (nf := if normalize then 4 * PI else 1). assert (Hnf : nf <> 0) by (unfold nf; destruct normalize; lra).
    rewrite (bsum_ext nlat _ (fun a => A L * (2 * PI / INR nlon / nf) * rsum nlon (fun b => cos (INR m * precompute_longitudes nlon b + phi)) * (rw q a * p (rn q (nlat - 1 - a)%nat)))).
    2:{ intros a Ha. rewrite <- (bsum_scal_l RT), <- (bsum_scal_r RT). apply bsum_ext. intros b Hb. rewrite Vx by auto.
        destruct (LV a) as [-> _]. rewrite cos_acos by (apply Nd; lia). unfold quad_weight_tensor; cbn [val nth]. unfold nf. destruct normalize; field; auto. split; lra. }
    rewrite (bsum_scal_l RT). rewrite (trig_sum nlon m phi Hl Hm).
    rewrite (bsum_rev RT). rewrite (bsum_ext nlat _ (fun i => rw q i * p (rn q i))).
    2:{ intros i Hi. destruct (Sy i Hi) as [-> _]. replace (nlat - 1 - (nlat - 1 - i))%nat with i by lia. auto. }
    rewrite (Ex p Pp). destruct (m =? 0)%nat; field; auto.
Qed.
Lemma cc_nodes_range : forall n q, (2 <= n)%nat -> clenshaw_curtiss_weights n (-1) 1 = Some q -> forall i, -1 <= rn q i <= 1.
Proof.
  intros n q Hn E i. destruct (cc_model n (-1) 1 Hn) as (q' & E' & H). rewrite E in E'. inversion E'; subst q'. destruct (H i) as [-> _].
  unfold rescale; cbn [rn]. rewrite cc_node. pose proof (COS_bound (PI - PI * INR i / INR (n - 1))). lra.
Qed.

(** ** Lobatto totals *)
Definition isQ (x : R) : Prop := exists p q : Z, (q <> 0)%Z /\ x = IZR p / IZR q.
Lemma isQ_Z : forall z, isQ (IZR z).
Proof. intros. exists z, 1%Z. split; [lia|]. field. Qed.
Lemma isQ_plus : forall x y, isQ x -> isQ y -> isQ (x + y).
Proof.
  intros x y (p & q & Hq & ->) (p' & q' & Hq' & ->). exists (p * q' + p' * q)%Z, (q * q')%Z. split; [nia|]. rewrite plus_IZR, !mult_IZR.
  field. split; now apply not_0_IZR.
Qed.
Lemma isQ_mult : forall x y, isQ x -> isQ y -> isQ (x * y).
Proof.
  intros x y (p & q & Hq & ->) (p' & q' & Hq' & ->). exists (p * p')%Z, (q * q')%Z. split; [nia|]. rewrite !mult_IZR. field. split; now apply not_0_IZR.
Qed.
Lemma isQ_opp : forall x, isQ x -> isQ (- x).
Proof. intros x (p & q & Hq & ->). exists (- p)%Z, q. split; auto. rewrite opp_IZR. field. now apply not_0_IZR. Qed.
Lemma isQ_inv : forall x, isQ x -> isQ (/ x).
Proof.
  intros x (p & q & Hq & ->). destruct (Z.eq_dec p 0) as [->|Hp].
  - replace (IZR 0 / IZR q) with 0 by (unfold Rdiv; ring). rewrite Rinv_0. apply (isQ_Z 0).
  - exists q, p. split; auto. field. split; now apply not_0_IZR.
Qed.
Lemma isQ_INR : forall n, isQ (INR n).
Proof. intros. rewrite INR_IZR_INZ. apply isQ_Z. Qed.
Lemma isQ_legP : forall k t, isQ t -> isQ (legP k t).
Proof.
  intros k t Ht. revert k. apply nat_ind2. apply (isQ_Z 1). exact Ht.
  intros k A B. rewrite legP_SS. unfold Rdiv, Rminus. repeat (apply isQ_Z || apply isQ_INR || apply isQ_mult || apply isQ_plus || apply isQ_opp || apply isQ_inv || apply isQ_INR || apply isQ_Z || auto).
Qed.
Lemma isQ_sweep : forall n t, isQ t -> isQ (lobatto_sweep n t).
Proof.
  intros n t Ht. unfold lobatto_sweep, Rdiv, Rminus. repeat (apply isQ_Z || apply isQ_INR || apply isQ_mult || apply isQ_plus || apply isQ_opp || apply isQ_inv || apply isQ_INR || apply isQ_legP || auto).
Qed.
Lemma isQ_iter : forall n tol fuel t i, isQ (t i) -> isQ (fst (lobatto_iter n tol fuel t) i) /\ isQ (snd (lobatto_iter n tol fuel t) i).
Proof.
  intros n tol fuel. induction fuel; intros t i H; cbn [lobatto_iter]. auto.
  destruct (lobatto_small n tol t _). cbn [fst snd]; auto using isQ_sweep. destruct fuel. cbn [fst snd]; auto using isQ_sweep. apply IHfuel. now apply isQ_sweep.
Qed.
(** No rational squares to 1/5. *)
Lemma no_sq5 : forall p q : Z, (5 * (p * p) = q * q)%Z -> q = 0%Z.
Proof.
  intros p q. destruct (Z.eq_dec q 0) as [|Hq]; auto. intros E. exfalso. revert p q Hq E.
  assert (H : forall k : nat, forall p q : Z, (Z.abs_nat q < k)%nat -> q <> 0%Z -> (5 * (p * p) = q * q)%Z -> False).
  { induction k; intros p q Hk Hq E; [lia|].
    assert (P5 : prime 5). { apply prime_intro; [lia|]. intros n Hn. assert (n = 1 \/ n = 2 \/ n = 3 \/ n = 4)%Z as [-> | [-> | [-> | ->]]] by lia; apply Zgcd_1_rel_prime; reflexivity. }
    assert (D : (5 | q * q)%Z) by (exists (p * p)%Z; lia). apply prime_mult in D; auto. assert (D' : (5 | q)%Z) by tauto. destruct D' as (q' & ->).
    assert (E2 : (p * p = 5 * (q' * q'))%Z) by nia.
    assert (D2 : (5 | p * p)%Z) by (exists (q' * q')%Z; lia). apply prime_mult in D2; auto. assert (D' : (5 | p)%Z) by tauto. destruct D' as (p' & ->).
    apply (IHk p' q'). lia. lia. nia. }
  intros p q Hq E. eapply (H (S (Z.abs_nat q))); eauto.
Qed.
Lemma no_rat_sq5 : forall x, isQ x -> 5 * (x * x) <> 1.
Proof.
  intros x (p & q & Hq & ->) E. assert (Q0 : IZR q <> 0) by now apply not_0_IZR.
  assert (E1 : IZR (5 * (p * p)) = IZR (q * q)).
  { rewrite !mult_IZR. transitivity (5 * (IZR p / IZR q * (IZR p / IZR q)) * (IZR q * IZR q)). field; auto. rewrite E. ring. }
  apply eq_IZR in E1. apply Hq. eapply no_sq5; eauto.
Qed.
Lemma lobatto4_total : forall a b tol maxiter q, a < b -> lobatto_weights 4 a b tol maxiter = Some q -> rsum 4 (rw q) <> b - a.
Proof.
  intros a b tol maxiter q Hab E. unfold lobatto_weights in E. destruct (Nat.eqb_spec maxiter 0); [discriminate|]. cbn [Nat.leb orb] in E.
  assert (I0 : lob_inv 4 (lobatto_guess 4)) by (split; [apply guess_m1|intros; apply guess_antisym; lia]).
  pose proof (lob_iter_inv 4 tol maxiter (lobatto_guess 4) ltac:(lia) I0) as [_ [S0 SA]].
  assert (Q1 : isQ (lobatto_guess 4 1)).
  { unfold lobatto_guess. replace (PI * INR 1 / (INR 4 - 1)) with (PI / 3) by (simpl; field). rewrite cos_PI3. exists (-1)%Z, 2%Z. split; [lia|]. field. }
  pose proof (isQ_iter 4 tol maxiter (lobatto_guess 4) 1%nat Q1) as [_ QS].
  destruct (lobatto_iter 4 tol maxiter (lobatto_guess 4)) as [t s]. cbn [fst snd] in *. inversion E; subst; clear E.
  unfold rescale; cbn [rw bsum_]. pose proof (SA 0%nat ltac:(lia)) as S3. pose proof (SA 1%nat ltac:(lia)) as S2. cbn [Nat.sub] in S3, S2. rewrite S3, S2, S0.
  change (4 - 1)%nat with 3%nat. rewrite (legP_parity 3 (s 1%nat)), (legP_parity 3 (-1)), legP_m1.
  set (p := legP 3 (s 1%nat)). assert (Qp : isQ p) by (apply isQ_legP; auto).
  replace ((-1) ^ 3) with (-1) by ring. replace (INR 4) with 4 by (simpl; ring). intros T.
  destruct (Req_dec p 0) as [Z|Z].
  - rewrite Z in T. replace (-1 * 0 * (-1 * 0)) with 0 in T by ring. replace (0 * 0) with 0 in T by ring. rewrite Rmult_0_r in T. unfold Rdiv in T. rewrite Rinv_0 in T.
    replace (4 * (4 - 1) * (-1 * -1)) with 12 in T by ring. replace (4 * (4 - 1) * (-1 * -1 * (-1 * -1))) with 12 in T by ring. lra.
  - apply (no_rat_sq5 p Qp). 
    assert (T' : (b - a) * (1 + 1 / (p * p)) = 6 * (b - a)). { rewrite <- T at 2. rewrite half. field. auto. }
    assert (1 + 1 / (p * p) = 6) by (apply Rmult_eq_reg_l with (b - a); [rewrite T'; ring|lra]).
    transitivity ((6 - 1) * (p * p)); [ring|]. rewrite <- H. field. auto.
Qed.
Lemma lobatto_positive : forall n a b tol maxiter q, lobatto_weights n a b tol maxiter = Some q -> a < b ->
  exists s, (forall i, rn q i = a + (b - a) / 2 * (1 + lobatto_sweep n (s i))) /\
    forall i, legendre (n - 1) (s i) <> 0 -> 0 < rw q i.
Proof.
  intros n a b tol maxiter q E Hab. assert (Hn : (2 <= n)%nat). { unfold lobatto_weights in E. destruct (Nat.leb_spec n 1); [discriminate|lia]. }
  destruct (lobatto_shape _ _ _ _ _ _ E) as (s & _ & NX & WX). exists s. split.
  - intros i. rewrite NX. rewrite half. field.
  - intros i Pz. rewrite WX, legP_legendre. pose proof (INR_ge2 n Hn). apply Rmult_lt_0_compat; [|lra]. apply Rmult_lt_0_compat; [|lra].
    apply Rdiv_lt_0_compat; [lra|]. apply Rmult_lt_0_compat. apply Rmult_lt_0_compat; lra. now apply sq_nonneg_pos.
Qed.
Lemma lobatto_fixed_points : forall n t, (2 <= n)%nat -> legendre (n - 1) t <> 0 ->
  (lobatto_sweep n t = t <-> t = -1 \/ t = 1 \/ Derive (legendre (n - 1)) t = 0).
Proof.
  intros n t Hn Pz. rewrite sweep_fix by (auto; now rewrite legP_legendre).
  replace (Derive (legendre (n - 1)) t) with (Derive (legP (n - 1)) t) by (apply Derive_ext; intros; apply legP_legendre).
  split.
  - intros H. apply Rmult_integral in H. destruct H as [H|H]; auto. assert ((t + 1) * (t - 1) = 0) by lra. apply Rmult_integral in H0. destruct H0; [left|right; left]; lra.
  - intros [-> | [-> | ->]]; ring.
Qed.
Lemma sphere_area : forall gl nlat nlon g q c lead normalize,
  quadrature_s2_rule gl nlat g = Some q -> rsum nlat (rw q) = 2 -> (1 <= nlon)%nat -> (2 <= length lead)%nat ->
  exists y, quadrature_s2 gl nlat nlon g normalize (mkT (lead ++ [nlat; nlon]) (fun _ => c)) = Some y /\
    teq y (mkT lead (fun _ => if normalize then c else 4 * PI * c)).
Proof.
  intros gl nlat nlon g q c lead normalize Eq Tq Hl HL. assert (PI0 := PI_RGT_0). assert (Nz : INR nlon <> 0) by (apply not_0_INR; lia).
  set (x := mkT (lead ++ [nlat; nlon]) (fun _ => c)). assert (Sx : shp x = lead ++ [nlat; nlon]) by reflexivity.
  unfold quadrature_s2. rewrite Eq. unfold integrate_last2.
  assert (Nd2 : ndim x = (length lead + 2)%nat) by (unfold ndim; rewrite Sx, app_length; reflexivity).
  rewrite Nd2. replace (length lead + 2 - 2)%nat with (length lead) by lia.
  assert (D1 : dimsz x (length lead) = nlat) by (unfold dimsz; rewrite Sx, app_nth2, Nat.sub_diag by lia; reflexivity).
  assert (D2 : dimsz x (length lead + 1) = nlon). { unfold dimsz; rewrite Sx, app_nth2 by lia. replace (length lead + 1 - length lead)%nat with 1%nat by lia. reflexivity. }
  rewrite D1, D2. cbn [shp quad_weight_tensor]. rewrite (proj2 (Nat.leb_le 2 _)) by lia. unfold shape_eqb at 1.
  match goal with |- context [if true && ?b then _ else _] => assert (Eb : b = true) by (destruct (list_eq_dec Nat.eq_dec _ _); [reflexivity|congruence]) end.
  rewrite Eb. cbn [andb]. eexists. split; [reflexivity|]. split.
  - cbn [shp]. replace (2 - length lead)%nat with 0%nat by lia. cbn [repeat app]. rewrite Sx, firstn_app, Nat.sub_diag, firstn_all. cbn [firstn]. apply app_nil_r.
  - intros L VL. cbn [val]. unfold quad_weight_tensor, x; cbn [val nth].
    rewrite (bsum_ext nlat _ (fun a => rw q a * (if normalize then c / 2 else 2 * PI * c))).
    2:{ intros a Ha. rewrite (rsum_const nlon). destruct normalize; field; auto. split; lra. }
    rewrite (bsum_scal_r RT), Tq. destruct normalize; field.
Qed.
