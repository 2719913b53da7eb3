(** Clenshaw-Curtis weights: exactness, symmetry, positivity. *)
From Coq Require Import List Arith Lia Bool Reals Lra.
From Coquelicot Require Import Coquelicot.
From Verif Require Import TensorModel BigSum FFTModel FFTProofs TruncModel QuadModel QuadSpec PolyProofs.
Local Open Scope R_scope.

Lemma INR_pos : forall n, (1 <= n)%nat -> 0 < INR n.
Proof. intros. apply lt_0_INR. lia. Qed.
Lemma INR_ge2 : forall n, (2 <= n)%nat -> 2 <= INR n.
Proof. intros. change 2 with (INR 2). apply le_INR. auto. Qed.

(** The vector the inverse FFT is applied to. *)
Definition cc_u (n1 k : nat) : R := cc_v2 n1 k + cc_g n1 k.
Definition cc_D (n1 : nat) : R := INR n1 * INR n1 - 1 + INR (n1 mod 2).

Lemma cc_w_eq : forall n1 j, cc_w n1 j = / INR n1 * rsum n1 (fun k => cc_u n1 k * cos (2 * PI * INR j * INR k / INR n1)).
Proof.
  intros. unfold cc_w. unfold Re, Cmult, RtoC. cbn [fst snd]. rewrite Rmult_0_l, Rminus_0_r. f_equal.
  fold (Re (csum n1 (fun k => (((cc_v2 n1 k + cc_g n1 k) * fst (cis (2 * PI * INR j * INR k / INR n1)) - 0 * snd (cis (2 * PI * INR j * INR k / INR n1))),
     ((cc_v2 n1 k + cc_g n1 k) * snd (cis (2 * PI * INR j * INR k / INR n1)) + 0 * fst (cis (2 * PI * INR j * INR k / INR n1))))))).
  rewrite csum_Re. apply bsum_ext. intros k _. unfold Re, cis, cc_u. cbn [fst snd]. ring.
Qed.

Section N.
Variable N : nat.
Hypothesis HN : (2 <= N)%nat.
Notation l := (cc_l N).
Lemma l_bounds : (1 <= l /\ l <= N - l /\ N - l <= l + 1 /\ N = 2 * l + N mod 2)%nat.
Proof.
  unfold cc_l. assert (D := Nat.div_mod N 2 ltac:(lia)). assert (M := Nat.mod_upper_bound N 2 ltac:(lia)). lia.
Qed.
Lemma N_nz : INR N <> 0. Proof. apply not_0_INR; lia. Qed.
Lemma odd_nz : forall i : nat, 2 * INR i - 1 <> 0 /\ 2 * INR i + 1 <> 0.
Proof.
  intros i. split.
  - destruct i. simpl. lra. rewrite S_INR. pose proof (pos_INR i). lra.
  - pose proof (pos_INR i). lra.
Qed.
Lemma cc_N_eq : forall i, cc_N i = 2 * INR i + 1.
Proof. intros. unfold cc_N. rewrite plus_INR, mult_INR. simpl. ring. Qed.
Lemma D_pos : 0 < cc_D N.
Proof. unfold cc_D. pose proof (INR_ge2 N HN). pose proof (pos_INR (N mod 2)). nra. Qed.

Lemma v_tele : forall k, rsum k (fun i => 2 / cc_N i / (cc_N i - 2)) = -1 - / (2 * INR k - 1).
Proof.
  induction k. simpl. replace (2 * 0 - 1) with (-1) by ring. lra.
  cbn [bsum_]. rewrite IHk, cc_N_eq, S_INR. destruct (odd_nz k) as [A B]. field. repeat split; lra.
Qed.
Lemma cc_N_l : cc_N (l - 1) = 2 * INR l - 1.
Proof. rewrite cc_N_eq, minus_INR by (destruct l_bounds; auto). simpl. ring. Qed.
Lemma v_sum : rsum (N + 1) (cc_v N) = -1.
Proof.
  destruct l_bounds as (B1 & B2 & B3 & B4).
  replace (N + 1)%nat with (l + (1 + (N - l)))%nat by lia. rewrite !(bsum_split RT).
  rewrite (bsum_ext l (cc_v N) (fun i => 2 / cc_N i / (cc_N i - 2))).
  2:{ intros i Hi. unfold cc_v. rewrite (proj2 (Nat.ltb_lt i l)) by auto. auto. }
  rewrite v_tele. cbn [bsum_]. rewrite (bsum_zero' RT (N - l)).
  2:{ intros i Hi. unfold cc_v. rewrite (proj2 (Nat.ltb_ge _ l)) by lia. rewrite (proj2 (Nat.eqb_neq _ l)) by lia. auto. }
  unfold cc_v. rewrite (proj2 (Nat.ltb_ge (l + 0) l)) by lia. rewrite (proj2 (Nat.eqb_eq _ _)) by lia. rewrite cc_N_l.
  destruct (odd_nz l). field. auto.
Qed.
Lemma v_0 : cc_v N 0 = -2.
Proof.
  destruct l_bounds as (B1 & _). unfold cc_v. rewrite (proj2 (Nat.ltb_lt 0 l)) by auto. rewrite cc_N_eq. simpl. lra.
Qed.
Lemma v_big : forall i, (l < i)%nat -> cc_v N i = 0.
Proof. intros. unfold cc_v. rewrite (proj2 (Nat.ltb_ge _ l)) by lia. rewrite (proj2 (Nat.eqb_neq _ l)) by lia. auto. Qed.
Lemma v2_eq : forall i, (i < N)%nat -> cc_v2 N i = - cc_v N i - cc_v N (N - i).
Proof. intros. unfold cc_v2. replace (1 + (N - 1 - i))%nat with (N - i)%nat by lia. ring. Qed.
Lemma v2_sum : rsum N (cc_v2 N) = 0.
Proof.
  destruct l_bounds as (B1 & B2 & B3 & B4).
  rewrite (bsum_ext N _ (fun i => - cc_v N i - cc_v N (N - i))) by (intros; now apply v2_eq).
  rewrite (bsum_sub RT), (bsum_opp RT).
  assert (A : rsum N (cc_v N) = -1).
  { pose proof v_sum as V. rewrite Nat.add_1_r in V. cbn [bsum_] in V. rewrite (v_big N) in V by lia. lra. }
  assert (B : rsum N (fun i => cc_v N (N - i)) = 1).
  { rewrite (bsum_rev RT). rewrite (bsum_ext N _ (fun i => cc_v N (S i))) by (intros; f_equal; lia).
    pose proof v_sum as V. rewrite Nat.add_1_r, (bsum_S_l RT), v_0 in V. lra. }
  rewrite A, B. ring.
Qed.
Lemma g_eq : forall i, cc_g N i = (-1 + (if (i =? l)%nat then INR N else 0) + (if (i =? N - l)%nat then INR N else 0)) / cc_D N.
Proof. intros. unfold cc_g, cc_D. destruct (i =? l)%nat, (i =? N - l)%nat; f_equal; ring. Qed.
Lemma g_sum : rsum N (cc_g N) = INR N / cc_D N.
Proof.
  destruct l_bounds as (B1 & B2 & B3 & B4). pose proof D_pos.
  rewrite (bsum_ext N _ (fun i => (-1 + (if (i =? l)%nat then INR N else 0) + (if (i =? N - l)%nat then INR N else 0)) * / cc_D N)) by (intros; apply g_eq).
  rewrite (bsum_scal_r RT), !(bsum_plus RT), !(bsum_delta RT) by lia.
  assert (E : rsum N (fun _ => -1) = - INR N).
  { clear. induction N. simpl; lra. cbn [bsum_]. rewrite IHn, S_INR. lra. }
  rewrite E. field. lra.
Qed.
Lemma u_sum : rsum N (cc_u N) = INR N / cc_D N.
Proof. unfold cc_u. rewrite (bsum_plus RT), v2_sum, g_sum. ring. Qed.
Lemma u_sym : forall p, (1 <= p < N)%nat -> cc_u N (N - p) = cc_u N p.
Proof.
  intros p Hp. destruct l_bounds as (B1 & B2 & B3 & B4). unfold cc_u. rewrite !v2_eq, !g_eq by lia. replace (N - (N - p))%nat with p by lia.
  assert (E1 : (N - p =? l)%nat = (p =? N - l)%nat) by (destruct (Nat.eqb_spec (N - p) l), (Nat.eqb_spec p (N - l)); auto; lia).
  assert (E2 : (N - p =? N - l)%nat = (p =? l)%nat) by (destruct (Nat.eqb_spec (N - p) (N - l)), (Nat.eqb_spec p l); auto; lia).
  rewrite E1, E2. unfold Rdiv. ring.
Qed.
(** The entries of u are the integrals of the Chebyshev polynomials, up to a constant. *)
Lemma u_val : forall p, (p <= l)%nat -> cc_u N p = 2 / (1 - 4 * INR p * INR p) - / cc_D N.
Proof.
  intros p Hp. destruct l_bounds as (B1 & B2 & B3 & B4). pose proof D_pos as DP. destruct (odd_nz p) as [O1 O2].
  assert (P0 : 1 - 4 * INR p * INR p <> 0).
  { replace (1 - 4 * INR p * INR p) with (- ((2 * INR p - 1) * (2 * INR p + 1))) by ring. apply Ropp_neq_0_compat. now apply Rmult_integral_contrapositive. }
  unfold cc_u. rewrite v2_eq, g_eq by lia. destruct (Nat.eq_dec p l) as [->|Hne].
  - rewrite Nat.eqb_refl. unfold cc_v at 1. rewrite Nat.ltb_irrefl, Nat.eqb_refl, cc_N_l.
    destruct (Nat.eq_dec (N mod 2) 0) as [e|e].
    + assert (EN : (N - l = l)%nat) by lia. rewrite EN, Nat.eqb_refl. unfold cc_v. rewrite Nat.ltb_irrefl, Nat.eqb_refl, cc_N_l.
      unfold cc_D in *. rewrite e in *. cbn [INR] in *.
      assert (NI : INR N = 2 * INR l) by (replace N with (2 * l)%nat at 1 by lia; rewrite mult_INR; simpl; ring).
      rewrite NI in *. field. repeat split; auto. lra. 
    + assert (e1 : (N mod 2 = 1)%nat) by (pose proof (Nat.mod_upper_bound N 2 ltac:(lia)); lia).
      rewrite (proj2 (Nat.eqb_neq l (N - l))) by lia. rewrite (v_big (N - l)) by lia. unfold cc_D in *. rewrite e1 in *. cbn [INR] in *.
      assert (NI : INR N = 2 * INR l + 1) by (replace N with (2 * l + 1)%nat at 1 by lia; rewrite plus_INR, mult_INR; simpl; ring).
      rewrite NI in *. field. repeat split; auto; try lra. 
  - unfold cc_v at 1. rewrite (proj2 (Nat.ltb_lt p l)) by lia. rewrite (v_big (N - p)) by lia.
    rewrite (proj2 (Nat.eqb_neq p l)) by lia. rewrite (proj2 (Nat.eqb_neq p (N - l))) by lia. rewrite cc_N_eq.
    field. repeat split; auto; try lra. 
Qed.

Lemma ifft_dft : forall (u : nat -> R) p, (p < N)%nat ->
  csum N (fun j => Cmult (csum N (fun q => Cmult (RtoC (u q)) (cis (2 * PI * INR j * INR q / INR N)))) (cis (- (2 * PI * INR j * INR p / INR N)))) = RtoC (INR N * u p).
Proof.
  intros u p Hp.
  rewrite (bsum_ext N _ (fun j => csum N (fun q => Cmult (RtoC (u q)) (Cmult (cis (2 * PI * INR j * INR q / INR N)) (cis (- (2 * PI * INR j * INR p / INR N))))))).
  2:{ intros. rewrite <- (bsum_scal_r CT). apply bsum_ext. intros. ring. }
  rewrite (bsum_swap CT). rewrite (bsum_ext N _ (fun q => if (q =? p)%nat then Cmult (RtoC (u q)) (RtoC (INR N)) else RtoC 0)).
  2:{ intros q Hq. rewrite (bsum_scal_l CT), dft_orth by auto. destruct (q =? p)%nat; auto. ring. }
  rewrite (bsum_delta_f CT) by auto. rewrite <- RtoC_mult. f_equal. ring.
Qed.
(** Cosine sums of the weights recover u. *)
Lemma w_cos : forall p, (p <= l)%nat -> rsum N (fun j => cc_w N j * cos (2 * PI * INR j * INR p / INR N)) = cc_u N p.
Proof.
  intros p Hp. destruct l_bounds as (B1 & B2 & B3 & B4). assert (Nz := N_nz).
  set (W := fun j => csum N (fun q => Cmult (RtoC (cc_u N q)) (cis (2 * PI * INR j * INR q / INR N)))).
  assert (EW : forall j, cc_w N j = / INR N * Re (W j)).
  { intros j. rewrite cc_w_eq. f_equal. unfold W. rewrite csum_Re. apply bsum_ext. intros. unfold Re, cis, Cmult, RtoC. cbn [fst snd]. ring. }
  set (p' := if (p =? 0)%nat then 0%nat else (N - p)%nat).
  assert (Hp' : (p' < N)%nat) by (unfold p'; destruct (Nat.eqb_spec p 0); lia).
  assert (U' : cc_u N p' = cc_u N p) by (unfold p'; destruct (Nat.eqb_spec p 0); [now subst|apply u_sym; lia]).
  assert (C' : forall j, cis (- (2 * PI * INR j * INR p' / INR N)) = cis (2 * PI * INR j * INR p / INR N)).
  { intros j. unfold p'. destruct (Nat.eqb_spec p 0).
    - subst. f_equal. simpl. field. auto.
    - rewrite minus_INR by lia. replace (- (2 * PI * INR j * (INR N - INR p) / INR N)) with (2 * PI * INR j * INR p / INR N - 2 * INR j * PI) by (field; auto).
      apply cis_period_neg. }
  pose proof (ifft_dft (cc_u N) p ltac:(lia)) as I1. pose proof (ifft_dft (cc_u N) p' Hp') as I2. rewrite U' in I2.
  apply (f_equal Re) in I1. apply (f_equal Re) in I2. rewrite csum_Re in I1, I2.
  rewrite (bsum_ext N _ (fun j => / (2 * INR N) * (Re (Cmult (W j) (cis (- (2 * PI * INR j * INR p / INR N)))) + Re (Cmult (W j) (cis (- (2 * PI * INR j * INR p' / INR N))))))).
  2:{ intros j Hj. rewrite EW, C', <- cis_conj. unfold Re, Cmult, Cconj, cis. cbn [fst snd]. field. auto. }
  rewrite (bsum_scal_l RT), (bsum_plus RT). fold W in I1, I2. unfold W at 1 2. rewrite I1, I2. unfold Re, RtoC. cbn [fst]. field. auto.
Qed.
Lemma w_0 : cc_w N 0 = / cc_D N.
Proof.
  rewrite cc_w_eq. rewrite (bsum_ext N _ (cc_u N)). rewrite u_sum. field. split. pose proof D_pos; lra. apply N_nz.
  intros k Hk. replace (2 * PI * INR 0 * INR k / INR N) with 0 by (simpl; field; apply N_nz). rewrite cos_0. ring.
Qed.
Lemma w_sym : forall j, (1 <= j < N)%nat -> cc_w N (N - j) = cc_w N j.
Proof.
  intros j Hj. rewrite !cc_w_eq. f_equal. apply bsum_ext. intros k Hk. f_equal. rewrite minus_INR by lia.
  replace (2 * PI * (INR N - INR j) * INR k / INR N) with (- (2 * PI * INR j * INR k / INR N) + 2 * INR k * PI) by (field; apply N_nz).
  rewrite cos_period. apply cos_neg.
Qed.
End N.

(** The weights of the rule on [-1,1], with N = n - 1. *)
Definition cc_weight (n j : nat) : R := if (n =? 2)%nat then 1 else if (j <? n - 1)%nat then cc_w (n - 1) j else cc_w (n - 1) 0.
Lemma cc_weight_sym : forall n j, (2 <= n)%nat -> (j < n)%nat -> cc_weight n (n - 1 - j) = cc_weight n j.
Proof.
  intros n j Hn Hj. unfold cc_weight. destruct (Nat.eqb_spec n 2); auto.
  destruct (Nat.eq_dec j 0) as [->|]. { rewrite Nat.sub_0_r, Nat.ltb_irrefl. rewrite (proj2 (Nat.ltb_lt 0 _)) by lia. auto. }
  destruct (Nat.eq_dec j (n - 1)) as [->|]. { rewrite Nat.sub_diag, Nat.ltb_irrefl. rewrite (proj2 (Nat.ltb_lt 0 _)) by lia. auto. }
  rewrite !(proj2 (Nat.ltb_lt _ _)) by lia. apply w_sym; lia.
Qed.
(** Integral of the Chebyshev polynomial of degree k. *)
Definition cheb_int (k : nat) : R := if Nat.even k then 2 / (1 - INR k * INR k) else 0.
Lemma cos_kpi : forall k, cos (INR k * PI) = if Nat.even k then 1 else -1.
Proof.
  induction k. simpl. rewrite Rmult_0_l. apply cos_0.
  rewrite S_INR, Rmult_plus_distr_r, Rmult_1_l, neg_cos, IHk, Nat.even_succ, <- Nat.negb_even. destruct (Nat.even k); simpl; ring.
Qed.

Lemma cc_cheb : forall n k, (2 <= n)%nat -> (k <= n - 1)%nat ->
  rsum n (fun j => cc_weight n j * cos (INR k * (PI - PI * INR j / INR (n - 1)))) = cheb_int k.
Proof.
  intros n k Hn Hk. destruct (Nat.eq_dec n 2) as [->|].
  { unfold cc_weight, cheb_int. cbn [Nat.eqb bsum_ Nat.sub]. destruct k as [|[|]]; [| |lia]; cbn [Nat.even].
    - replace (INR 0 * (PI - PI * INR 0 / INR 1)) with 0 by (simpl; field). replace (INR 0 * (PI - PI * INR 1 / INR 1)) with 0 by (simpl; field).
      rewrite cos_0. simpl. lra.
    - replace (INR 1 * (PI - PI * INR 0 / INR 1)) with PI by (simpl; field). replace (INR 1 * (PI - PI * INR 1 / INR 1)) with 0 by (simpl; field).
      rewrite cos_0, cos_PI. lra. }
  assert (HN : (2 <= n - 1)%nat) by lia. set (N := (n - 1)%nat) in *. assert (Nz : INR N <> 0) by (apply not_0_INR; lia).
  (* reverse the order of the nodes *)
  assert (RV : rsum n (fun j => cc_weight n j * cos (INR k * (PI - PI * INR j / INR N))) = rsum n (fun j => cc_weight n j * cos (PI * INR j * INR k / INR N))).
  { rewrite (bsum_rev RT). apply bsum_ext. intros j Hj. rewrite cc_weight_sym by auto. do 2 f_equal.
    replace (n - 1 - j)%nat with (N - j)%nat by (unfold N; lia). rewrite minus_INR by (unfold N; lia). field. auto. }
  rewrite RV. unfold cheb_int. destruct (Nat.even k) eqn:Ek.
  - apply Nat.even_spec in Ek. destruct Ek as (p & ->). replace n with (S N) by (unfold N; lia). cbn [bsum_].
    destruct (l_bounds N HN) as (B1 & B2 & B3 & B4). assert (Hp : (p <= cc_l N)%nat) by (pose proof (Nat.mod_upper_bound N 2 ltac:(lia)); lia).
    rewrite (bsum_ext N _ (fun j => cc_w N j * cos (2 * PI * INR j * INR p / INR N))).
    2:{ intros j Hj. unfold cc_weight. rewrite (proj2 (Nat.eqb_neq (S N) 2)) by lia. replace (S N - 1)%nat with N by lia. rewrite (proj2 (Nat.ltb_lt j N)) by auto.
        do 2 f_equal. rewrite mult_INR. simpl (INR 2). field. auto. }
    rewrite w_cos, u_val by auto. unfold cc_weight. rewrite (proj2 (Nat.eqb_neq (S N) 2)) by lia. replace (S N - 1)%nat with N by lia. rewrite Nat.ltb_irrefl.
    rewrite w_0 by auto. replace (PI * INR N * INR (2 * p) / INR N) with (INR (2 * p) * PI) by (field; auto).
    rewrite cos_kpi. rewrite (proj2 (Nat.even_spec (2 * p))) by (now exists p). rewrite mult_INR. simpl (INR 2).
    replace ((1 + 1) * INR p * ((1 + 1) * INR p)) with (4 * INR p * INR p) by ring. ring.
  - assert (S : rsum n (fun j => cc_weight n j * cos (PI * INR j * INR k / INR N)) = - rsum n (fun j => cc_weight n j * cos (PI * INR j * INR k / INR N))).
    { rewrite (bsum_rev RT) at 1. rewrite <- (bsum_opp RT). apply bsum_ext. intros j Hj. rewrite cc_weight_sym by auto.
      replace (n - 1 - j)%nat with (N - j)%nat by (unfold N; lia). rewrite minus_INR by (unfold N; lia).
      replace (PI * (INR N - INR j) * INR k / INR N) with (INR k * PI - PI * INR j * INR k / INR N) by (field; auto).
      rewrite cos_minus, cos_kpi, Ek. assert (SZ : sin (INR k * PI) = 0) by (rewrite INR_IZR_INZ; apply sin_eq_0_1; eexists; reflexivity).
      rewrite SZ. ring. }
    lra.
Qed.

(** Polynomials in cos t as cosine sums. *)
Lemma cos_prod : forall k t, cos t * cos (INR k * t) = if (k =? 0)%nat then cos (INR 1 * t) else / 2 * cos (INR (S k) * t) + / 2 * cos (INR (k - 1) * t).
Proof.
  intros k t. destruct (Nat.eqb_spec k 0).
  - subst. simpl. rewrite Rmult_0_l, cos_0, Rmult_1_l. ring.
  - rewrite S_INR, minus_INR by lia. simpl (INR 1). replace ((INR k + 1) * t) with (INR k * t + t) by ring. replace ((INR k - 1) * t) with (INR k * t - t) by ring.
    rewrite cos_plus, cos_minus. field.
Qed.
Definition cosum (d : nat) (g : R -> R) : Prop := exists c, forall t, g t = rsum (S d) (fun k => c k * cos (INR k * t)).
Lemma cosum_mono : forall d e g, (d <= e)%nat -> cosum d g -> cosum e g.
Proof.
  intros d e f H (c & E). exists (fun k => if (k <=? d)%nat then c k else 0). intros x. rewrite E.
  replace (S e) with (S d + (e - d))%nat by lia. rewrite (bsum_split RT).
  rewrite (bsum_zero' RT (e - d)). 2:{ intros. destruct (Nat.leb_spec (S d + i) d); [lia|]. ring. }
  rewrite Rplus_0_r. apply bsum_ext. intros. destruct (Nat.leb_spec i d); [auto|lia].
Qed.
Lemma cosum_plus : forall d f g, cosum d f -> cosum d g -> cosum d (fun x => f x + g x).
Proof.
  intros d f g (c & E) (b & F). exists (fun k => c k + b k). intros x. rewrite E, F, <- (bsum_plus RT). apply bsum_ext. intros. ring.
Qed.
Lemma cosum_scal : forall d a f, cosum d f -> cosum d (fun x => a * f x).
Proof. intros d a f (c & E). exists (fun k => a * c k). intros x. rewrite E, <- (bsum_scal_l RT). apply bsum_ext. intros. ring. Qed.
Lemma cosum_ext : forall d f g, (forall x, f x = g x) -> cosum d f -> cosum d g.
Proof. intros d f g E (c & H). exists c. intros. now rewrite <- E. Qed.
Lemma cosum_sum : forall n d f, (forall k, (k < n)%nat -> cosum d (f k)) -> cosum d (fun x => rsum n (fun k => f k x)).
Proof.
  induction n; intros d f H. simpl. exists (fun _ => 0). intros. rewrite (bsum_zero' RT); auto. intros; ring.
  simpl. apply cosum_plus; auto.
Qed.
Lemma cosum_single : forall d k, (k <= d)%nat -> cosum d (fun t => cos (INR k * t)).
Proof.
  intros. exists (fun j => if (j =? k)%nat then 1 else 0). intros t.
  rewrite (bsum_ext _ _ (fun j => if (j =? k)%nat then cos (INR j * t) else 0)). rewrite (bsum_delta_f RT) by lia. auto.
  intros i _. destruct (i =? k)%nat; ring.
Qed.
Lemma cosum_cos : forall d g, cosum d g -> cosum (S d) (fun t => cos t * g t).
Proof.
  intros d g (c & E). apply cosum_ext with (fun t => rsum (S d) (fun k => c k * (cos t * cos (INR k * t)))).
  { intros t. rewrite E, <- (bsum_scal_l RT). apply bsum_ext. intros. ring. }
  apply cosum_sum. intros k Hk. apply cosum_scal. destruct (Nat.eq_dec k 0).
  - apply cosum_ext with (fun t => cos (INR 1 * t)). intros. rewrite cos_prod, (proj2 (Nat.eqb_eq k 0)); auto. apply cosum_single. lia.
  - apply cosum_ext with (fun t => / 2 * cos (INR (S k) * t) + / 2 * cos (INR (k - 1) * t)). intros. rewrite cos_prod, (proj2 (Nat.eqb_neq k 0)); auto.
    apply cosum_plus; apply cosum_scal; apply cosum_single; lia.
Qed.
Lemma cosum_pow : forall k, cosum k (fun t => cos t ^ k).
Proof.
  induction k. simpl. apply cosum_ext with (fun t => cos (INR 0 * t)). intros. simpl. rewrite Rmult_0_l. apply cos_0. apply cosum_single; auto.
  simpl. now apply cosum_cos.
Qed.
Lemma poly_cosum : forall d f, is_poly d f -> cosum d (fun t => f (cos t)).
Proof.
  intros d f (c & E). apply cosum_ext with (fun t => rsum (S d) (fun k => c k * cos t ^ k)). intros; now rewrite E.
  apply cosum_sum. intros k Hk. apply cosum_scal. apply cosum_mono with k; [lia|]. apply cosum_pow.
Qed.

(** Integrals of cosine sums against the surface measure. *)
Lemma cheb_RInt : forall k, is_RInt (fun t => - sin t * cos (INR k * t)) PI 0 (cheb_int k).
Proof.
  intros k. destruct (Nat.eq_dec k 1) as [->|Hk].
  - replace (cheb_int 1) with (minus (cos 0 * cos 0 / 2) (cos PI * cos PI / 2)).
    2:{ unfold cheb_int, minus, plus, opp; simpl. rewrite cos_0, cos_PI. field. }
    apply (is_RInt_derive (V := R_CompleteNormedModule) (fun t => cos t * cos t / 2)).
    + intros t _. auto_derive; auto. replace (INR 1 * t) with t by (simpl; ring). field.
    + intros t _. apply (ex_derive_continuous (V := R_NormedModule)). auto_derive. auto.
  - assert (K1 : INR k + 1 <> 0) by (pose proof (pos_INR k); lra).
    assert (K2 : INR k - 1 <> 0) by (intros E; apply Hk; apply INR_eq; simpl; lra).
    set (F := fun t => cos ((INR k + 1) * t) / (2 * (INR k + 1)) - cos ((INR k - 1) * t) / (2 * (INR k - 1))).
    replace (cheb_int k) with (minus (F 0) (F PI)).
    2:{ unfold cheb_int, F, minus, plus, opp; simpl. rewrite !Rmult_0_r, cos_0.
        replace ((INR k + 1) * PI) with (INR k * PI + PI) by ring. replace ((INR k - 1) * PI) with (INR k * PI - PI) by ring.
        rewrite neg_cos, cos_minus, cos_PI, sin_PI, cos_kpi. destruct (Nat.even k); field; repeat split; auto.
        replace (1 - INR k * INR k) with (- ((INR k + 1) * (INR k - 1))) by ring. apply Ropp_neq_0_compat. now apply Rmult_integral_contrapositive. }
    apply (is_RInt_derive (V := R_CompleteNormedModule) F).
    + intros t _. unfold F. auto_derive; auto.
      replace ((INR k + 1) * t) with (INR k * t + t) by ring. replace ((INR k - 1) * t) with (INR k * t - t) by ring.
      rewrite sin_plus, sin_minus. field. auto.
    + intros t _. apply (ex_derive_continuous (V := R_NormedModule)). auto_derive. auto.
Qed.
Lemma poly_RInt_cos : forall d f c, is_poly d f -> (forall t, f (cos t) = rsum (S d) (fun k => c k * cos (INR k * t))) ->
  RInt f (-1) 1 = rsum (S d) (fun k => c k * cheb_int k).
Proof.
  intros d f c Pf E.
  assert (CV : RInt (fun t => scal (- sin t) (f (cos t))) PI 0 = RInt f (cos PI) (cos 0)).
  { apply (RInt_comp (V := R_CompleteNormedModule) f cos (fun t => - sin t)).
    - intros. eapply is_poly_continuous; eauto.
    - intros x _. split. auto_derive; auto. ring. apply (ex_derive_continuous (V := R_NormedModule)). auto_derive. auto. }
  rewrite cos_PI, cos_0 in CV. rewrite <- CV. apply (is_RInt_unique (V := R_CompleteNormedModule)).
  apply (is_RInt_ext (fun t => rsum (S d) (fun k => c k * (- sin t * cos (INR k * t))))).
  { intros t _. unfold scal; simpl; unfold mult; simpl. change (rsum (S d) (fun k => c k * (- sin t * cos (INR k * t))) = - sin t * f (cos t)).
    rewrite E, <- (bsum_scal_l RT). apply bsum_ext. intros. ring. }
  assert (Q : forall k, RInt (fun t => c k * (- sin t * cos (INR k * t))) PI 0 = c k * cheb_int k).
  { intros k. apply (is_RInt_unique (V := R_CompleteNormedModule)). apply (is_RInt_scal (V := R_NormedModule) (fun t => - sin t * cos (INR k * t))). apply cheb_RInt. }
  rewrite <- (bsum_ext (S d) (fun k => RInt (fun t => c k * (- sin t * cos (INR k * t))) PI 0)) by auto.
  apply (rsum_RInt (S d) (fun k t => c k * (- sin t * cos (INR k * t)))). intros k _. exists (c k * cheb_int k).
  apply (is_RInt_scal (V := R_NormedModule) (fun t => - sin t * cos (INR k * t))). apply cheb_RInt.
Qed.

Lemma cc_exact_unit : forall n f, (2 <= n)%nat -> is_poly (n - 1) f ->
  rsum n (fun j => cc_weight n j * f (cos (PI - PI * INR j / INR (n - 1)))) = RInt f (-1) 1.
Proof.
  intros n f Hn Pf. destruct (poly_cosum _ _ Pf) as (c & E). rewrite (poly_RInt_cos _ _ _ Pf E).
  rewrite (bsum_ext n _ (fun j => rsum (S (n - 1)) (fun k => c k * (cc_weight n j * cos (INR k * (PI - PI * INR j / INR (n - 1))))))).
  2:{ intros. rewrite E, <- (bsum_scal_l RT). apply bsum_ext. intros. ring. }
  rewrite (bsum_swap RT). apply bsum_ext. intros k Hk. rewrite (bsum_scal_l RT), cc_cheb by lia. auto.
Qed.

(** Positivity *)
Lemma abs_sum : forall n f, Rabs (rsum n f) <= rsum n (fun k => Rabs (f k)).
Proof.
  induction n; intros; simpl. rewrite Rabs_R0. lra. eapply Rle_trans; [apply Rabs_triang|]. apply Rplus_le_compat_r. auto.
Qed.
Lemma rsum_le : forall n f g, (forall k, (k < n)%nat -> f k <= g k) -> rsum n f <= rsum n g.
Proof. induction n; intros; simpl. lra. apply Rplus_le_compat; auto. Qed.
Lemma cos_sum_zero : forall N j, (0 < j < N)%nat -> rsum N (fun k => cos (2 * PI * INR j * INR k / INR N)) = 0.
Proof.
  intros N j Hj. pose proof (dft_zero N j Hj) as Z. apply (f_equal Re) in Z. rewrite csum_Re in Z.
  rewrite <- (bsum_ext N (fun k => Re (cis (2 * PI * INR k * INR j / INR N)))). exact Z.
  intros. unfold Re, cis. cbn [fst]. f_equal. field. apply not_0_INR; lia.
Qed.
Lemma half_tele : forall k, (1 <= k)%nat -> rsum k (fun i => if (i =? 0)%nat then 0 else 2 / (4 * INR i * INR i - 1)) = 1 - / (2 * INR k - 1).
Proof.
  induction k; intros H; [lia|]. destruct (Nat.eq_dec k 0) as [->|]. simpl. replace (2 * 1 - 1) with 1 by ring. lra.
  cbn [bsum_]. rewrite IHk by lia. rewrite (proj2 (Nat.eqb_neq k 0)) by auto. rewrite S_INR. destruct (odd_nz k). field.
  repeat split; try lra. replace (4 * INR k * INR k - 1) with ((2 * INR k - 1) * (2 * INR k + 1)) by ring. now apply Rmult_integral_contrapositive.
Qed.
Lemma w_pos : forall N j, (2 <= N)%nat -> (j < N)%nat -> 0 < cc_w N j.
Proof.
  intros N j HN Hj. assert (Np := INR_pos N ltac:(lia)). assert (Dp := D_pos N HN).
  destruct (Nat.eq_dec j 0) as [->|]. { rewrite w_0 by auto. now apply Rinv_0_lt_compat. }
  destruct (l_bounds N HN) as (B1 & B2 & B3 & B4). set (l := cc_l N) in *.
  rewrite cc_w_eq. apply Rmult_lt_0_compat; [now apply Rinv_0_lt_compat|].
  (* shift u by the constant 1/D *)
  set (u' := fun k => cc_u N k + / cc_D N).
  assert (E : rsum N (fun k => cc_u N k * cos (2 * PI * INR j * INR k / INR N)) = rsum N (fun k => u' k * cos (2 * PI * INR j * INR k / INR N))).
  { unfold u'. rewrite (bsum_ext N (fun k => (cc_u N k + / cc_D N) * _) (fun k => cc_u N k * cos (2 * PI * INR j * INR k / INR N) + / cc_D N * cos (2 * PI * INR j * INR k / INR N))) by (intros; ring).
    rewrite (bsum_plus RT), (bsum_scal_l RT), cos_sum_zero by lia. ring. }
  rewrite E. clear E.
  assert (U0 : u' 0%nat = 2). { unfold u'. rewrite u_val by (auto; lia). simpl. lra. }
  set (b := fun i : nat => 2 / (4 * INR i * INR i - 1)).
  assert (UB : forall p, (1 <= p <= l)%nat -> u' p = - b p).
  { intros p Hp. unfold u', b. rewrite u_val by (auto; lia). destruct (odd_nz p).
    assert (4 * INR p * INR p - 1 <> 0) by (replace (4 * INR p * INR p - 1) with ((2 * INR p - 1) * (2 * INR p + 1)) by ring; now apply Rmult_integral_contrapositive).
    field. split; [lra|]. split; lra. }
  assert (US : forall p, (1 <= p < N)%nat -> u' (N - p)%nat = u' p) by (intros; unfold u'; now rewrite u_sym).
  assert (BP : forall p, (1 <= p)%nat -> 0 < b p).
  { intros p Hp. unfold b. apply Rdiv_lt_0_compat; [lra|]. assert (1 <= INR p) by (change 1 with (INR 1); now apply le_INR). nra. }
  (* the sum over k >= 1 of |u'| is below 2 *)
  destruct N as [|N']; [lia|]. rewrite (bsum_S_l RT), U0.
  replace (2 * PI * INR j * INR 0 / INR (S N')) with 0 by (simpl (INR 0); field; lra). rewrite cos_0.
  set (T := rsum N' (fun i => u' (S i) * cos (2 * PI * INR j * INR (S i) / INR (S N')))).
  assert (TB : Rabs T <= rsum N' (fun i => Rabs (u' (S i)))).
  { eapply Rle_trans; [apply abs_sum|]. apply rsum_le. intros. rewrite Rabs_mult. rewrite <- Rmult_1_r.
    apply Rmult_le_compat_l. apply Rabs_pos. apply Rabs_le. apply COS_bound. }
  assert (SB : rsum N' (fun i => Rabs (u' (S i))) < 2).
  { assert (HT := half_tele l B1).
    assert (HT' : rsum (l - 1) (fun i => b (S i)) = 1 - / (2 * INR l - 1)).
    { rewrite <- HT. replace l with (S (l - 1)) at 2 by lia. rewrite (bsum_S_l RT). cbn [Nat.eqb]. rewrite Rplus_0_l. reflexivity. }
    assert (Lp : 1 <= INR l) by (change 1 with (INR 1); now apply le_INR).
    assert (I1 : 0 < / (2 * INR l - 1)) by (apply Rinv_0_lt_compat; lra).
    destruct (Nat.eq_dec (S N' mod 2) 0) as [e|e].
    - (* even: N' = (l-1) + 1 + (l-1) *)
      replace N' with ((l - 1) + (1 + (l - 1)))%nat by lia. rewrite !(bsum_split RT). cbn [bsum_].
      rewrite (bsum_ext (l - 1) (fun i => Rabs (u' (S i))) (fun i => b (S i))).
      2:{ intros i Hi. rewrite UB, Rabs_Ropp, Rabs_right by lia || (apply Rle_ge, Rlt_le, BP; lia). auto. }
      rewrite (bsum_ext (l - 1) (fun i => Rabs (u' (S (l - 1 + (1 + i))))) (fun i => b (S (l - 1 - 1 - i)))).
      2:{ intros i Hi. replace (S (l - 1 + (1 + i))) with (S N' - (S (l - 1 - 1 - i)))%nat by lia. rewrite US, UB, Rabs_Ropp, Rabs_right by lia || (apply Rle_ge, Rlt_le, BP; lia). auto. }
      rewrite <- (bsum_rev RT (l - 1) (fun i => b (S i))). rewrite HT'.
      replace (S (l - 1 + 0))%nat with l by lia. rewrite UB, Rabs_Ropp, Rabs_right by lia || (apply Rle_ge, Rlt_le, BP; lia).
      unfold b. assert (2 / (4 * INR l * INR l - 1) < 2 * / (2 * INR l - 1)); [|lra].
      unfold Rdiv. apply Rmult_lt_compat_l; [lra|]. apply Rinv_lt_contravar; nra.
    - (* odd: N' = l + l *)
      assert (e1 : (S N' mod 2 = 1)%nat) by (pose proof (Nat.mod_upper_bound (S N') 2 ltac:(lia)); lia).
      replace N' with (l + l)%nat by lia. rewrite (bsum_split RT).
      rewrite (bsum_ext l (fun i => Rabs (u' (S i))) (fun i => b (S i))).
      2:{ intros i Hi. rewrite UB, Rabs_Ropp, Rabs_right by lia || (apply Rle_ge, Rlt_le, BP; lia). auto. }
      rewrite (bsum_ext l (fun i => Rabs (u' (S (l + i)))) (fun i => b (S (l - 1 - i)))).
      2:{ intros i Hi. replace (S (l + i)) with (S N' - (S (l - 1 - i)))%nat by lia. rewrite US, UB, Rabs_Ropp, Rabs_right by lia || (apply Rle_ge, Rlt_le, BP; lia). auto. }
      rewrite <- (bsum_rev RT l (fun i => b (S i))).
      assert (HT2 := half_tele (S l) ltac:(lia)). rewrite (bsum_S_l RT) in HT2. cbn [Nat.eqb] in HT2. rewrite Rplus_0_l in HT2.
      assert (HT3 : rsum l (fun i => b (S i)) = 1 - / (2 * INR (S l) - 1)) by exact HT2. rewrite HT3, S_INR.
      assert (0 < / (2 * (INR l + 1) - 1)) by (apply Rinv_0_lt_compat; lra). lra. }
  assert (- Rabs T <= T) by (unfold Rabs; destruct (Rcase_abs T); lra). lra.
Qed.
Lemma cc_weight_pos : forall n j, (2 <= n)%nat -> (j < n)%nat -> 0 < cc_weight n j.
Proof.
  intros n j Hn Hj. unfold cc_weight. destruct (Nat.eqb_spec n 2); [lra|]. destruct (Nat.ltb_spec j (n - 1)); apply w_pos; lia.
Qed.
