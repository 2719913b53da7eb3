(** The multistep loop: slots, increments, conservation. *)
From Coq Require Import List Arith Lia Bool Reals ZArith Lra.
From Coquelicot Require Import Coquelicot.
From Verif Require Import TensorModel TensorProofs BigSum FFTModel FFTProofs TruncModel LegendreModel QuadModel SHTModel SHTSpec SHTRoundSpec SHTValueProofs VSHTValueProofs SHTRoundProofs VRoundProofs
  LossModel LossProofs SolverModel SolverSpec SolverProofs.
Import ListNotations.
Local Open Scope R_scope.

Lemma ab_loop_snoc : forall s n iter t, ab_loop s (S n) iter t = (do t' <- ab_loop s n iter t; ab_step s (iter + n) t').
Proof.
  intros s n. induction n as [|n IH]; intros iter t.
  - cbn [ab_loop bindo]. rewrite Nat.add_0_r. destruct (ab_step s iter t); reflexivity.
  - change (ab_loop s (S (S n)) iter t) with (do t' <- ab_step s iter t; ab_loop s (S n) (S iter) t'). change (ab_loop s (S n) iter t) with (do t' <- ab_step s iter t; ab_loop s n (S iter) t').
    destruct (ab_step s iter t) as [t'|]; cbn [bindo]; auto. rewrite IH. now rewrite Nat.add_succ_comm.
Qed.
Lemma slot_same : forall k v f, (0 <= k)%Z -> get_slot (set_slot k v f) k = v.
Proof. intros. unfold get_slot, set_slot. rewrite Z2Nat.id by auto. now rewrite Z.eqb_refl. Qed.
Lemma slot_other : forall k k' v f, (0 <= k')%Z -> k' <> k -> get_slot (set_slot k v f) k' = get_slot f k'.
Proof. intros. unfold get_slot, set_slot. rewrite Z2Nat.id by auto. destruct (Z.eqb_spec k' k); congruence. Qed.

Lemma cs_eq : forall a z, cscale a z = times a z. Proof. reflexivity. Qed.
Lemma damping_value : forall L dt r l, r <> 0 -> (2 <= L)%nat ->
  exp ((- dt / 2 / 3600) * ((- INR l * (INR l + 1) / r ^ 2) / (- INR (L - 1) * (INR (L - 1) + 1) / r ^ 2)) ^ 4) = damping dt L l.
Proof.
  intros L dt r l Hr HL. unfold damping. f_equal. assert (P : 0 < INR (L - 1)) by (apply lt_0_INR; lia).
  assert (E : INR L = INR (L - 1) + 1). { rewrite <- S_INR. f_equal. lia. } rewrite E.
  replace (- INR l * (INR l + 1) / r ^ 2 / (- INR (L - 1) * (INR (L - 1) + 1) / r ^ 2)) with (INR l * (INR l + 1) / ((INR (L - 1) + 1 - 1) * (INR (L - 1) + 1))).
  - field. split; lra.
  - field. repeat split; auto; lra.
Qed.

Lemma increment_0 : forall k D, (forall j, (j <= k)%nat -> D j = RtoC 0) -> increment k D = RtoC 0.
Proof.
  intros k D H. destruct k as [|[|k]]; cbn [increment]; unfold adams_bashforth_3, times; rewrite !H by lia; ring.
Qed.

Section Loop.
Variable s : swe.
Variable gl : nat -> rule.
Variable g : grid.
Variable lmax mmax : option nat.
Variable q : rule.
Hypothesis B : built s gl g lmax mmax q.
Hypothesis Hw : (1 <= w_nlon s)%nat.
Hypothesis HL : (2 <= w_lmax s)%nat.
Notation L := (w_lmax s).
Notation M := (w_mmax s).
Variable u : tensor C.
Hypothesis Su : shp u = [3%nat; L; M].
Definition zeroT : tensor C := mkT [3%nat; L; M] (fun _ => RtoC 0).
Definition t0 : ab := mkAB u (fun _ => zeroT) 0 1 2.
Definition st (k : nat) : ab := match ab_loop s k 0 t0 with Some t => t | None => t0 end.
Definition Uk (k : nat) : tensor C := a_u (st k).
Definition Dk (k : nat) : tensor C := match dudtspec s (Uk k) with Some d => d | None => zeroT end.

Definition inv (k : nat) (t : ab) : Prop :=
  shp (a_u t) = [3%nat; L; M] /\ a_new t = ((- Z.of_nat k) mod 3)%Z /\ a_now t = ((1 - Z.of_nat k) mod 3)%Z /\ a_old t = ((2 - Z.of_nat k) mod 3)%Z /\
  (forall j, (k = S j)%nat -> get_slot (a_slot t) (a_now t) = Dk j) /\ (forall j, (k = S (S j))%nat -> get_slot (a_slot t) (a_old t) = Dk j).

Lemma hyper_value : exists hd, w_hyperdiff s = Some hd /\ forall l m, val hd [l; m] = damping (w_dt s) L l.
Proof.
  rewrite (b_hyp _ _ _ _ _ _ B). unfold hyperdiffusion. destruct (Nat.eqb_spec L 1); [lia|]. eexists. split. reflexivity. intros l m. cbn [map_t val laplacian nth].
  apply damping_value; auto. apply (b_radius _ _ _ _ _ _ B).
Qed.

Lemma step_ok : forall k t, ab_loop s k 0 t0 = Some t -> inv k t ->
  dudtspec s (Uk k) = Some (Dk k) /\
  exists t', ab_step s k t = Some t' /\ inv (S k) t' /\
  forall c l m, (c < 3)%nat -> (l < L)%nat -> (m < M)%nat ->
    val (a_u t') [c; l; m] = damp (w_dt s) L c l (Cplus (val (a_u t) [c; l; m]) (times (w_dt s) (increment k (fun j => val (Dk j) [c; l; m])))).
Proof.
  intros k t Et (S0 & Hn & Hw' & Ho & Iw & Io).
  assert (EU : Uk k = a_u t) by (unfold Uk, st; now rewrite Et).
  destruct (dudt_value s gl g lmax mmax q B Hw (a_u t) S0) as (D & ED & SD & _).
  assert (EDk : Dk k = D) by (unfold Dk; now rewrite EU, ED).
  split. { rewrite EU, EDk. exact ED. }
  unfold ab_step. rewrite ED. cbn [bindo]. destruct hyper_value as (hd & Eh & Vh). rewrite Eh. cbn [bindo].
  assert (R1 : (0 <= a_new t < 3)%Z) by (rewrite Hn; apply Z.mod_pos_bound; lia).
  assert (R2 : (0 <= a_now t < 3)%Z) by (rewrite Hw'; apply Z.mod_pos_bound; lia).
  assert (R3 : (0 <= a_old t < 3)%Z) by (rewrite Ho; apply Z.mod_pos_bound; lia).
  assert (K : exists a b : Z, (Z.of_nat k = 3 * a + b /\ 0 <= b < 3)%Z). { exists (Z.of_nat k / 3)%Z, (Z.of_nat k mod 3)%Z. split. apply Z.div_mod; lia. apply Z.mod_pos_bound; lia. }
  assert (NN : a_new t <> a_now t /\ a_new t <> a_old t /\ a_now t <> a_old t /\
     ((a_new t - 1) mod 3 = (- Z.of_nat (S k)) mod 3 /\ (a_now t - 1) mod 3 = (1 - Z.of_nat (S k)) mod 3 /\ (a_old t - 1) mod 3 = (2 - Z.of_nat (S k)) mod 3 /\
      (a_now t - 1) mod 3 = a_new t /\ (a_old t - 1) mod 3 = a_now t)%Z).
  { rewrite Hn, Hw', Ho, Nat2Z.inj_succ. generalize (Z.of_nat k). intros z. clear.
    assert (T1 := Z.mod_pos_bound (- z) 3 ltac:(lia)). assert (T2 := Z.mod_pos_bound (1 - z) 3 ltac:(lia)). assert (T3 := Z.mod_pos_bound (2 - z) 3 ltac:(lia)).
    assert (D1 := Z.div_mod (- z) 3 ltac:(lia)). assert (D2 := Z.div_mod (1 - z) 3 ltac:(lia)). assert (D3 := Z.div_mod (2 - z) 3 ltac:(lia)).
    repeat split; try lia.
    - rewrite Zminus_mod_idemp_l; f_equal; lia.
    - rewrite Zminus_mod_idemp_l; f_equal; lia.
    - rewrite Zminus_mod_idemp_l; f_equal; lia.
    - rewrite Zminus_mod_idemp_l; f_equal; lia.
    - rewrite Zminus_mod_idemp_l; f_equal; lia. }
  destruct NN as (N1 & N2 & N3 & M1 & M2 & M3 & M4 & M5).
  eexists. split. reflexivity. split.
  - unfold inv. cbn [a_u a_new a_now a_old a_slot shp]. split; [exact S0|]. split; [exact M1|]. split; [exact M2|]. split; [exact M3|]. split.
    + intros j Hj. assert (j = k) by lia. subst j. rewrite M4, EDk. destruct k as [|[|k]].
      * rewrite slot_other by lia. rewrite slot_other by lia. apply slot_same; lia.
      * rewrite slot_other by lia. apply slot_same; lia.
      * apply slot_same; lia.
    + intros j Hj. assert (E : k = S j) by lia. rewrite M5. rewrite <- (Iw j E). destruct k as [|[|k]]; try lia.
      * rewrite slot_other by lia. apply slot_other; lia.
      * apply slot_other; lia.
  - intros c l m Hc Hl Hm. cbn [a_u val nth tl shp]. unfold damp. rewrite Vh.
    match goal with |- (if _ then ?x else cscale ?d ?y) = (if _ then ?x' else times ?d' ?y') => assert (X : x = x'); [|destruct (c =? 0)%nat; [exact X|unfold cscale, times; f_equal; exact X]] end.
    f_equal. rewrite cs_eq. f_equal. destruct k as [|[|k]].
    + repeat first [rewrite slot_same by lia | rewrite slot_other by lia].
      cbn [increment]. rewrite EDk. unfold cscale. generalize (val D [c; l; m]). intros z. replace (RtoC (23 / 12)) with (Cplus (RtoC 1) (RtoC (11 / 12))). replace (RtoC (16 / 12)) with (Cplus (RtoC (11 / 12)) (RtoC (5 / 12))).
      ring. rewrite <- RtoC_plus. f_equal. field. rewrite <- RtoC_plus. f_equal. field.
    + repeat first [rewrite slot_same by lia | rewrite slot_other by lia]. rewrite (Iw 0%nat eq_refl).
      cbn [increment]. rewrite EDk. unfold cscale, times. replace (RtoC (28 / 12)) with (Cplus (RtoC (23 / 12)) (RtoC (5 / 12))). replace (RtoC (- 16 / 12)) with (Copp (RtoC (16 / 12))). ring.
      rewrite <- RtoC_opp. f_equal. field. rewrite <- RtoC_plus. f_equal. field.
    + repeat first [rewrite slot_same by lia | rewrite slot_other by lia]. rewrite (Iw (S k) eq_refl), (Io k eq_refl).
      cbn [increment]. unfold adams_bashforth_3. rewrite EDk. unfold cscale, times. replace (RtoC (- 16 / 12)) with (Copp (RtoC (16 / 12))). ring. rewrite <- RtoC_opp. f_equal. field.
Qed.

Lemma loop_ok : forall k, exists t, ab_loop s k 0 t0 = Some t /\ inv k t.
Proof.
  induction k as [|k IH].
  - exists t0. split; [reflexivity|]. unfold inv, t0. cbn [a_u a_new a_now a_old a_slot]. repeat split; auto; intros; lia.
  - destruct IH as (t & Et & It). destruct (step_ok k t Et It) as (_ & t' & E' & I' & _). exists t'. split; auto. rewrite ab_loop_snoc, Et. cbn [bindo]. exact E'.
Qed.
Lemma timestep_value : forall n, timestep s u n = Some (Uk n).
Proof. intros n. unfold timestep. destruct (loop_ok n) as (t & E & _). fold zeroT. fold t0. unfold Uk, st. rewrite E. reflexivity. Qed.
Lemma U_0 : Uk 0 = u. Proof. reflexivity. Qed.
Lemma U_step : forall k, shp (Uk k) = [3%nat; L; M] /\ dudtspec s (Uk k) = Some (Dk k) /\ forall c l m, (c < 3)%nat -> (l < L)%nat -> (m < M)%nat ->
  val (Uk (S k)) [c; l; m] = damp (w_dt s) L c l (Cplus (val (Uk k) [c; l; m]) (times (w_dt s) (increment k (fun j => val (Dk j) [c; l; m])))).
Proof.
  intros k. destruct (loop_ok k) as (t & E & I). destruct (step_ok k t E I) as (ED & t' & E' & _ & V). assert (EU : Uk k = a_u t) by (unfold Uk, st; now rewrite E).
  split. rewrite EU. apply I. split; auto. intros c l m Hc Hl Hm. rewrite EU. unfold Uk, st. rewrite ab_loop_snoc, E. cbn [bindo]. change (0 + k)%nat with k. rewrite E'. now apply V.
Qed.
Lemma D_value : forall k c l m, (c < 3)%nat -> (l < L)%nat -> (m < M)%nat -> val (Dk k) [c; l; m] = tend s q (coef (Uk k)) c l m.
Proof.
  intros k c l m Hc Hl Hm. destruct (U_step k) as (S & E & _). destruct (dudt_value s gl g lmax mmax q B Hw (Uk k) S) as (D & ED & _ & V). rewrite E in ED. injection ED as ->. now apply V.
Qed.
Lemma damping_0 : damping (w_dt s) L 0 = 1.
Proof. unfold damping. cbn [INR]. replace (0 * (0 + 1) / ((INR L - 1) * INR L)) with 0 by (unfold Rdiv; ring). rewrite pow_ne_zero by lia. rewrite Rmult_0_r. apply exp_0. Qed.
(** Degree 0 of all three fields never changes. *)
Lemma mean_coeff : forall n c m, (c < 3)%nat -> (m < M)%nat -> val (Uk n) [c; 0; m]%nat = val u [c; 0; m]%nat.
Proof.
  induction n as [|n IH]; intros c m Hc Hm. reflexivity. destruct (U_step n) as (_ & _ & V). rewrite V by (auto; lia). rewrite increment_0.
  - unfold damp, times. rewrite damping_0, IH by auto. destruct (c =? 0)%nat; ring.
  - intros j _. rewrite D_value by (auto; lia). apply tend_0.
Qed.
End Loop.
