(** Symmetries, steady states and conserved totals of the shallow-water solver. *)
From Coq Require Import List Arith Lia Bool Reals ZArith Lra.
From Coquelicot Require Import Coquelicot.
From Verif Require Import TensorModel TensorProofs BigSum FFTModel FFTProofs TruncModel LegendreModel LegSpec LegTableProofs VLegProofs QuadModel QuadSpec QuadProofs QuadPropProofs SHTModel SHTSpec SHTRoundSpec SHTValueProofs VSHTValueProofs SHTRoundProofs VRoundProofs SHTMeanProofs
  LossModel LossProofs SolverModel SolverSpec SolverProofs SolverProofs2.
Import ListNotations.
Local Open Scope R_scope.

Lemma laplace_eq : forall r l, lapl r l = laplace r l.
Proof. intros. unfold lapl, laplace. rewrite plus_INR. cbn [INR pow]. f_equal. ring. f_equal. ring. Qed.
Lemma lap_inverse : forall r l, r <> 0 -> lapl r l * invl r l = if (l =? 0)%nat then 0 else 1.
Proof.
  intros r l Hr. unfold lapl, invl. destruct (Nat.eqb_spec l 0) as [->|N]. ring. assert (0 < INR l) by (apply lt_0_INR; lia). field. repeat split; auto; lra.
Qed.

(** ** Zero and constant fields *)
Lemma synth_zero : forall n sz c j, (forall m, (m < sz)%nat -> c m = RtoC 0) -> synth n sz c j = 0.
Proof. intros. unfold synth. apply (bsum_zero' RT). intros m Hm. destruct (m <=? n / 2)%nat; auto. rewrite H by auto. rewrite Cmult_0_l. cbn. ring. Qed.
Lemma fourier_zero : forall n f m, (forall j, (j < n)%nat -> f j = 0) -> fourier n f m = RtoC 0.
Proof. intros. unfold fourier. destruct (m <=? n / 2)%nat; auto. rewrite (bsum_zero' CT). ring. intros j Hj. rewrite H by auto. ring. Qed.
Lemma fourier_const : forall n a m, (1 <= m)%nat -> fourier n (fun _ => a) m = RtoC 0.
Proof.
  intros n a m Hm. unfold fourier. destruct (Nat.leb_spec m (n / 2)) as [H|]; auto.
  assert (N : (m < n)%nat). { destruct n; [cbn in H; lia|]. assert (S n / 2 < S n)%nat by (apply Nat.div_lt; lia). lia. }
  rewrite (bsum_scal_l CT). assert (Z : csum n (fun j => cis (- (2 * PI * INR j * INR m / INR n))) = RtoC 0); [|rewrite Z; ring].
  rewrite (bsum_ext n _ (fun j => Cconj (cis (2 * PI * INR j * INR m / INR n)))) by (intros; now rewrite cis_conj). rewrite <- csum_conj, dft_zero by lia. unfold Cconj, RtoC. cbn. f_equal. ring.
Qed.
Lemma fourier_eq_const : forall n f a m, (1 <= m)%nat -> (forall j, (j < n)%nat -> f j = a) -> fourier n f m = RtoC 0.
Proof. intros n f a m Hm H. rewrite (fourier_ext n f (fun _ => a)) by auto. now apply fourier_const. Qed.
Lemma fourier0_const : forall n a, (1 <= n)%nat -> fourier n (fun _ => a) 0 = RtoC (2 * PI * a).
Proof.
  intros n a Hn. unfold fourier. cbn [Nat.leb]. assert (INR n <> 0) by (apply not_0_INR; lia).
  rewrite (bsum_ext n _ (fun _ => RtoC a)). 2:{ intros j _. cbn [INR]. replace (- (2 * PI * INR j * 0 / INR n)) with 0 by (field; auto). rewrite cis_0. ring. }
  rewrite csum_const, <- !RtoC_mult. f_equal. field. auto.
Qed.

Lemma synth_zonal : forall n sz c, (forall m, (1 <= m < sz)%nat -> c m = RtoC 0) -> forall j, synth n sz c j = synth n sz c 0.
Proof.
  intros n sz c H j. unfold synth. apply bsum_ext. intros m Hm. destruct m as [|m]. cbn [INR]. cbn [Nat.leb]. f_equal. f_equal. f_equal. f_equal. unfold Rdiv. ring.
  rewrite H by lia. now rewrite !Cmult_0_l.
Qed.

Section Consts.
Variables (h w L M : nat) (q : rule).
Hypothesis Hw : (1 <= w)%nat.
Hypothesis HL : (1 <= L)%nat.
Notation WSg := (real_sht_weights h L M q Ortho false).
Notation WIg := (inverse_sht_pct h L M q Ortho false).
Lemma analyse_zonal : forall W f l m, (1 <= m)%nat -> (forall k j, (j < w)%nat -> f k j = f k 0%nat) -> analyse W h w f l m = RtoC 0.
Proof. intros W f l m Hm H. apply (bsum_zero' CT). intros k Hk. rewrite (fourier_eq_const w (f k) (f k 0%nat)) by auto. ring. Qed.
Lemma WS_WI : forall l m k, (l < L)%nat -> val WSg [m; l; k] = rw q k * val WIg [m; k; l].
Proof. intros. rewrite real_sht_entry, inverse_sht_entry by auto. unfold norm_spec. field. Qed.
Lemma const_field : forall (c : nat -> nat -> C), (forall l m, (l < L)%nat -> (m < M)%nat -> (1 <= l + m)%nat -> c l m = RtoC 0) -> (1 <= M)%nat -> forall k j, synthesise WIg L M w c k j = Re (c 0%nat 0%nat) / sqrt (4 * PI).
Proof.
  intros c H HM k j. unfold synthesise. rewrite synth_zonal. 2:{ intros m Hm. apply (bsum_zero' CT). intros l Hl. rewrite H by (auto; lia). ring. }
  unfold synth. rewrite (bsum_ext M _ (fun m => if (m =? 0)%nat then Re (c 0%nat 0%nat) / sqrt (4 * PI) else 0)).
  - rewrite (bsum_delta_f RT M 0 (fun _ => Re (c 0%nat 0%nat) / sqrt (4 * PI))) by lia. reflexivity.
  - intros m Hm. destruct m as [|m]; cbn [Nat.eqb].
    + cbn [Nat.leb]. rewrite (bsum_ext L _ (fun l => if (l =? 0)%nat then Cmult (RtoC (/ sqrt (4 * PI))) (c 0%nat 0%nat) else RtoC 0)).
      * rewrite (bsum_delta_f CT L 0 (fun _ => Cmult (RtoC (/ sqrt (4 * PI))) (c 0%nat 0%nat))) by lia. cbn [INR]. replace (2 * PI * 0 * 0 / INR w) with 0 by (unfold Rdiv; ring). rewrite cis_0, Cmult_1_r, Re_scal.
        unfold mirror. cbn [Nat.eqb orb]. unfold Rdiv. ring.
      * intros l Hl. destruct l as [|l]; cbn [Nat.eqb]. rewrite inverse_sht_entry, alf00 by auto. unfold norm_spec, phase_spec. rewrite Rinv_1 || idtac. f_equal. f_equal. field. apply Rgt_not_eq, s4.
        rewrite H by (auto; lia). ring.
    + destruct (S m <=? w / 2)%nat; auto. rewrite (bsum_zero' CT). rewrite Cmult_0_l. cbn. ring. intros l Hl. rewrite H by (auto; lia). ring.
Qed.
Lemma analyse_const : forall a l m, good_rule h q (L - 1) -> (l < L)%nat -> (1 <= l + m)%nat -> analyse WSg h w (fun _ _ => a) l m = RtoC 0.
Proof.
  intros a l m G Hl H. destruct m as [|m]; [|apply analyse_zonal; auto; lia]. unfold analyse. rewrite (bsum_ext h _ (fun k => Cmult (RtoC (rw q k * val WIg [0%nat; k; l])) (RtoC (2 * PI * a)))).
  - rewrite (bsum_scal_r CT), FFTProofs.csum_RtoC. rewrite zonal_total by auto. destruct (Nat.eqb_spec l 0); [lia|]. ring.
  - intros k Hk. rewrite fourier0_const by auto. now rewrite WS_WI.
Qed.
Lemma analyse_const0 : forall a, good_rule h q (L - 1) -> analyse WSg h w (fun _ _ => a) 0 0 = RtoC (a * sqrt (4 * PI)).
Proof.
  intros a G. unfold analyse. rewrite (bsum_ext h _ (fun k => Cmult (RtoC (rw q k * val WIg [0%nat; k; 0%nat])) (RtoC (2 * PI * a)))).
  - rewrite (bsum_scal_r CT), FFTProofs.csum_RtoC. rewrite zonal_total by (auto; lia). cbn [Nat.eqb]. unfold norm_spec. rewrite <- RtoC_mult. f_equal.
    pose proof s4. pose proof s4_sq. apply (Rmult_eq_reg_r (sqrt (4 * PI))); [|lra]. rewrite (Rmult_assoc a), H0. field. lra.
  - intros k Hk. rewrite fourier0_const by auto. rewrite WS_WI by lia. reflexivity.
Qed.
End Consts.

Section Flow.
Variable s : swe.
Variable gl : nat -> rule.
Variable g : grid.
Variable lmax mmax : option nat.
Variable q : rule.
Hypothesis B : built s gl g lmax mmax q.
Hypothesis Hw : (1 <= w_nlon s)%nat.
Notation L := (w_lmax s).
Notation M := (w_mmax s).
Notation h := (w_nlat s).
Notation w := (w_nlon s).
Notation r := (w_radius s).
Notation field3 := (nat -> nat -> nat -> C).
Definition same3 (u v : field3) := forall c l m, (c < 3)%nat -> (l < L)%nat -> (m < M)%nat -> u c l m = v c l m.

Lemma gfield_ext : forall u v c k j, (c < 3)%nat -> same3 u v -> gfield s q u c k j = gfield s q v c k j.
Proof. intros. unfold gfield. apply synthesise_ext. intros. now apply H0. Qed.
Lemma gwind_ext : forall u v d k j, same3 u v -> gwind s q u d k j = gwind s q v d k j.
Proof. intros u v d k j H. unfold gwind. apply vsynthesise_ext. intros. rewrite H by (auto; lia). reflexivity. Qed.
Lemma tend_ext : forall u v, same3 u v -> forall c l m, tend s q u c l m = tend s q v c l m.
Proof.
  intros u v H c l m. unfold tend. destruct c as [|[|]].
  - do 2 f_equal. apply vanalyse_ext. intros. now rewrite (gwind_ext u v), (gfield_ext u v) by (auto; lia).
  - do 2 f_equal. apply vanalyse_ext. intros. now rewrite (gwind_ext u v), (gfield_ext u v) by (auto; lia).
  - f_equal; f_equal. apply vanalyse_ext. intros. now rewrite (gwind_ext u v), (gfield_ext u v) by (auto; lia).
    apply analyse_ext. intros. unfold genergy. now rewrite !(gwind_ext u v), (gfield_ext u v) by (auto; lia).
Qed.

(** ** Rotation about the axis *)
Variable sh : nat.
Definition turn (u : field3) : field3 := fun c l m => Cmult (phase w sh m) (u c l m).
Lemma gfield_turn : forall u c k j, gfield s q (turn u) c k j = rollv w sh (gfield s q u c k) j.
Proof. intros. unfold gfield, turn. now rewrite synthesise_phase. Qed.
Lemma gwind_turn : forall u d k j, gwind s q (turn u) d k j = rollv w sh (gwind s q u d k) j.
Proof.
  intros. unfold gwind, turn. rewrite <- vsynthesise_phase by auto. apply vsynthesise_ext. intros. unfold cscale. ring.
Qed.
Lemma tend_turn : forall u c l m, tend s q (turn u) c l m = Cmult (phase w sh m) (tend s q u c l m).
Proof.
  intros u c l m. unfold tend. cbv zeta.
  assert (F1 : forall a, vanalyse (WV s q) h w (fun d k j => gwind s q (turn u) d k j * gfield s q (turn u) 0 k j) a l m = Cmult (phase w sh m) (vanalyse (WV s q) h w (fun d k j => gwind s q u d k j * gfield s q u 0 k j) a l m)).
  { intros a. rewrite <- vanalyse_roll by auto. apply vanalyse_ext. intros. rewrite gwind_turn, gfield_turn. reflexivity. }
  assert (F2 : forall a, vanalyse (WV s q) h w (fun d k j => gwind s q (turn u) d k j * (gfield s q (turn u) 1 k j + cori s q k)) a l m = Cmult (phase w sh m) (vanalyse (WV s q) h w (fun d k j => gwind s q u d k j * (gfield s q u 1 k j + cori s q k)) a l m)).
  { intros a. rewrite <- vanalyse_roll by auto. apply vanalyse_ext. intros. rewrite gwind_turn, gfield_turn. reflexivity. }
  assert (F3 : analyse (WS s q) h w (genergy s q (turn u)) l m = Cmult (phase w sh m) (analyse (WS s q) h w (genergy s q u) l m)).
  { rewrite <- analyse_roll by auto. apply analyse_ext. intros. unfold genergy. rewrite !gwind_turn, gfield_turn. reflexivity. }
  destruct c as [|[|]]; rewrite ?F1, ?F2, ?F3; unfold cscale; ring.
Qed.
Hypothesis HL : (2 <= L)%nat.
Lemma increment_lin : forall k z D E, (forall j, (j <= k)%nat -> E j = Cmult z (D j)) -> increment k E = Cmult z (increment k D).
Proof. intros k z D E H. destruct k as [|[|k]]; cbn [increment]; unfold adams_bashforth_3, times; rewrite !H by lia; ring. Qed.
Lemma damp_lin : forall dt l' c l z x, damp dt l' c l (Cmult z x) = Cmult z (damp dt l' c l x).
Proof. intros. unfold damp, times. destruct (c =? 0)%nat; ring. Qed.
Lemma traj_turn : forall u u', shp u = [3%nat; L; M] -> shp u' = [3%nat; L; M] -> same3 (coef u') (turn (coef u)) ->
  forall n, same3 (coef (Uk s u' n)) (turn (coef (Uk s u n))).
Proof.
  intros u u' Su Su' H.
  assert (A : forall n j, (j <= n)%nat -> same3 (coef (Uk s u' j)) (turn (coef (Uk s u j)))).
  { induction n as [|n IH]; intros j Hj.
    - assert (j = 0)%nat by lia. subst j. exact H.
    - destruct (Nat.eq_dec j (S n)) as [->|]; [|apply IH; lia].
      intros c l m Hc Hl Hm. destruct (U_step s gl g lmax mmax q B Hw HL u Su n) as (_ & _ & V). destruct (U_step s gl g lmax mmax q B Hw HL u' Su' n) as (_ & _ & V').
      unfold coef at 1. rewrite V' by auto. unfold turn, coef. rewrite V by auto. rewrite <- damp_lin. f_equal.
      rewrite (increment_lin n (phase w sh m) (fun j => val (Dk s u j) [c; l; m])).
      + pose proof (IH n ltac:(lia) c l m Hc Hl Hm) as E. unfold coef, turn in E. rewrite E. unfold times. ring.
      + intros j Hj'. rewrite !(D_value s gl g lmax mmax q B Hw HL) by auto. rewrite (tend_ext _ _ (IH j ltac:(lia))). now rewrite tend_turn. }
  intros n. exact (A n n (le_n n)).
Qed.

(** ** Zonal states *)
Definition zonal3 (u : field3) := forall c l m, (c < 3)%nat -> (l < L)%nat -> (1 <= m < M)%nat -> u c l m = RtoC 0.
Lemma gfield_zonal : forall u c k, (c < 3)%nat -> zonal3 u -> forall j, gfield s q u c k j = gfield s q u c k 0.
Proof.
  clear HL. intros u c k Hc H. apply synth_zonal. intros m Hm. apply (bsum_zero' CT). intros l Hl. rewrite H by auto. ring.
Qed.
Lemma gwind_zonal : forall u d k, zonal3 u -> forall j, gwind s q u d k j = gwind s q u d k 0.
Proof.
  clear HL. intros u d k H. apply synth_zonal. intros m Hm. apply (bsum_zero' CT). intros l Hl. unfold cscale. rewrite !H by (auto; lia). unfold vcomb. destruct (d =? 0)%nat; ring.
Qed.
Lemma vanalyse_zonal : forall W f c l m, (1 <= m)%nat -> (forall d k j, (j < w)%nat -> f d k j = f d k 0%nat) -> vanalyse W h w f c l m = RtoC 0.
Proof.
  intros W f c l m Hm H. apply (bsum_zero' CT). intros k Hk. rewrite (fourier_eq_const w (f 0%nat k) (f 0%nat k 0%nat)), (fourier_eq_const w (f 1%nat k) (f 1%nat k 0%nat)) by auto. unfold vcomb. destruct (c =? 0)%nat; ring.
Qed.
Lemma tend_zonal : forall u, zonal3 u -> forall c l m, (1 <= m)%nat -> tend s q u c l m = RtoC 0.
Proof.
  clear HL. intros u H c l m Hm. assert (F : forall c k j, (c < 3)%nat -> gfield s q u c k j = gfield s q u c k 0) by (intros; now apply gfield_zonal).
  assert (W : forall d k j, gwind s q u d k j = gwind s q u d k 0) by (intros; now apply gwind_zonal).
  assert (A1 : forall a, vanalyse (WV s q) h w (fun d k j => gwind s q u d k j * gfield s q u 0 k j) a l m = RtoC 0).
  { intros. apply vanalyse_zonal; auto. intros. now rewrite (W d k j), (F 0%nat k j) by lia. }
  assert (A2 : forall a, vanalyse (WV s q) h w (fun d k j => gwind s q u d k j * (gfield s q u 1 k j + cori s q k)) a l m = RtoC 0).
  { intros. apply vanalyse_zonal; auto. intros. now rewrite (W d k j), (F 1%nat k j) by lia. }
  assert (A3 : analyse (WS s q) h w (genergy s q u) l m = RtoC 0).
  { apply analyse_zonal; auto. intros. unfold genergy. now rewrite (W 0%nat k j), (W 1%nat k j), (F 0%nat k j) by lia. }
  unfold tend. cbv zeta. unfold cscale. destruct c as [|[|]]; rewrite ?A1, ?A2, ?A3; ring.
Qed.
Lemma traj_zero : forall (P : nat -> nat -> Prop) u, shp u = [3%nat; L; M] ->
  (forall c l m, (c < 3)%nat -> (l < L)%nat -> (m < M)%nat -> P l m -> val u [c; l; m] = RtoC 0) ->
  (forall v, (forall c l m, (c < 3)%nat -> (l < L)%nat -> (m < M)%nat -> P l m -> v c l m = RtoC 0) -> forall c l m, (c < 3)%nat -> (l < L)%nat -> (m < M)%nat -> P l m -> tend s q v c l m = RtoC 0) ->
  forall n c l m, (c < 3)%nat -> (l < L)%nat -> (m < M)%nat -> P l m -> val (Uk s u n) [c; l; m] = RtoC 0.
Proof.
  intros P u Su H0 HT n. enough (A : forall n j, (j <= n)%nat -> forall c l m, (c < 3)%nat -> (l < L)%nat -> (m < M)%nat -> P l m -> val (Uk s u j) [c; l; m] = RtoC 0) by exact (A n n (le_n n)).
  clear n. induction n as [|n IH]; intros j Hj c l m Hc Hl Hm HP.
  - assert (j = 0)%nat by lia. subst j. now apply H0.
  - destruct (Nat.eq_dec j (S n)) as [->|]; [|apply IH; auto; lia].
    destruct (U_step s gl g lmax mmax q B Hw HL u Su n) as (_ & _ & V). rewrite V by auto. rewrite IH by auto. rewrite increment_0.
    + unfold damp, times. destruct (c =? 0)%nat; ring.
    + intros j Hj'. rewrite (D_value s gl g lmax mmax q B Hw HL) by auto. apply HT; auto. intros. now apply IH.
Qed.
Lemma traj_zonal : forall u, shp u = [3%nat; L; M] -> zonal3 (coef u) -> forall n, zonal3 (coef (Uk s u n)).
Proof.
  intros u Su H n c l m Hc Hl Hm. apply (traj_zero (fun l m => (1 <= m)%nat) u Su); auto; try lia.
  - intros. apply H; auto.
  - intros v Hv c' l' m' Hc' Hl' Hm' P. apply tend_zonal; auto. intros c2 l2 m2 X Y Z. apply Hv; auto; lia.
Qed.

(** ** Triangular truncation *)
Lemma tend_triangular : forall u c l m, (l < L)%nat -> (l < m)%nat -> tend s q u c l m = RtoC 0.
Proof.
  intros u c l m Hl Hm. unfold tend. cbv zeta.
  assert (F : forall f a, vanalyse (WV s q) h w f a l m = RtoC 0).
  { intros. apply (bsum_zero' CT). intros k Hk. unfold WV. rewrite !vector_entry by auto. rewrite !comp_above by auto. rewrite !Rmult_0_r, !Rmult_0_l. unfold vcomb. destruct (a =? 0)%nat; ring. }
  assert (G : forall f, analyse (WS s q) h w f l m = RtoC 0).
  { intros. apply (bsum_zero' CT). intros k Hk. unfold WS. rewrite real_sht_entry by auto. rewrite alf_above by auto. rewrite Rmult_0_r, Rmult_0_l. ring. }
  unfold cscale. destruct c as [|[|]]; rewrite ?F, ?G; ring.
Qed.

(** ** Zonal flow without divergence *)
Lemma w1_zero : forall h L M q nm cs l k, (l < L)%nat -> val (inverse_vector_dpct h L M q nm cs) [1; 0; k; l]%nat = 0.
Proof. intros. unfold inverse_vector_dpct. cbn [val nth]. unfold precompute_dlegpoly. cbn [Nat.eqb]. unfold dleg1, dleg_mask. cbn [Nat.leb andb]. rewrite andb_false_r. ring. Qed.
Lemma w1_zero' : forall h L M q nm cs l k, (l < L)%nat -> val (vector_sht_weights h L M q nm cs) [1; 0; l; k]%nat = 0.
Proof. intros. unfold vector_sht_weights. cbn [val nth]. unfold precompute_dlegpoly. cbn [Nat.eqb]. unfold dleg1, dleg_mask. cbn [Nat.leb andb]. rewrite andb_false_r. ring. Qed.
Lemma no_meridional : forall u k j, zonal3 u -> (forall l m, (l < L)%nat -> (m < M)%nat -> u 2%nat l m = RtoC 0) -> gwind s q u 1 k j = 0.
Proof.
  clear HL. intros u k j Z D. unfold gwind, vsynthesise. apply synth_zero. intros m Hm. apply (bsum_zero' CT). intros l Hl. unfold vcomb. cbn [Nat.eqb]. unfold cscale. rewrite D by auto.
  destruct m as [|m]. unfold WIV. rewrite w1_zero by auto. ring. rewrite Z by (auto; lia). ring.
Qed.
Lemma zonal_flow : forall u, zonal3 u -> (forall l m, (l < L)%nat -> (m < M)%nat -> u 2%nat l m = RtoC 0) ->
  forall c l m, (c < 2)%nat -> (l < L)%nat -> (m < M)%nat -> tend s q u c l m = RtoC 0.
Proof.
  clear HL. intros u Z D c l m Hc Hl Hm. destruct (Nat.eq_dec m 0) as [->|]; [|apply tend_zonal; auto; lia].
  assert (F : forall f, (forall k j, (k < h)%nat -> (j < w)%nat -> f 1%nat k j = 0) -> vanalyse (WV s q) h w f 1 l 0 = RtoC 0).
  { intros f Hf. apply (bsum_zero' CT). intros k Hk. unfold vcomb. cbn [Nat.eqb]. rewrite (fourier_zero w (f 1%nat k)) by auto. unfold WV. rewrite w1_zero' by auto. ring. }
  unfold tend. cbv zeta. destruct c as [|[|]]; try lia; rewrite F; try (unfold cscale; ring); intros; rewrite no_meridional by auto; ring.
Qed.

(** ** The state of rest *)
Definition rest3 (u : field3) := forall c l m, (c < 3)%nat -> (l < L)%nat -> (m < M)%nat -> (1 <= c + l + m)%nat -> u c l m = RtoC 0.
Lemma rest_field : forall u c k j, rest3 u -> (1 <= c < 3)%nat -> gfield s q u c k j = 0.
Proof. intros. unfold gfield, synthesise. apply synth_zero. intros. apply (bsum_zero' CT). intros. rewrite H by (auto; lia). ring. Qed.
Lemma rest_wind : forall u d k j, rest3 u -> gwind s q u d k j = 0.
Proof. intros. unfold gwind, vsynthesise. apply synth_zero. intros. apply (bsum_zero' CT). intros. unfold cscale. rewrite !H by (auto; lia). unfold vcomb. destruct (d =? 0)%nat; ring. Qed.
Lemma rest_tend : forall u, rest3 u -> (1 <= M)%nat -> good_rule h q (L - 1) -> forall c l m, (c < 3)%nat -> (l < L)%nat -> (m < M)%nat -> tend s q u c l m = RtoC 0.
Proof.
  intros u H HM G c l m Hc Hl Hm. destruct (Nat.eq_dec l 0) as [->|Nl]. now apply tend_0 with (s := s).
  assert (F : forall f a, (forall d k j, f d k j = 0) -> vanalyse (WV s q) h w f a l m = RtoC 0).
  { intros f a Hf. apply (bsum_zero' CT). intros k Hk. rewrite !fourier_zero by auto. unfold vcomb. destruct (a =? 0)%nat; ring. }
  unfold tend. cbv zeta. rewrite !F by (intros; rewrite rest_wind by auto; ring).
  rewrite (analyse_ext _ _ _ (genergy s q u) (fun _ _ => Re (u 0%nat 0%nat 0%nat) / sqrt (4 * PI))).
  - unfold WS. rewrite analyse_const by (auto; lia). unfold cscale. destruct c as [|[|]]; ring.
  - intros. unfold genergy. rewrite !rest_wind by auto. unfold gfield, WI. rewrite const_field by (auto; try lia; intros; apply H; auto; lia). ring.
Qed.
Lemma traj_rest : forall u, shp u = [3%nat; L; M] -> rest3 (coef u) -> (1 <= M)%nat -> good_rule h q (L - 1) ->
  forall n, same3 (coef (Uk s u n)) (coef u).
Proof.
  intros u Su H HM G n. enough (A : forall n j, (j <= n)%nat -> same3 (coef (Uk s u j)) (coef u)) by exact (A n n (le_n n)).
  clear n. induction n as [|n IH]; intros j Hj c l m Hc Hl Hm.
  - assert (j = 0)%nat by lia. subst j. reflexivity.
  - destruct (Nat.eq_dec j (S n)) as [->|]; [|apply IH; auto; lia].
    destruct (U_step s gl g lmax mmax q B Hw HL u Su n) as (_ & _ & V). unfold coef at 1. rewrite V by auto. rewrite increment_0.
    + pose proof (IH n (le_n n) c l m Hc Hl Hm) as E. unfold coef in E. rewrite E. unfold damp, times, coef. destruct (Nat.eqb_spec c 0); [ring|]. pose proof (H c l m Hc Hl Hm ltac:(lia)) as Z. unfold coef in Z. rewrite Z. ring.
    + intros j Hj'. rewrite (D_value s gl g lmax mmax q B Hw HL) by auto. rewrite (tend_ext _ (coef u)) by (apply IH; lia). now apply rest_tend.
Qed.

(** ** Wind from vorticity and divergence, and back *)
Lemma wind_round : forall v, shp v = [2%nat; L; M] -> good_rule h q (2 * (L - 1)) ->
  (forall d l m, (d < 2)%nat -> (l < L)%nat -> (m < M)%nat -> (2 * m)%nat = w -> val v [d; l; m] = RtoC 0) ->
  exists f z, getuv s v = Some f /\ vrtdivspec s f = Some z /\ shp z = [2%nat; L; M] /\
  forall d l m, (d < 2)%nat -> (l < L)%nat -> (m < M)%nat -> val z [d; l; m] = vrepresentable_at w l m (val v [d; l; m]).
Proof.
  intros v Sv G NY. destruct (getuv_value s gl g lmax mmax q B Hw v Sv) as (f & Ef & Sf & Vf). destruct (vrtdiv_value s gl g lmax mmax q B f Sf) as (z & Ez & Sz & Vz).
  exists f, z. repeat split; auto. intros d l m Hd Hl Hm. rewrite Vz by auto.
  rewrite (vanalyse_ext _ _ _ _ (vsynthesise (WIV s q) L M w (fun c l m => cscale (/ r) (cscale (invl r l) (val v [c; l; m]))))) by (intros; apply Vf).
  unfold WV, WIV. rewrite vanalyse_vsynthesise; auto.
  2:{ intros E e l' He Hl'. rewrite NY by auto. unfold cscale. ring. }
  pose proof (b_radius _ _ _ _ _ _ B) as Hr. pose proof (lap_inverse r l Hr) as LI. unfold vrepresentable_at. destruct ((1 <=? l) && (m <=? l))%nat%bool eqn:E; [|unfold cscale; ring].
  apply andb_prop in E as (E1 & E2). apply Nat.leb_le in E1. rewrite (proj2 (Nat.eqb_neq l 0)) in LI by lia.
  assert (RO : forall a x, real_order w m (cscale a x) = cscale a (real_order w m x)).
  { intros a x. unfold real_order, cscale. destruct (m <=? w / 2)%nat; [|ring]. destruct ((m =? 0) || (2 * m =? w))%nat%bool; destruct x as [x1 x2]; unfold Cmult, RtoC, Re, Im; cbn [fst snd]; f_equal; ring. }
  rewrite !RO. unfold cscale. rewrite !Cmult_assoc, <- !RtoC_mult. replace (lapl r l * r * / r * invl r l) with (lapl r l * invl r l * (r * / r)) by ring. rewrite LI, Rinv_r by auto. rewrite Rmult_1_r. ring.
Qed.

(** ** Totals on the grid *)
Lemma integrate_value : forall x n dl, shp x = [n; h; w] -> exists y, integrate_grid s x dl 0 = Some y /\ shp y = [n] /\
  forall c, (c < n)%nat -> val y [c] = grid_integral (if dl then 1 else r) h w (rw q) (fun k j => val x [c; k; j]).
Proof.
  intros x n dl Sx. unfold integrate_grid. cbn [Nat.eqb]. rewrite (b_quad _ _ _ _ _ _ B).
  destruct (bmap2_colfield _ _ _ Rmult x (mkT [h; 1%nat] (fun i => rw q (nth 0 i 0%nat))) n h w Sx eq_refl) as (p & Ep & Sp & Vp). rewrite Ep. cbn [bindo].
  unfold sum_last2, ndim, dimsz. cbn [map_t shp]. rewrite Sp. cbn [length Nat.sub nth Nat.leb guard bindo firstn]. eexists. split. reflexivity. split. reflexivity.
  intros c Hc. cbn [val app]. unfold grid_integral. rewrite <- (bsum_scal_l RT). apply bsum_ext. intros k Hk. rewrite <- !(bsum_scal_l RT). apply bsum_ext. intros j Hj. cbn [map_t val]. rewrite Vp by auto. cbn [val nth]. ring.
Qed.
Lemma total_value : forall u n dl, shp u = [n; L; M] -> (1 <= L)%nat -> (1 <= M)%nat -> good_rule h q (L - 1) ->
  exists f y, spec2grid s u = Some f /\ integrate_grid s f dl 0 = Some y /\ shp y = [n] /\
  forall c, (c < n)%nat -> val y [c] = (if dl then 1 else r) * (if dl then 1 else r) * sqrt (4 * PI) * Re (val u [c; 0; 0]%nat).
Proof.
  clear HL. intros u n dl Su H1 H2 G. destruct (spec2grid_value s gl g lmax mmax q B Hw n u Su) as (f & Ef & Sf & Vf). destruct (integrate_value f n dl Sf) as (y & Ey & Sy & Vy).
  exists f, y. repeat split; auto. intros c Hc. rewrite Vy by auto. unfold grid_integral. rewrite !Rmult_assoc. do 2 f_equal. rewrite <- Rmult_assoc || idtac.
  transitivity (2 * PI / INR w * rsum h (fun k => rsum w (fun j => synthesise (WI s q) L M w (fun l m => val u [c; l; m]) k j * rw q k))).
  - rewrite <- (bsum_scal_l RT). apply bsum_ext. intros k Hk. rewrite (bsum_scal_r RT). cbv beta. rewrite (bsum_ext w _ (synthesise (WI s q) L M w (fun l m => val u [c; l; m]) k)) by (intros; apply Vf). ring.
  - unfold WI. rewrite total_synthesise by auto. unfold norm_spec. pose proof s4. pose proof s4_sq. assert (INR w <> 0) by (apply not_0_INR; lia).
    apply (Rmult_eq_reg_r (sqrt (4 * PI))); [|lra]. replace (sqrt (4 * PI) * Re (val u [c; 0%nat; 0%nat]) * sqrt (4 * PI)) with (sqrt (4 * PI) * sqrt (4 * PI) * Re (val u [c; 0%nat; 0%nat])) by ring. rewrite H0. field. split; lra.
Qed.
Lemma totals_conserved : forall u dl, shp u = [3%nat; L; M] -> (1 <= M)%nat -> good_rule h q (L - 1) -> forall n,
  exists f y f' y', spec2grid s u = Some f /\ integrate_grid s f dl 0 = Some y /\ spec2grid s (Uk s u n) = Some f' /\ integrate_grid s f' dl 0 = Some y' /\ teq y' y.
Proof.
  intros u dl Su HM G n. destruct (U_step s gl g lmax mmax q B Hw HL u Su n) as (Sn & _).
  destruct (total_value u 3 dl Su ltac:(lia) HM G) as (f & y & Ef & Ey & Sy & Vy). destruct (total_value (Uk s u n) 3 dl Sn ltac:(lia) HM G) as (f' & y' & Ef' & Ey' & Sy' & Vy').
  exists f, y, f', y'. repeat split; auto. congruence. intros i Hi. rewrite Sy' in Hi. pose proof (valid_len _ _ Hi) as LN. destruct i as [|c [|]]; try discriminate.
  apply valid_cons in Hi as (Hc & _). rewrite Vy, Vy' by auto. do 2 f_equal. apply (mean_coeff s gl g lmax mmax q B Hw HL u Su); auto.
Qed.

(** ** The Coriolis parameter *)
Lemma coriolis_value : forall k, symmetric_rule h q (-1) 1 -> (forall i, (i < h)%nat -> -1 <= rn q i <= 1) -> (k < h)%nat ->
  val (w_coriolis s) [k; 0%nat] = 2 * w_omega s * cos (sht_colat h q k).
Proof.
  intros k Sy Bd Hk. rewrite (b_cor _ _ _ _ _ _ B). cbn [val nth]. rewrite sin_neg, sin_asin by auto. rewrite colat_cos by auto. destruct (Sy k Hk) as (_ & E). rewrite E. ring.
Qed.
End Flow.
