(** The total of a synthesised field over the grid is its constant mode. *)
From Coq Require Import List Arith Lia Bool Reals Lra.
From Coquelicot Require Import Coquelicot.
From Verif Require Import TensorModel TensorProofs BigSum FFTModel TruncModel LegendreModel LegSpec QuadModel QuadSpec PolyProofs CCProofs QuadProofs LegTableProofs
  SHTModel SHTSpec SHTRoundSpec SHTValueProofs SHTRoundProofs FFTProofs.
Import ListNotations.
Local Open Scope R_scope.

Lemma alf00 : forall x, alf 0 0 x = / sqrt (4 * PI).
Proof. intros. rewrite <- V_alf, V_00. unfold Rdiv. ring. Qed.
Lemma s4 : 0 < sqrt (4 * PI). Proof. apply sqrt_lt_R0. pose proof PI_RGT_0. lra. Qed.
Lemma s4_sq : sqrt (4 * PI) * sqrt (4 * PI) = 4 * PI. Proof. apply sqrt_sqrt. pose proof PI_RGT_0. lra. Qed.
Lemma Re_scal : forall r z, Re (Cmult (RtoC r) z) = r * Re z.
Proof. intros. unfold Cmult, RtoC, Re. cbn [fst snd]. ring. Qed.
Lemma Im_scal : forall r z, Im (Cmult (RtoC r) z) = r * Im z.
Proof. intros. unfold Cmult, RtoC, Im. cbn [fst snd]. ring. Qed.
Lemma synth_total : forall n sz c, (1 <= n)%nat -> (0 < sz)%nat -> rsum n (synth n sz c) = INR n * Re (c 0%nat).
Proof.
  intros n sz c Hn Hs. pose proof (fourier_synth n sz c 0 Hn Hs) as F. unfold fourier in F. cbn [Nat.leb] in F.
  assert (Nz := INR_nz n Hn). pose proof PI_RGT_0.
  apply (f_equal Re) in F.
  assert (E : Re (csum n (fun j => Cmult (RtoC (synth n sz c j)) (cis (- (2 * PI * INR j * INR 0 / INR n))))) = rsum n (synth n sz c)).
  { rewrite csum_Re. apply bsum_ext. intros j _. cbn [INR]. replace (- (2 * PI * INR j * 0 / INR n)) with 0 by (field; auto).
    unfold cis, Cmult, RtoC, Re. cbn [fst snd]. rewrite cos_0, sin_0. ring. }
  rewrite !Re_scal, E in F. unfold real_order in F. cbn [Nat.leb Nat.eqb orb] in F. change (Re (Re (c 0%nat), 0)) with (Re (c 0%nat)) in F.
  apply (Rmult_eq_reg_l (2 * PI / INR n)); [|apply Rmult_integral_contrapositive; split; [lra|now apply Rinv_neq_0_compat]].
  rewrite F. field. auto.
Qed.
(** Sum over the latitudes of one degree of order zero. *)
Lemma zonal_total : forall h q nm cs L M l, good_rule h q (L - 1) -> (l < L)%nat ->
  rsum h (fun k => rw q k * val (inverse_sht_pct h L M q nm cs) [0; k; l]%nat) = if (l =? 0)%nat then norm_spec nm true 0 * (2 / sqrt (4 * PI)) else 0.
Proof.
  intros h q nm cs L M l G Hl. pose proof s4. pose proof s4_sq. pose proof PI_RGT_0.
  rewrite (bsum_ext h _ (fun k => (norm_spec nm true l * sqrt (4 * PI)) * (rw q k * alf2 0 0 l (cos (sht_colat h q k))))).
  2:{ intros k Hk. rewrite inverse_sht_entry by auto. rewrite <- alf_prod by (try lia; apply COS_bound). rewrite alf00. unfold phase_spec. cbn [pow]. destruct cs; field; lra. }
  rewrite (bsum_scal_l RT), (flipped_sum h q (0 + l)).
  2:{ eapply good_rule_le; eauto. lia. } 2:{ apply alf2_poly; lia. }
  rewrite alf2_int by lia. rewrite (Nat.eqb_sym 0 l). destruct (Nat.eqb_spec l 0) as [->|]; [|ring].
  replace (2 / sqrt (4 * PI)) with (sqrt (4 * PI) * / (2 * PI)). ring. apply (Rmult_eq_reg_r (sqrt (4 * PI))); [|lra].
  replace (2 / sqrt (4 * PI) * sqrt (4 * PI)) with 2 by (field; lra). replace (sqrt (4 * PI) * / (2 * PI) * sqrt (4 * PI)) with (sqrt (4 * PI) * sqrt (4 * PI) * / (2 * PI)) by ring. rewrite H0. field. lra.
Qed.
Lemma total_synthesise : forall h w L M q nm cs c, (1 <= w)%nat -> (1 <= L)%nat -> (1 <= M)%nat -> good_rule h q (L - 1) ->
  rsum h (fun k => rsum w (fun j => synthesise (inverse_sht_pct h L M q nm cs) L M w c k j * rw q k)) = INR w * norm_spec nm true 0 * (2 / sqrt (4 * PI)) * Re (c 0%nat 0%nat).
Proof.
  intros h w L M q nm cs c Hw HL HM G. set (V := inverse_sht_pct h L M q nm cs).
  rewrite (bsum_ext h _ (fun k => rsum L (fun l => INR w * Re (c l 0%nat) * (rw q k * val V [0; k; l]%nat)))).
  2:{ intros k Hk. rewrite (bsum_scal_r RT). unfold synthesise. rewrite synth_total by lia. rewrite csum_Re.
      rewrite Rmult_assoc, (Rmult_comm (rsum L _)), <- Rmult_assoc, <- (bsum_scal_l RT). apply bsum_ext. intros l Hl. unfold Cmult, RtoC, Re. cbn [fst snd]. ring. }
  rewrite (bsum_swap RT).
  rewrite (bsum_ext L _ (fun l => if (l =? 0)%nat then INR w * norm_spec nm true 0 * (2 / sqrt (4 * PI)) * Re (c 0%nat 0%nat) else 0)).
  - rewrite (bsum_delta_f RT L 0 (fun _ => INR w * norm_spec nm true 0 * (2 / sqrt (4 * PI)) * Re (c 0%nat 0%nat))) by lia. reflexivity.
  - intros l Hl. rewrite (bsum_scal_l RT). unfold V. rewrite zonal_total by auto. destruct (Nat.eqb_spec l 0) as [->|]; ring.
Qed.
