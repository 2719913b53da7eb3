From Coq Require Import List Arith Lia Bool Reals ZArith Lra.
From Coquelicot Require Import Coquelicot.
From Verif Require Import TensorModel TensorProofs BigSum FFTModel TruncModel LegendreModel QuadModel QuadProofs SHTModel SHTSpec SHTRoundSpec SHTValueProofs
  LossModel LossProofs SHTMeanProofs SolverModel SolverSpec SolverProofs SolverProofs2 SolverProofs3 SolverProofs4 PdeDataModel PdeDataSpec PdeDataProofs.
Import ListNotations.
Local Open Scope R_scope.

Lemma total_ext : forall h w f g, (forall k j, (k < h)%nat -> (j < w)%nat -> f k j = g k j) -> total h w f = total h w g.
Proof. intros. unfold total. apply bsum_ext. intros. apply bsum_ext. auto. Qed.
Lemma total_scal : forall h w a f, total h w (fun k j => a * f k j) = a * total h w f.
Proof. intros. unfold total. rewrite <- (bsum_scal_l RT). apply bsum_ext. intros. now rewrite <- (bsum_scal_l RT). Qed.
Lemma total_const : forall h w a, total h w (fun _ _ => a) = INR (h * w) * a.
Proof. intros. unfold total. rewrite (bsum_ext h _ (fun _ => INR w * a)). rewrite rsum_const, mult_INR. ring. intros. now rewrite rsum_const. Qed.
Lemma total_minus : forall h w f a, total h w (fun k j => f k j - a) = total h w f - INR (h * w) * a.
Proof.
  intros. rewrite <- total_const. unfold total. 
  assert (M : forall n (x y : nat -> R), rsum n x - rsum n y = rsum n (fun i => x i - y i)) by (intros; symmetry; apply (bsum_sub RT)).
  rewrite M. apply bsum_ext. intros. now rewrite M.
Qed.
Lemma total_nonneg : forall h w f, (forall k j, 0 <= f k j) -> 0 <= total h w f.
Proof. intros. unfold total. apply rsum_nonneg. intros. apply rsum_nonneg. auto. Qed.

Lemma var_sign : forall h w x c, channel_var h w x c <> 0 -> 0 < channel_var h w x c /\ 0 < INR (h * w - 1).
Proof.
  intros h w x c N. unfold channel_var in *. fold (total h w (fun k j => (val x [c; k; j] - channel_mean h w x c) ^ 2)) in *.
  pose proof (total_nonneg h w (fun k j => (val x [c; k; j] - channel_mean h w x c) ^ 2) ltac:(intros; apply pow2_ge_0)) as P.
  set (t := total h w _) in *. destruct (h * w - 1)%nat as [|n] eqn:En.
  - exfalso. apply N. assert (T : t = 0).
    { unfold t. destruct (h * w)%nat as [|[|m]] eqn:Em; [| |lia].
      - apply Nat.eq_mul_0 in Em as [->| ->]; unfold total; [reflexivity|]. apply (bsum_zero' RT). intros. reflexivity.
      - apply Nat.eq_mul_1 in Em as [-> ->]. unfold total, channel_mean. simpl. field. }
    rewrite T. unfold Rdiv. ring.
  - assert (0 < INR (S n)) by (apply lt_0_INR; lia). split; auto. destruct P as [P|P]. apply Rdiv_lt_0_compat; auto. rewrite <- P in N. elim N. unfold Rdiv. ring.
Qed.

(** The dataset. *)
Section Data.
Variables (gl : nat -> rule) (dt : R) (nsteps nlat nlon : nat) (g : grid) (ic : ictype) (num : nat) (normalize : bool) (noise0 : tensor C) (d : pdeset).
Hypothesis E : pdeset_init gl dt nsteps nlat nlon g ic num normalize noise0 = Some d.
Notation s := (e_solver d).

Lemma pdeset_inv : (1 <= nsteps)%nat /\ e_nsteps d = nsteps /\ e_ic d = ic /\ e_num d = num /\
  swe_init gl nlat nlon (dt / INR nsteps) (Some ((nlat + 2) / 3)%nat) (Some ((nlat + 2) / 3)%nat) g (IZR 6371220) (7292 / IZR 100000000) (IZR 980616 / IZR 100000) (IZR 10000) 120 = Some s /\
  (if normalize then exists u a, initial s ic noise0 = Some u /\ spec2grid s u = Some a /\ e_norm d = Some (channel_mean nlat nlon a, channel_var nlat nlon a)
   else e_norm d = None).
Proof.
  unfold pdeset_init in E. destruct (1 <=? nsteps)%nat eqn:N; [|discriminate]. apply Nat.leb_le in N. cbn [guard bindo] in E. cbv zeta in E.
  destruct (swe_init _ _ _ _ _ _ _ _ _ _ _ _) as [s'|] eqn:Es; [|discriminate]. cbn [bindo] in E. destruct normalize.
  - destruct (initial s' ic noise0) as [u|] eqn:Eu; [|discriminate]. cbn [bindo] in E. destruct (spec2grid s' u) as [a|] eqn:Ea; [|discriminate]. cbn [bindo] in E.
    injection E as <-. cbn. repeat split; auto. exists u, a. auto.
  - injection E as <-. cbn. repeat split; auto.
Qed.
Lemma pdeset_dt : INR nsteps * w_dt s = dt.
Proof.
  destruct pdeset_inv as (N & _ & _ & _ & Es & _). destruct (swe_init_inv _ _ _ _ _ _ _ _ _ _ _ _ _ Es) as (q & _ & _ & _ & Ed & _). rewrite Ed. field. apply not_0_INR. lia.
Qed.
Lemma pdeset_size : (1 <= nlat)%nat -> w_lmax s = ((nlat + 2) / 3)%nat /\ w_mmax s = w_lmax s.
Proof.
  intros Hn. destruct pdeset_inv as (_ & _ & _ & _ & Es & _). destruct (sizes _ _ _ _ _ _ _ _ _ _ _ _ _ Es) as (LM & T). unfold truncate_sht in T.
  assert (1 <= (nlat + 2) / 3)%nat by (apply Nat.div_le_lower_bound; lia). destruct ((nlat + 2) / 3)%nat as [|k]; [lia|]. cbn [or_default] in T. rewrite Nat.min_id in T. split; congruence.
Qed.
Lemma standardise_units : forall mean var x y h w, standardise mean var x = Some y -> (forall c, (c < 3)%nat -> var c <> 0 -> 0 < var c) ->
  (forall c, (c < 3)%nat -> 0 < sqrt (var c)) /\ in_units mean (fun c => sqrt (var c)) (fun c k j => val x [c; k; j]) (fun c k j => val y [c; k; j]) h w.
Proof.
  intros mean var x y h w Ey P. unfold standardise in Ey. destruct (Req_EM_T _ 0) as [|N]; [discriminate|]. injection Ey as <-.
  assert (V : forall c, (c < 3)%nat -> var c <> 0). { intros c Hc Z. apply N. destruct c as [|[|[|c]]]; try lia; rewrite Z; ring. }
  assert (Q : forall c, (c < 3)%nat -> 0 < sqrt (var c)). { intros c Hc. apply sqrt_lt_R0. auto. }
  split; auto. intros c k j Hc _ _. cbn [val nth]. specialize (Q c Hc). field. lra.
Qed.
Lemma item_units : exists mean sd, (normalize = false -> forall c, mean c = 0 /\ sd c = 1) /\ forall ic' noise a b, pdeset_item (set_ic ic' d) noise = Some (a, b) ->
  (forall c, (c < 3)%nat -> 0 < sd c) /\ exists u v f0 f1, initial s ic' noise = Some u /\ timestep s u nsteps = Some v /\ spec2grid s u = Some f0 /\ spec2grid s v = Some f1 /\
  in_units mean sd (fun c k j => val f0 [c; k; j]) (fun c k j => val a [c; k; j]) nlat nlon /\
  in_units mean sd (fun c k j => val f1 [c; k; j]) (fun c k j => val b [c; k; j]) nlat nlon.
Proof.
  destruct pdeset_inv as (N & En & Ei & _ & Es & K). destruct normalize.
  - destruct K as (u0 & a0 & Eu0 & Ea0 & Enorm). exists (channel_mean nlat nlon a0), (fun c => sqrt (channel_var nlat nlon a0 c)). split; [discriminate|].
    intros ic' noise a b Ep. unfold pdeset_item, get_sample in Ep. cbn [set_ic e_solver e_nsteps e_ic e_norm] in Ep. rewrite En, Enorm in Ep.
    destruct (initial s ic' noise) as [u|] eqn:Eu; [|discriminate]. cbn [bindo] in Ep. destruct (timestep s u nsteps) as [v|] eqn:Ev; [|discriminate]. cbn [bindo] in Ep.
    destruct (spec2grid s u) as [f0|] eqn:E0; [|discriminate]. cbn [bindo] in Ep. destruct (spec2grid s v) as [f1|] eqn:E1; [|discriminate]. cbn [bindo fst snd] in Ep.
    destruct (standardise _ _ f0) as [a'|] eqn:Sa; [|discriminate]. cbn [bindo] in Ep. destruct (standardise _ _ f1) as [b'|] eqn:Sb; [|discriminate]. cbn [bindo] in Ep. injection Ep as <- <-.
    destruct (standardise_units _ _ _ _ nlat nlon Sa) as [P U]. { intros c _ Nz. exact (proj1 (var_sign _ _ _ _ Nz)). }
    destruct (standardise_units _ _ _ _ nlat nlon Sb) as [_ U']. { intros c _ Nz. exact (proj1 (var_sign _ _ _ _ Nz)). }
    split; auto. exists u, v, f0, f1. auto 10.
  - exists (fun _ => 0), (fun _ => 1). split; [auto|]. intros ic' noise a b Ep. unfold pdeset_item, get_sample in Ep. cbn [set_ic e_solver e_nsteps e_ic e_norm] in Ep. rewrite En, K in Ep.
    destruct (initial s ic' noise) as [u|] eqn:Eu; [|discriminate]. cbn [bindo] in Ep. destruct (timestep s u nsteps) as [v|] eqn:Ev; [|discriminate]. cbn [bindo] in Ep.
    destruct (spec2grid s u) as [f0|] eqn:E0; [|discriminate]. cbn [bindo] in Ep. destruct (spec2grid s v) as [f1|] eqn:E1; [|discriminate]. cbn [bindo fst snd] in Ep. injection Ep as <- <-.
    split. intros; lra. exists u, v, f0, f1. repeat split; auto; intros c k j _ _ _; ring.
Qed.
Lemma item_standardised : forall a b, normalize = true -> pdeset_item d noise0 = Some (a, b) -> forall c, (c < 3)%nat -> standardised nlat nlon (fun k j => val a [c; k; j]).
Proof.
  intros a b Hno Ep c Hc. destruct pdeset_inv as (N & En & Ei & _ & Es & K). rewrite Hno in K. destruct K as (u0 & a0 & Eu0 & Ea0 & Enorm).
  unfold pdeset_item, get_sample in Ep. rewrite Ei, Eu0, Enorm in Ep. cbn [bindo] in Ep. destruct (timestep s u0 (e_nsteps d)) as [v|]; [|discriminate]. cbn [bindo] in Ep. rewrite Ea0 in Ep. cbn [bindo] in Ep.
  destruct (spec2grid s v) as [f1|]; [|discriminate]. cbn [bindo fst snd] in Ep. destruct (standardise _ _ a0) as [a'|] eqn:Sa; [|discriminate]. cbn [bindo] in Ep.
  destruct (standardise _ _ f1) as [b'|]; [|discriminate]. cbn [bindo] in Ep. injection Ep as <- <-. unfold standardise in Sa. destruct (Req_EM_T _ 0) as [|Nz]; [discriminate|]. injection Sa as <-.
  assert (V : channel_var nlat nlon a0 c <> 0). { intros Z. apply Nz. destruct c as [|[|[|c]]]; try lia; rewrite Z; ring. }
  destruct (var_sign _ _ _ _ V) as [P Pn]. assert (Q := sqrt_lt_R0 _ P). assert (Pp : 0 < INR (nlat * nlon)) by (apply lt_0_INR; destruct (nlat * nlon)%nat; simpl in Pn; [lra|lia]).
  cbn [val nth]. split.
  - rewrite (total_ext _ _ _ (fun k j => / sqrt (channel_var nlat nlon a0 c) * (val a0 [c; k; j] - channel_mean nlat nlon a0 c))) by (intros; unfold Rdiv; ring).
    rewrite total_scal, total_minus. unfold channel_mean. fold (total nlat nlon (fun k j => val a0 [c; k; j])). field. split; lra.
  - rewrite (total_ext _ _ _ (fun k j => / channel_var nlat nlon a0 c * (val a0 [c; k; j] - channel_mean nlat nlon a0 c) ^ 2)).
    2:{ intros. rewrite <- (sqrt_sqrt (channel_var nlat nlon a0 c)) at 2 by lra. field. lra. }
    rewrite total_scal. unfold channel_var at 1. fold (total nlat nlon (fun k j => (val a0 [c; k; j] - channel_mean nlat nlon a0 c) ^ 2)).
    set (t := total _ _ _). assert (T : t <> 0). { intros Z. apply V. unfold channel_var. fold (total nlat nlon (fun k j => (val a0 [c; k; j] - channel_mean nlat nlon a0 c) ^ 2)). fold t. rewrite Z. unfold Rdiv. ring. }
    field. split; lra.
Qed.

(** Samples exist on four latitudes or more. *)
Lemma sample_total : forall ic' noise, (4 <= nlat)%nat -> (1 <= nlon)%nat -> ic' <> ICOther ->
  exists a b, get_sample s nsteps ic' noise = Some (a, b) /\ shp a = [3%nat; nlat; nlon] /\ shp b = [3%nat; nlat; nlon].
Proof.
  intros ic' noise Hn Hw Hi. destruct pdeset_inv as (_ & _ & _ & _ & Es & _). destruct (pdeset_size ltac:(lia)) as [HL HM].
  assert (HL2 : (2 <= w_lmax s)%nat). { rewrite HL. apply Nat.div_le_lower_bound; lia. }
  destruct (swe_init_inv _ _ _ _ _ _ _ _ _ _ _ _ _ Es) as (q & B & Ea & Eb & _). assert (Hw' : (1 <= w_nlon s)%nat) by congruence.
  assert (I : exists u, initial s ic' noise = Some u /\ shp u = [3%nat; w_lmax s; w_mmax s]).
  { destruct ic'; [| |congruence]. eexists. split; reflexivity. destruct (galewsky_value s gl g _ _ q B Hw' ltac:(lia)) as (u & Eu & Su & _). exists u. auto. }
  destruct I as (u & Eu & Su). destruct (trajectory _ _ _ _ _ _ _ _ _ _ _ _ _ Es Hw u HL2 Su) as (U & D & U0 & T). destruct (T nsteps) as (T1 & T2 & _).
  destruct (spec2grid_value s gl g _ _ q B Hw' 3 u Su) as (a & E0 & S0 & _). destruct (spec2grid_value s gl g _ _ q B Hw' 3 (U nsteps) T2) as (b & E1 & S1 & _).
  exists a, b. unfold get_sample. rewrite Eu. cbn [bindo]. rewrite T1. cbn [bindo]. rewrite E0, E1. cbn [bindo]. rewrite Ea, Eb in *. auto.
Qed.
Lemma small_none : forall ic' noise, (1 <= nlat <= 3)%nat -> pdeset_item (set_ic ic' d) noise = None.
Proof.
  intros ic' noise Hn. destruct pdeset_inv as (N & En & _ & _ & Es & _). destruct (pdeset_size ltac:(lia)) as [HL HM].
  assert (H1 : w_lmax s = 1%nat). { rewrite HL. destruct nlat as [|[|[|[|]]]]; try lia; reflexivity. }
  unfold pdeset_item, get_sample. cbn [set_ic e_solver e_nsteps e_ic e_norm]. rewrite En. destruct (initial s ic' noise) as [u|]; [|reflexivity]. cbn [bindo].
  destruct nsteps as [|n]; [lia|]. now rewrite (one_degree _ _ _ _ _ _ _ _ _ _ _ _ _ u n Es H1).
Qed.
(** The divergence of the jet is zero, so its variance is. *)
Lemma galewsky_none : forall noise, (1 <= nlat)%nat -> (1 <= nlon)%nat -> ic = ICGalewsky -> normalize = true -> pdeset_item d noise = None.
Proof.
  intros noise Hn Hw Hi Hno. destruct pdeset_inv as (N & En & Ei & _ & Es & K). rewrite Hno in K. destruct K as (u0 & a0 & Eu0 & Ea0 & Enorm). rewrite Hi in Eu0. destruct (pdeset_size Hn) as [HL HM].
  assert (HL1 : (1 <= w_lmax s)%nat). { rewrite HL. apply Nat.div_le_lower_bound; lia. }
  destruct (swe_init_inv _ _ _ _ _ _ _ _ _ _ _ _ _ Es) as (q & B & Ea & Eb & _). assert (Hw' : (1 <= w_nlon s)%nat) by congruence.
  destruct (galewsky_value s gl g _ _ q B Hw' HL1) as (u & Eu & Su & D & _). cbn [initial] in Eu0. assert (u0 = u) by congruence. subst u0.
  destruct (spec2grid_value s gl g _ _ q B Hw' 3 u Su) as (a & E0 & S0 & V0). assert (a0 = a) by congruence. subst a0.
  assert (Z : forall k j, val a [2%nat; k; j] = 0).
  { intros k j. rewrite V0. apply synth_zero. intros m Hm. apply (bsum_zero' CT). intros l Hl. rewrite D by auto. ring. }
  assert (V : channel_var nlat nlon a 2 = 0).
  { unfold channel_var, channel_mean. rewrite (bsum_zero' RT nlat). unfold Rdiv. ring. intros k _. apply (bsum_zero' RT). intros j _. rewrite Z.
    rewrite (bsum_zero' RT nlat). unfold Rdiv. simpl. ring. intros k' _. apply (bsum_zero' RT). intros. apply Z. }
  unfold pdeset_item. destruct (get_sample _ _ _ _) as [[x y]|]; [|reflexivity]. cbn [bindo]. rewrite Enorm. cbn [fst snd]. unfold standardise at 1. rewrite V, Rmult_0_r.
  destruct (Req_EM_T 0 0); [reflexivity|congruence].
Qed.
End Data.
