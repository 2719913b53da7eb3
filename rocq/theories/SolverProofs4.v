(** The reaction-diffusion solver, the integration formulas, and the witnesses. *)
From Coq Require Import List Arith Lia Bool Reals ZArith Lra.
From Coquelicot Require Import Coquelicot.
From Verif Require Import TensorModel TensorProofs BigSum FFTModel FFTProofs TruncModel LegendreModel LegSpec LegTableProofs QuadModel QuadSpec QuadProofs QuadPropProofs SHTModel SHTSpec SHTRoundSpec SHTValueProofs VSHTValueProofs SHTRoundProofs SHTBandProofs VRoundProofs SHTMeanProofs
  LossModel LossProofs SolverModel SolverSpec SolverProofs SolverProofs2 SolverProofs3.
Import ListNotations.
Local Open Scope R_scope.

(** ** pde_sphere.py *)
Record pbuilt (s : pde) (gl : nat -> rule) (g : grid) (lmax mmax : option nat) (q : rule) : Prop := mkPB {
  pb_rule : sht_rule gl (p_nlat s) g = Some q;
  pb_trunc : truncate_sht (p_nlat s) (p_nlon s) lmax mmax g = Some (p_lmax s, p_mmax s);
  pb_sht : p_sht s = mkSHT (p_nlat s) (p_nlon s) (p_lmax s) (p_mmax s) (real_sht_weights (p_nlat s) (p_lmax s) (p_mmax s) q Ortho false);
  pb_isht : p_isht s = mkSHT (p_nlat s) (p_nlon s) (p_lmax s) (p_mmax s) (inverse_sht_pct (p_nlat s) (p_lmax s) (p_mmax s) q Ortho false);
  pb_lap : p_lap s = laplacian (p_lmax s) (p_mmax s) (p_radius s);
  pb_inv : p_invlap s = inverse_laplacian (p_lmax s) (p_mmax s) (p_radius s);
  pb_radius : p_radius s <> 0 }.
Lemma pde_init_inv : forall gl nlat nlon lmax mmax g radius coeff s, pde_init gl nlat nlon lmax mmax g radius coeff = Some s ->
  exists q, pbuilt s gl g lmax mmax q /\ p_nlat s = nlat /\ p_nlon s = nlon /\ p_radius s = radius /\ p_coeff s = coeff.
Proof.
  intros gl nlat nlon lmax mmax g radius coeff s E. unfold pde_init in E.
  destruct (real_sht_init gl nlat nlon lmax mmax g Ortho false) as [a|] eqn:Ea; [|discriminate]. cbn [bindo] in E.
  destruct (inverse_sht_init gl nlat nlon lmax mmax g Ortho false) as [b|] eqn:Eb; [|discriminate]. cbn [bindo] in E. destruct (Req_EM_T radius 0) as [|NR]; [discriminate|].
  destruct (real_sht_init_eq _ _ _ _ _ _ _ _ _ Ea) as (q1 & L & M & Q1 & T1 & Ha). destruct (inverse_sht_init_eq _ _ _ _ _ _ _ _ _ Eb) as (q2 & L2 & M2 & Q2 & T2 & Hb).
  assert (q2 = q1) by congruence. subst q2. rewrite T1 in T2. injection T2 as <- <-. injection E as <-. exists q1. subst a b. cbn. repeat split; auto.
Qed.

Section Pde.
Variable s : pde.
Variable gl : nat -> rule.
Variable g : grid.
Variable lmax mmax : option nat.
Variable q : rule.
Hypothesis B : pbuilt s gl g lmax mmax q.
Hypothesis Hw : (1 <= p_nlon s)%nat.
Notation L := (p_lmax s).
Notation M := (p_mmax s).
Notation h := (p_nlat s).
Notation w := (p_nlon s).
Notation r := (p_radius s).
Notation WSp := (real_sht_weights h L M q Ortho false).
Notation WIp := (inverse_sht_pct h L M q Ortho false).
Definition pfield (u : nat -> nat -> C) (k j : nat) : R := synthesise WIp L M w u k j.
Definition pcube (u : nat -> nat -> C) (l m : nat) : C := analyse WSp h w (fun k j => pfield u k j ^ 3) l m.
Definition ptend (ty : pde_type) (u : nat -> nat -> C) (l m : nat) : C :=
  match ty with
  | AllenCahn => Cminus (Cplus (cscale (p_coeff s * lapl r l) (u l m)) (u l m)) (pcube u l m)
  | _ => Cminus (Cplus (u l m) (Cmult (Cmult (Cmult (1, 2) (RtoC (p_coeff s))) (RtoC (lapl r l))) (u l m))) (Cmult (1, 2) (pcube u l m))
  end.
Definition pcoef (u : tensor C) (l m : nat) : C := val u [l; m].
Lemma pde_value : forall ty u, ty <> PdeOther -> shp u = [L; M] -> exists D, pde_dudt s ty u = Some D /\ shp D = [L; M] /\
  forall l m, (l < L)%nat -> (m < M)%nat -> val D [l; m] = ptend ty (pcoef u) l m.
Proof.
  intros ty u N Su. unfold pde_dudt. rewrite (pb_isht _ _ _ _ _ _ B), (pb_sht _ _ _ _ _ _ B), (pb_lap _ _ _ _ _ _ B).
  destruct (inverse_sht_value (mkSHT h w L M WIp) [] u Hw eq_refl Su) as (f & Ef & Sf & Vf).
  destruct (real_sht_value (mkSHT h w L M WSp) [] (map_t (fun v => v ^ 3) f) eq_refl Sf) as (c3 & Ec & Sc & Vc).
  assert (V3 : forall l m, (m < M)%nat -> val c3 [l; m] = pcube (pcoef u) l m).
  { intros l m Hm. pose proof (Vc [] l m eq_refl Hm) as V. cbn [app] in V. rewrite V. apply analyse_ext. intros k j Hk Hj. cbn [map_t val app]. f_equal. exact (Vf [] k j eq_refl). }
  destruct ty; try congruence; rewrite Ef; cbn [bindo]; rewrite Ec; cbn [bindo].
  - destruct (bmap2_plain _ _ _ cscale (map_t (fun v => p_coeff s * v) (laplacian L M r)) u L M eq_refl Su) as (lu & El & Sl & Vl). rewrite El. cbn [bindo].
    eexists. split. reflexivity. split. exact Sl. intros l m Hl Hm. cbn [map2_t val]. rewrite V3 by auto. rewrite Vl by auto. reflexivity.
  - destruct (bmap2_plain _ _ _ Cmult (map_t (fun v => Cmult (Cmult (1, 2) (RtoC (p_coeff s))) (RtoC v)) (laplacian L M r)) u L M eq_refl Su) as (lu & El & Sl & Vl). rewrite El. cbn [bindo].
    eexists. split. reflexivity. split. exact Su. intros l m Hl Hm. cbn [map2_t map_t val]. rewrite V3 by auto. rewrite Vl by auto. reflexivity.
Qed.
Lemma pfield_ext : forall u v k j, (forall l m, (l < L)%nat -> (m < M)%nat -> u l m = v l m) -> pfield u k j = pfield v k j.
Proof. intros. now apply synthesise_ext. Qed.
Lemma pcube_ext : forall u v l m, (forall l m, (l < L)%nat -> (m < M)%nat -> u l m = v l m) -> pcube u l m = pcube v l m.
Proof. intros. apply analyse_ext. intros. now rewrite (pfield_ext u v). Qed.
Lemma ptend_ext : forall ty u v l m, (forall l m, (l < L)%nat -> (m < M)%nat -> u l m = v l m) -> (l < L)%nat -> (m < M)%nat -> ptend ty u l m = ptend ty v l m.
Proof. intros ty u v l m H Hl Hm. unfold ptend. rewrite (pcube_ext u v), !H by auto. reflexivity. Qed.
Lemma m1 : RtoC (-1) = Copp (RtoC 1).
Proof. now rewrite <- RtoC_opp. Qed.
(** rotation and sign change *)
Lemma ptend_turn : forall ty sh u l m, ptend ty (fun l m => Cmult (phase w sh m) (u l m)) l m = Cmult (phase w sh m) (ptend ty u l m).
Proof.
  intros. unfold ptend. assert (E : pcube (fun l m => Cmult (phase w sh m) (u l m)) l m = Cmult (phase w sh m) (pcube u l m)).
  { unfold pcube. rewrite <- analyse_roll by auto. apply analyse_ext. intros. unfold pfield. rewrite synthesise_phase by auto. reflexivity. }
  rewrite E. unfold cscale. destruct ty; ring.
Qed.
Lemma ptend_odd : forall ty u l m, ptend ty (fun l m => Copp (u l m)) l m = Copp (ptend ty u l m).
Proof.
  intros. unfold ptend. assert (E : pcube (fun l m => Copp (u l m)) l m = Copp (pcube u l m)).
  { unfold pcube. transitivity (analyse WSp h w (fun k j => -1 * pfield u k j ^ 3 + 0 * 0) l m).
    - apply analyse_ext. intros. assert (F : pfield (fun l m => Copp (u l m)) k j = - pfield u k j).
      { unfold pfield. transitivity (synthesise WIp L M w (fun l m => Cplus (Cmult (RtoC (-1)) (u l m)) (Cmult (RtoC 0) (RtoC 0))) k j). apply synthesise_ext. intros. rewrite m1. ring.
        rewrite (synthesise_lin _ _ _ _ (-1) 0 u (fun _ _ => RtoC 0)). ring. }
      rewrite F. ring.
    - rewrite (analyse_lin _ _ _ (-1) 0 (fun k j => pfield u k j ^ 3) (fun _ _ => 0)). rewrite m1. ring. }
  rewrite E. unfold cscale. destruct ty; ring.
Qed.
(** spatially constant states *)
Lemma ptend_const : forall ty u a, ty <> PdeOther -> (1 <= L)%nat -> (1 <= M)%nat -> good_rule h q (L - 1) ->
  (forall l m, (l < L)%nat -> (m < M)%nat -> u l m = if ((l =? 0) && (m =? 0))%nat%bool then RtoC (a * sqrt (4 * PI)) else RtoC 0) ->
  forall l m, (l < L)%nat -> (m < M)%nat ->
  ptend ty u l m = if ((l =? 0) && (m =? 0))%nat%bool then match ty with AllenCahn => RtoC ((a - a ^ 3) * sqrt (4 * PI)) | _ => ((a - a ^ 3) * sqrt (4 * PI), - 2 * a ^ 3 * sqrt (4 * PI)) end else RtoC 0.
Proof.
  intros ty u a N HL HM G Hu l m Hl Hm.
  assert (F : forall k j, pfield u k j = a).
  { intros. unfold pfield. rewrite const_field; auto. rewrite Hu by lia. cbn [Nat.eqb andb]. unfold RtoC, Re. cbn [fst]. field. apply Rgt_not_eq, s4.
    intros l' m' Hl' Hm' P. rewrite Hu by auto. destruct l'; destruct m'; cbn [Nat.eqb andb]; auto; lia. }
  assert (Cu : pcube u l m = if ((l =? 0) && (m =? 0))%nat%bool then RtoC (a ^ 3 * sqrt (4 * PI)) else RtoC 0).
  { unfold pcube. rewrite (analyse_ext _ _ _ _ (fun _ _ => a ^ 3)) by (intros; now rewrite F). destruct l; destruct m; cbn [Nat.eqb andb]; try (apply analyse_const; auto; lia). apply analyse_const0; auto. }
  unfold ptend. rewrite Cu, Hu by auto. destruct ((l =? 0) && (m =? 0))%nat%bool eqn:E.
  - apply andb_prop in E as (E & _). apply Nat.eqb_eq in E. subst l. assert (Z : lapl r 0 = 0) by (unfold lapl; cbn [INR]; unfold Rdiv; ring). rewrite Z.
    destruct ty; try congruence; unfold cscale, Cminus, Cplus, Copp, Cmult, RtoC; cbn [fst snd]; f_equal; ring.
  - destruct ty; try congruence; unfold cscale. ring. rewrite !Cmult_0_r. ring.
Qed.
End Pde.

(** ** Statements about whole runs *)
Lemma teq3 : forall X a b c (x y : tensor X), shp x = [a; b; c]%nat -> shp y = [a; b; c]%nat ->
  (forall i j k, (i < a)%nat -> (j < b)%nat -> (k < c)%nat -> val x [i; j; k] = val y [i; j; k]) -> teq x y.
Proof.
  intros X a b c x y Sx Sy H. split. congruence. intros i Hi. rewrite Sx in Hi. pose proof (valid_len _ _ Hi) as LN.
  destruct i as [|i1 [|i2 [|i3 [|]]]]; try discriminate. apply valid_cons in Hi as (H1 & Hi). apply valid_cons in Hi as (H2 & Hi). apply valid_cons in Hi as (H3 & _). auto.
Qed.
Lemma teq3_val : forall X a b c (x y : tensor X), shp x = [a; b; c]%nat -> teq x y -> forall i j k, (i < a)%nat -> (j < b)%nat -> (k < c)%nat -> val x [i; j; k] = val y [i; j; k].
Proof.
  intros X a b c x y Sx (_ & H) i j k Hi Hj Hk. apply H. rewrite Sx. apply valid_cons; split; auto. apply valid_cons; split; auto. apply valid_cons; split; auto. apply valid_nil.
Qed.
Lemma trunc_square : forall nlat nlon lmax mmax g a b, truncate_sht nlat nlon lmax mmax g = Some (a, b) -> a = b.
Proof. intros. unfold truncate_sht in H. destruct (match lmax with Some (S k) => Some (S k) | _ => default_lmax g nlat end); [|discriminate]. injection H as <- <-. reflexivity. Qed.

Section Runs.
Variables (gl : nat -> rule) (nlat nlon : nat) (dt : R) (lmax mmax : option nat) (g : grid) (radius omega gravity havg hamp : R) (s : swe).
Hypothesis E : swe_init gl nlat nlon dt lmax mmax g radius omega gravity havg hamp = Some s.
Hypothesis Hn : (1 <= nlon)%nat.
Notation L := (w_lmax s).
Notation M := (w_mmax s).
Lemma sizes : L = M /\ truncate_sht nlat nlon lmax mmax g = Some (L, M).
Proof. destruct (swe_init_inv _ _ _ _ _ _ _ _ _ _ _ _ _ E) as (q & B & Ea & Eb & _). pose proof (b_trunc _ _ _ _ _ _ B) as T. rewrite Ea, Eb in T. split; auto. eapply trunc_square; eauto. Qed.
Lemma operators : forall l m, val (w_lap s) [l; m] = laplace radius l /\ val (w_lap s) [l; m] * val (w_invlap s) [l; m] = (if (l =? 0)%nat then 0 else 1) /\ val (w_invlap s) [0%nat; m] = 0.
Proof.
  intros l m. destruct (swe_init_inv _ _ _ _ _ _ _ _ _ _ _ _ _ E) as (q & B & _ & _ & _ & Er & _). rewrite (b_lap _ _ _ _ _ _ B), (b_inv _ _ _ _ _ _ B).
  pose proof (b_radius _ _ _ _ _ _ B). rewrite Er in *. split; [exact (laplace_eq radius l)|]. split; [exact (lap_inverse radius l H)|reflexivity].
Qed.
Lemma trajectory : forall u, (2 <= L)%nat -> shp u = [3%nat; L; M] -> exists U D : nat -> tensor C, U 0%nat = u /\
  forall k, timestep s u k = Some (U k) /\ shp (U k) = [3%nat; L; M] /\ dudtspec s (U k) = Some (D k) /\
  forall c l m, (c < 3)%nat -> (l < L)%nat -> (m < M)%nat ->
    val (U (S k)) [c; l; m] = damp dt L c l (Cplus (val (U k) [c; l; m]) (times dt (increment k (fun j => val (D j) [c; l; m])))).
Proof.
  intros u HL Su. destruct (swe_init_inv _ _ _ _ _ _ _ _ _ _ _ _ _ E) as (q & B & Ea & Eb & Ed & _). assert (Hw : (1 <= w_nlon s)%nat) by congruence.
  exists (Uk s u), (Dk s u). split. reflexivity. intros k. destruct (U_step s gl g lmax mmax q B Hw HL u Su k) as (S1 & D1 & V). rewrite <- Ed. repeat split; auto. eapply timestep_value; eauto.
Qed.
Lemma run : forall u n v, (2 <= L)%nat -> shp u = [3%nat; L; M] -> timestep s u n = Some v -> exists q, built s gl g lmax mmax q /\ w_nlat s = nlat /\ w_nlon s = nlon /\ (1 <= w_nlon s)%nat /\ sht_rule gl nlat g = Some q /\ v = Uk s u n.
Proof.
  intros u n v HL Su Ev. destruct (swe_init_inv _ _ _ _ _ _ _ _ _ _ _ _ _ E) as (q & B & Ea & Eb & _). assert (Hw : (1 <= w_nlon s)%nat) by congruence.
  exists q. split; [exact B|]. split; [exact Ea|]. split; [exact Eb|]. split; [exact Hw|]. split. rewrite <- Ea. apply (b_rule _ _ _ _ _ _ B). rewrite (timestep_value s gl g lmax mmax q B Hw HL u Su) in Ev. congruence.
Qed.
Lemma means : forall u n v c m, (2 <= L)%nat -> shp u = [3%nat; L; M] -> timestep s u n = Some v -> (c < 3)%nat -> (m < M)%nat -> val v [c; 0; m]%nat = val u [c; 0; m]%nat.
Proof. intros u n v c m HL Su Ev Hc Hm. destruct (run u n v HL Su Ev) as (q & B & _ & _ & Hw & _ & ->). now apply (mean_coeff s gl g lmax mmax q B Hw HL u Su). Qed.
Lemma totals : forall q u n v dl, sht_rule gl nlat g = Some q -> good_rule nlat q (L - 1) -> (2 <= L)%nat -> shp u = [3%nat; L; M] -> timestep s u n = Some v ->
  exists f y f' y', spec2grid s u = Some f /\ integrate_grid s f dl 0 = Some y /\ spec2grid s v = Some f' /\ integrate_grid s f' dl 0 = Some y' /\ teq y' y.
Proof.
  intros q u n v dl Eq G HL Su Ev. destruct (run u n v HL Su Ev) as (q' & B & Ea & Eb & Hw & Eq' & ->). assert (q' = q) by congruence. subst q'. destruct sizes as (LM & _).
  apply (totals_conserved s gl g lmax mmax q B Hw HL u dl Su). lia. rewrite Ea. exact G.
Qed.
Lemma total_field : forall q u dl, sht_rule gl nlat g = Some q -> good_rule nlat q (L - 1) -> (1 <= L)%nat -> forall n, shp u = [n; L; M] ->
  exists f y, spec2grid s u = Some f /\ integrate_grid s f dl 0 = Some y /\ shp y = [n] /\
  forall c, (c < n)%nat -> val y [c] = (if dl then 1 else radius) ^ 2 * sqrt (4 * PI) * Re (val u [c; 0; 0]%nat).
Proof.
  intros q u dl Eq G HL n Su. destruct (swe_init_inv _ _ _ _ _ _ _ _ _ _ _ _ _ E) as (q' & B & Ea & Eb & _ & Er & _). assert (Hw : (1 <= w_nlon s)%nat) by congruence.
  assert (q' = q). { pose proof (b_rule _ _ _ _ _ _ B). rewrite Ea in H. congruence. } subst q'. destruct sizes as (LM & _).
  destruct (total_value s gl g lmax mmax q B Hw u n dl Su HL ltac:(lia)) as (f & y & Ef & Ey & Sy & Vy). rewrite Ea. exact G. exists f, y. repeat split; auto. intros c Hc. rewrite Vy by auto. rewrite Er. cbn [pow]. destruct dl; ring.
Qed.
Lemma grid_total : forall q x n dl, sht_rule gl nlat g = Some q -> shp x = [n; nlat; nlon] -> exists y, integrate_grid s x dl 0 = Some y /\ shp y = [n] /\
  forall c, (c < n)%nat -> val y [c] = grid_integral (if dl then 1 else radius) nlat nlon (rw q) (fun k j => val x [c; k; j]).
Proof.
  intros q x n dl Eq Sx. destruct (swe_init_inv _ _ _ _ _ _ _ _ _ _ _ _ _ E) as (q' & B & Ea & Eb & _ & Er & _).
  assert (q' = q). { pose proof (b_rule _ _ _ _ _ _ B). rewrite Ea in H. congruence. } subst q'. rewrite <- Ea, <- Eb in *. destruct (integrate_value s gl g lmax mmax q B x n dl Sx) as (y & Ey & Sy & Vy).
  exists y. repeat split; auto. intros c Hc. rewrite Vy by auto. now rewrite Er.
Qed.
Lemma rotation : forall sh u n v, (2 <= L)%nat -> shp u = [3%nat; L; M] -> timestep s u n = Some v ->
  exists v', timestep s (phase_last nlon sh u) n = Some v' /\ teq v' (phase_last nlon sh v).
Proof.
  intros sh u n v HL Su Ev. destruct (run u n v HL Su Ev) as (q & B & Ea & Eb & Hw & Eq & ->). assert (Su' : shp (phase_last nlon sh u) = [3%nat; L; M]) by exact Su.
  exists (Uk s (phase_last nlon sh u) n). split. eapply timestep_value; eauto.
  assert (T := traj_turn s gl g lmax mmax q B Hw sh HL u (phase_last nlon sh u) Su Su').
  assert (Sn : shp (Uk s u n) = [3%nat; L; M]) by apply (U_step s gl g lmax mmax q B Hw HL u Su n).
  apply (teq3 _ 3 L M). apply (U_step s gl g lmax mmax q B Hw HL _ Su' n). exact Sn.
  intros c l m Hc Hl Hm. set (u' := phase_last nlon sh u) in *. unfold phase_last at 1. cbn [val]. unfold ndim. rewrite Sn. cbn [length Nat.sub nth]. rewrite <- Eb. refine (T _ n c l m Hc Hl Hm). unfold u'.
  intros c' l' m' H1 H2 H3. unfold coef, turn, phase_last. cbn [val]. unfold ndim. rewrite Su. cbn [length Nat.sub nth]. now rewrite <- Eb.
Qed.
Lemma zonal_stays : forall u n v, (2 <= L)%nat -> shp u = [3%nat; L; M] -> timestep s u n = Some v ->
  (forall c l m, (c < 3)%nat -> (l < L)%nat -> (1 <= m < M)%nat -> val u [c; l; m] = RtoC 0) -> forall c l m, (c < 3)%nat -> (l < L)%nat -> (1 <= m < M)%nat -> val v [c; l; m] = RtoC 0.
Proof. intros u n v HL Su Ev Z. destruct (run u n v HL Su Ev) as (q & B & Ea & Eb & Hw & Eq & ->). exact (traj_zonal s gl g lmax mmax q B Hw HL u Su Z n). Qed.
Lemma tril_val : forall u c l m, shp u = [3%nat; L; M] -> val (tril u) [c; l; m] = if (m <=? l)%nat then val u [c; l; m] else RtoC 0.
Proof. intros u c l m Su. unfold tril, ndim. cbn [val]. rewrite Su. reflexivity. Qed.
Lemma triangular_stays : forall u n v, (2 <= L)%nat -> shp u = [3%nat; L; M] -> timestep s u n = Some v -> teq (tril u) u -> teq (tril v) v.
Proof.
  intros u n v HL Su Ev Z. destruct (run u n v HL Su Ev) as (q & B & Ea & Eb & Hw & Eq & ->). assert (Sn : shp (Uk s u n) = [3%nat; L; M]) by apply (U_step s gl g lmax mmax q B Hw HL u Su n).
  apply (teq3 _ 3 L M); auto. intros c l m Hc Hl Hm. rewrite tril_val by auto. destruct (Nat.leb_spec m l) as [|H]; auto. symmetry.
  apply (traj_zero s gl g lmax mmax q B Hw HL (fun l m => (l < m)%nat) u Su); auto.
  - intros c' l' m' H1 H2 H3 H4. rewrite <- (teq3_val _ 3 L M (tril u) u Su Z) by auto. rewrite tril_val by auto. now rewrite (proj2 (Nat.leb_gt m' l')).
  - intros. now apply tend_triangular.
Qed.
Lemma rest_stays : forall q u n v, sht_rule gl nlat g = Some q -> good_rule nlat q (L - 1) -> (2 <= L)%nat -> shp u = [3%nat; L; M] -> timestep s u n = Some v ->
  (forall c l m, (c < 3)%nat -> (l < L)%nat -> (m < M)%nat -> (1 <= c + l + m)%nat -> val u [c; l; m] = RtoC 0) -> teq v u.
Proof.
  intros q u n v Eq G HL Su Ev Z. destruct (run u n v HL Su Ev) as (q' & B & Ea & Eb & Hw & Eq' & ->). assert (q' = q) by congruence. subst q'. destruct sizes as (LM & _).
  apply (teq3 _ 3 L M); auto. apply (U_step s gl g lmax mmax q B Hw HL u Su n). intros. apply (traj_rest s gl g lmax mmax q B Hw HL u Su); auto. lia. now rewrite Ea.
Qed.
Lemma zonal_flow_tend : forall u, (1 <= L)%nat -> shp u = [3%nat; L; M] ->
  (forall c l m, (c < 3)%nat -> (l < L)%nat -> (1 <= m < M)%nat -> val u [c; l; m] = RtoC 0) -> (forall l m, (l < L)%nat -> (m < M)%nat -> val u [2%nat; l; m] = RtoC 0) ->
  exists D, dudtspec s u = Some D /\ forall c l m, (c < 2)%nat -> (l < L)%nat -> (m < M)%nat -> val D [c; l; m] = RtoC 0.
Proof.
  intros u HL Su Z D0. destruct (swe_init_inv _ _ _ _ _ _ _ _ _ _ _ _ _ E) as (q & B & Ea & Eb & _). assert (Hw : (1 <= w_nlon s)%nat) by congruence.
  destruct (dudt_value s gl g lmax mmax q B Hw u Su) as (D & ED & SD & VD). exists D. split; auto. intros c l m Hc Hl Hm. rewrite VD by (auto; lia). apply zonal_flow; auto.
Qed.
Lemma winds : forall q v, sht_rule gl nlat g = Some q -> good_rule nlat q (2 * (L - 1)) -> (2 <= L)%nat -> shp v = [2%nat; L; M] ->
  (forall d l m, (d < 2)%nat -> (l < L)%nat -> (m < M)%nat -> (2 * m)%nat = nlon -> val v [d; l; m] = RtoC 0) ->
  exists f z, getuv s v = Some f /\ shp f = [2%nat; nlat; nlon] /\ vrtdivspec s f = Some z /\ teq z (vrepresentable nlon v).
Proof.
  intros q v Eq G HL Sv NY. destruct (swe_init_inv _ _ _ _ _ _ _ _ _ _ _ _ _ E) as (q' & B & Ea & Eb & _). assert (Hw : (1 <= w_nlon s)%nat) by congruence.
  assert (q' = q). { pose proof (b_rule _ _ _ _ _ _ B). rewrite Ea in H. congruence. } subst q'.
  destruct (getuv_value s gl g lmax mmax q B Hw v Sv) as (f0 & Ef0 & Sf0 & _).
  destruct (wind_round s gl g lmax mmax q B Hw HL v Sv) as (f & z & Ef & Ez & Sz & Vz). now rewrite Ea. intros. apply NY; auto. congruence.
  exists f, z. split; auto. split. congruence. split; auto. apply (teq3 _ 2 L M); auto. intros d l m Hd Hl Hm. rewrite Vz by auto. unfold vrepresentable. cbn [val]. unfold ndim. rewrite Sv. cbn [length Nat.sub nth]. now rewrite Eb.
Qed.
Lemma coriolis_lat : forall q lat k, sht_rule gl nlat g = Some q -> precompute_latitudes gl nlat g = Some lat -> symmetric_rule nlat q (-1) 1 -> (forall i, (i < nlat)%nat -> -1 <= rn q i <= 1) -> (k < nlat)%nat ->
  val (w_coriolis s) [k; 0%nat] = 2 * omega * cos (rn lat k).
Proof.
  intros q lat k Eq El Sy Bd Hk. destruct (swe_init_inv _ _ _ _ _ _ _ _ _ _ _ _ _ E) as (q' & B & Ea & Eb & _ & _ & Eo & _).
  assert (q' = q). { pose proof (b_rule _ _ _ _ _ _ B). rewrite Ea in H. congruence. } subst q'.
  assert (Eq2 : quadrature_s2_rule gl nlat g = Some q). { unfold sht_rule in Eq. destruct g; try discriminate; exact Eq. }
  pose proof (lat_value _ _ _ _ _ Eq2 El k) as (EL & _). rewrite (coriolis_value s gl g lmax mmax q B k); rewrite ?Ea; auto. rewrite Eo, EL. unfold sht_colat, flip. reflexivity.
Qed.
End Runs.

(** ** The formulas *)
Lemma ab3_quadratic : forall a b c, let p := fun t => a + b * t + c * t ^ 2 in is_RInt p 2 3 (23 / 12 * p 2 - 16 / 12 * p 1 + 5 / 12 * p 0).
Proof.
  intros a b c p. replace (23 / 12 * p 2 - 16 / 12 * p 1 + 5 / 12 * p 0) with (minus ((fun t => a * t + b * t ^ 2 / 2 + c * t ^ 3 / 3) 3) ((fun t => a * t + b * t ^ 2 / 2 + c * t ^ 3 / 3) 2)).
  - apply (is_RInt_derive (fun t => a * t + b * t ^ 2 / 2 + c * t ^ 3 / 3)).
    + intros x _. unfold p. auto_derive; auto. field.
    + intros x _. unfold p. apply (ex_derive_continuous (fun t => a + b * t + c * t ^ 2)). auto_derive. auto.
  - unfold p, minus, plus, opp. cbn. field.
Qed.
Lemma damping_range : forall dt L l, 0 <= dt -> (2 <= L)%nat -> (l < L)%nat -> exp (- (dt / 7200)) <= damping dt L l <= 1 /\ damping dt L (L - 1) = exp (- (dt / 7200)) /\ damping dt L 0 = 1.
Proof.
  intros dt L l Hd HL Hl. assert (P : 0 < INR (L - 1)) by (apply lt_0_INR; lia). assert (EL : INR L = INR (L - 1) + 1). { rewrite <- S_INR. f_equal. lia. }
  assert (Pl := pos_INR l). assert (Ll : INR l <= INR (L - 1)) by (apply le_INR; lia).
  set (x := INR l * (INR l + 1) / ((INR L - 1) * INR L)). assert (X : 0 <= x <= 1).
  { unfold x. rewrite EL. replace (INR (L - 1) + 1 - 1) with (INR (L - 1)) by ring. split. apply Rmult_le_pos. nra. left. apply Rinv_0_lt_compat. nra. apply (Rmult_le_reg_r (INR (L - 1) * (INR (L - 1) + 1))). nra.
    unfold Rdiv. rewrite Rmult_assoc, Rinv_l by nra. nra. }
  assert (Y : 0 <= x ^ 4 <= 1). { split. apply pow_le; lra. rewrite <- (pow1 4). apply pow_incr. lra. }
  assert (EXP : forall a b, a <= b -> exp a <= exp b). { intros a b [H| ->]. left. now apply exp_increasing. right. auto. }
  split; [split|split].
  - unfold damping. fold x. apply EXP. nra.
  - unfold damping. fold x. rewrite <- exp_0. apply EXP. nra.
  - unfold damping. f_equal. replace (INR (L - 1) * (INR (L - 1) + 1) / ((INR L - 1) * INR L)) with 1. ring. rewrite EL. field. split; lra.
  - unfold damping. cbn [INR]. replace (0 * (0 + 1) / ((INR L - 1) * INR L)) with 0 by (unfold Rdiv; ring). rewrite pow_ne_zero by lia. rewrite Rmult_0_r. apply exp_0.
Qed.

(** ** Construction *)
Lemma swe_constructs : forall gl nlat nlon dt lmax mmax g radius omega gravity havg hamp,
  (exists s, swe_init gl nlat nlon dt lmax mmax g radius omega gravity havg hamp = Some s) <-> radius <> 0 /\ (exists q, sht_rule gl nlat g = Some q) /\ (exists t, truncate_sht nlat nlon lmax mmax g = Some t).
Proof.
  intros. split.
  - intros (s & E). destruct (swe_init_inv _ _ _ _ _ _ _ _ _ _ _ _ _ E) as (q & B & Ea & Eb & _ & Er & _). split. rewrite <- Er. apply (b_radius _ _ _ _ _ _ B).
    split. exists q. rewrite <- Ea. apply (b_rule _ _ _ _ _ _ B). eexists. rewrite <- Ea, <- Eb. apply (b_trunc _ _ _ _ _ _ B).
  - intros (Hr & (q & Eq) & ((L & M) & Et)). unfold swe_init, real_sht_init, inverse_sht_init, vector_sht_init, inverse_vector_sht_init. rewrite Eq. cbn [bindo]. rewrite Et. cbn [bindo]. destruct (Req_EM_T radius 0); [congruence|]. eauto.
Qed.
Lemma equi_constructs : forall gl nlat nlon dt radius omega gravity havg hamp, (2 <= nlat)%nat -> radius <> 0 ->
  exists s, swe_init gl nlat nlon dt None None GEquiangular radius omega gravity havg hamp = Some s /\ w_lmax s = Nat.min ((nlat + 1) / 2) (nlon / 2 + 1) /\ w_mmax s = w_lmax s.
Proof.
  intros gl nlat nlon dt radius omega gravity havg hamp Hn Hr. destruct (cc_model nlat (-1) 1 Hn) as (q & Eq & _).
  destruct (proj2 (swe_constructs gl nlat nlon dt None None GEquiangular radius omega gravity havg hamp)) as (s & E).
  { split; auto. split. exists q. exact Eq. eexists. reflexivity. }
  exists s. split; auto. destruct (sizes _ _ _ _ _ _ _ _ _ _ _ _ _ E) as (LM & T). split; auto. unfold truncate_sht in T. change (default_lmax GEquiangular nlat) with (Some ((nlat + 1) / 2)%nat) in T. cbn [or_default] in T. unfold default_mmax in T. congruence.
Qed.
Lemma equi_rule : forall gl nlat nlon dt lmax mmax radius omega gravity havg hamp s, swe_init gl nlat nlon dt lmax mmax GEquiangular radius omega gravity havg hamp = Some s ->
  (2 <= nlat)%nat -> TruncSpec.unset lmax -> exists q, sht_rule gl nlat GEquiangular = Some q /\ good_rule nlat q (2 * (w_lmax s - 1)) /\ good_rule nlat q (w_lmax s - 1).
Proof.
  intros gl nlat nlon dt lmax mmax radius omega gravity havg hamp s E Hn U. destruct (cc_model nlat (-1) 1 Hn) as (q & Eq & _). exists q. split; auto. pose proof (cc_good nlat q Hn Eq) as G.
  destruct (sizes _ _ _ _ _ _ _ _ _ _ _ _ _ E) as (LM & T). destruct (TruncProofs.truncate_sht_bounds _ _ _ _ _ _ _ T) as (_ & _ & _ & B). destruct (B U) as (d & D & B').
  change (Some ((nlat + 1) / 2)%nat = Some d) in D. assert (d = (nlat + 1) / 2)%nat by congruence. pose proof (Nat.div_mod (nlat + 1) 2 ltac:(lia)). split; apply good_rule_le with (nlat - 1)%nat; auto; lia.
Qed.
Lemma gauss_rule : forall gl nlat nlon dt lmax mmax radius omega gravity havg hamp s, swe_init gl nlat nlon dt lmax mmax GLegendreGauss radius omega gravity havg hamp = Some s ->
  (1 <= nlat)%nat -> good_rule nlat (gl nlat) (2 * nlat - 1) -> TruncSpec.unset lmax -> exists q, sht_rule gl nlat GLegendreGauss = Some q /\ good_rule nlat q (2 * (w_lmax s - 1)) /\ good_rule nlat q (w_lmax s - 1).
Proof.
  intros gl nlat nlon dt lmax mmax radius omega gravity havg hamp s E Hn G U. destruct (proj1 (swe_constructs gl nlat nlon dt lmax mmax GLegendreGauss radius omega gravity havg hamp)) as (_ & (q & Eq) & _). eauto.
  exists q. split; auto. pose proof (gl_good gl nlat q _ G Eq) as G'. destruct (sizes _ _ _ _ _ _ _ _ _ _ _ _ _ E) as (LM & T). destruct (TruncProofs.truncate_sht_bounds _ _ _ _ _ _ _ T) as (_ & _ & _ & B). destruct (B U) as (d & D & B').
  change (Some nlat = Some d) in D. assert (d = nlat) by congruence. split; apply good_rule_le with (2 * nlat - 1)%nat; auto; lia.
Qed.
Lemma one_degree : forall gl nlat nlon dt lmax mmax g radius omega gravity havg hamp s u n, swe_init gl nlat nlon dt lmax mmax g radius omega gravity havg hamp = Some s ->
  w_lmax s = 1%nat -> timestep s u (S n) = None.
Proof.
  intros gl nlat nlon dt lmax mmax g radius omega gravity havg hamp s u n E H1. destruct (swe_init_inv _ _ _ _ _ _ _ _ _ _ _ _ _ E) as (q & B & _). unfold timestep. cbn [ab_loop]. unfold ab_step at 1. cbn [a_u].
  rewrite (b_hyp _ _ _ _ _ _ B), H1. cbn [hyperdiffusion Nat.eqb bindo]. destruct (dudtspec s u); reflexivity.
Qed.
Lemma cc_symmetric : forall h q, (2 <= h)%nat -> clenshaw_curtiss_weights h (-1) 1 = Some q -> symmetric_rule h q (-1) 1.
Proof. intros h q Hh E. destruct (cc_model h (-1) 1 Hh) as (q' & E' & V). assert (q' = q) by congruence. subst q'. eapply symmetric_of_eq; eauto. now apply rescale_symmetric, cc_rule_symmetric. Qed.
