From Coq Require Import List Arith Lia Bool Reals ZArith Lra.
From Coquelicot Require Import Coquelicot.
From Verif Require Import TensorModel TensorProofs BigSum FFTModel TruncModel LegendreModel QuadModel SHTModel SHTSpec SHTRoundSpec SHTValueProofs VSHTValueProofs SHTRoundProofs VRoundProofs
  LossModel LossProofs SHTMeanProofs SolverModel SolverSpec SolverProofs SolverProofs2 SolverProofs3 SolverProofs4 PdeDataModel.
Import ListNotations.
Local Open Scope R_scope.

Lemma cscale_0 : forall a, cscale a (RtoC 0) = RtoC 0.
Proof. intros. unfold cscale. ring. Qed.
Lemma cscale_zero : forall z, cscale 0 z = RtoC 0.
Proof. intros. unfold cscale. ring. Qed.
Lemma tril3 : forall L M (f : list nat -> C) c l m, val (tril (mkT [3%nat; L; M] f)) [c; l; m] = if (m <=? l)%nat then f [c; l; m] else RtoC 0.
Proof. reflexivity. Qed.

Section Built.
Variable s : swe.
Variable gl : nat -> rule.
Variable g : grid.
Variable lmax mmax : option nat.
Variable q : rule.
Hypothesis B : built s gl g lmax mmax q.
Hypothesis Hw : (1 <= w_nlon s)%nat.
Notation L := (w_lmax s).
Notation M := (w_mmax s).
Notation h := (w_nlat s).
Notation w := (w_nlon s).

(** The vorticity and the divergence of a velocity field have no coefficient of degree 0. *)
Lemma velocity_mean : forall v f c m, shp v = [2%nat; h; w] -> vrtdivspec s v = Some f -> (1 <= L)%nat -> (c < 2)%nat -> (m < M)%nat -> val f [c; 0; m]%nat = RtoC 0.
Proof.
  intros v f c m Sv Ef HL Hc Hm. destruct (vrtdiv_value s gl g lmax mmax q B v Sv) as (f' & E & S & V). assert (f' = f) by congruence. subst f'.
  rewrite V by (auto; lia). rewrite lapl_0, Rmult_0_l. apply cscale_zero.
Qed.

(** A purely zonal wind that depends on the latitude only. *)
Lemma zonal_wind : forall v f, shp v = [2%nat; h; w] -> (forall k j, (k < h)%nat -> (j < w)%nat -> val v [0; k; j]%nat = val v [0; k; 0]%nat /\ val v [1; k; j]%nat = 0) ->
  vrtdivspec s v = Some f -> (forall l m, (l < L)%nat -> (m < M)%nat -> val f [1; l; m]%nat = RtoC 0) /\ (forall l m, (l < L)%nat -> (1 <= m < M)%nat -> val f [0; l; m]%nat = RtoC 0).
Proof.
  intros v f Sv Z Ef. destruct (vrtdiv_value s gl g lmax mmax q B v Sv) as (f' & E & S & V). assert (f' = f) by congruence. subst f'.
  split; intros l m Hl Hm; rewrite V by (auto; lia); idtac.
  - assert (A : vanalyse (WV s q) h w (fun d k j => val v [d; k; j]) 1 l m = RtoC 0).
    { apply (bsum_zero' CT). intros k Hk. rewrite (fourier_zero w (fun j => val v [1%nat; k; j])) by (intros; now apply Z). unfold vcomb. cbn [Nat.eqb].
      destruct m as [|m].
      - unfold WV. rewrite w1_zero' by auto. ring.
      - rewrite (fourier_eq_const w (fun j => val v [0%nat; k; j]) (val v [0; k; 0]%nat)) by (auto; try lia; intros; now apply Z). ring. }
    rewrite A. apply cscale_0.
  - assert (A : vanalyse (WV s q) h w (fun d k j => val v [d; k; j]) 0 l m = RtoC 0).
    { apply (bsum_zero' CT). intros k Hk. rewrite (fourier_zero w (fun j => val v [1%nat; k; j])) by (intros; now apply Z).
      rewrite (fourier_eq_const w (fun j => val v [0%nat; k; j]) (val v [0; k; 0]%nat)) by (auto; try lia; intros; now apply Z). unfold vcomb. cbn [Nat.eqb]. ring. }
    rewrite A. apply cscale_0.
Qed.

Lemma galewsky_value : (1 <= L)%nat -> exists u, galewsky_ic s = Some u /\ shp u = [3%nat; L; M] /\
  (forall l m, (l < L)%nat -> (m < M)%nat -> val u [2%nat; l; m] = RtoC 0) /\
  (forall l m, (l < L)%nat -> (1 <= m < M)%nat -> val u [1%nat; l; m] = RtoC 0) /\
  (forall m, (m < M)%nat -> val u [1; 0; m]%nat = RtoC 0) /\
  (w_hamp s = 0 -> forall l m, (l < L)%nat -> (1 <= m < M)%nat -> val u [0%nat; l; m] = RtoC 0).
Proof.
  intros HL. unfold galewsky_ic. cbv zeta.
  assert (Sj : shp (jet_grid s) = [2%nat; h; w]) by reflexivity.
  destruct (vrtdiv_value s gl g lmax mmax q B (jet_grid s) Sj) as (vd & Evd & Svd & Vvd). rewrite Evd. cbn [bindo].
  assert (Zj : forall k j, (k < h)%nat -> (j < w)%nat -> val (jet_grid s) [0; k; j]%nat = val (jet_grid s) [0; k; 0]%nat /\ val (jet_grid s) [1; k; j]%nat = 0).
  { intros. split; reflexivity. }
  destruct (zonal_wind _ _ Sj Zj Evd) as [Dv Zv].
  destruct (spec2grid_value s gl g lmax mmax q B Hw 2 vd Svd) as (vg & Evg & Svg & Vvg). rewrite Evg. cbn [bindo].
  assert (Sc : shp (w_coriolis s) = [h; 1%nat]) by now rewrite (b_cor _ _ _ _ _ _ B).
  destruct (bmap2_colfield _ _ _ Rplus vg (w_coriolis s) 2 h w Svg Sc) as (f & Ef & Sf & Vf). rewrite Ef. cbn [bindo].
  assert (St : shp (map2_t Rmult (jet_grid s) f) = [2%nat; h; w]) by reflexivity.
  destruct (vrtdiv_value s gl g lmax mmax q B _ St) as (ts & Ets & Sts & Vts). rewrite Ets. cbn [bindo].
  set (kg := map2_t _ (select0 0 (jet_grid s)) (select0 1 (jet_grid s))).
  assert (Sk : shp kg = [h; w]) by reflexivity.
  destruct (grid2spec_value s gl g lmax mmax q B kg Sk) as (ke & Eke & Ske & Vke). rewrite Eke. cbn [bindo].
  assert (Si : shp (w_invlap s) = [L; M]) by now rewrite (b_inv _ _ _ _ _ _ B).
  assert (Sts0 : shp (select0 0 ts) = [L; M]) by (unfold select0; cbn [shp]; now rewrite Sts).
  destruct (bmap2_plain _ _ _ cscale (w_invlap s) (select0 0 ts) L M Si Sts0) as (a & Ea & Sa & Va). rewrite Ea. cbn [bindo].
  assert (Sh : shp (height_grid s) = [h; w]) by reflexivity.
  destruct (grid2spec_value s gl g lmax mmax q B (height_grid s) Sh) as (b & Eb & Sb & Vb). rewrite Eb. cbn [bindo].
  eexists. split; [reflexivity|]. split; [reflexivity|]. split; [|split; [|split]].
  - intros l m Hl Hm. rewrite tril3. cbn [nth tl]. rewrite Dv by auto. now destruct (m <=? l)%nat.
  - intros l m Hl Hm. rewrite tril3. cbn [nth tl]. rewrite Zv by auto. now destruct (m <=? l)%nat.
  - intros m Hm. rewrite tril3. cbn [nth tl]. rewrite (velocity_mean _ _ 0 m Sj Evd) by (auto; lia). now destruct (m <=? 0)%nat.
  - intros H0 l m Hl Hm. rewrite tril3. cbn [nth tl]. destruct (m <=? l)%nat; [|reflexivity].
    rewrite Va, Vke, Vb by (auto; lia). unfold select0. cbn [val].
    assert (Zt : forall k j, (k < h)%nat -> (j < w)%nat -> val (map2_t Rmult (jet_grid s) f) [0; k; j]%nat = val (map2_t Rmult (jet_grid s) f) [0; k; 0]%nat /\
      val (map2_t Rmult (jet_grid s) f) [1; k; j]%nat = 0).
    { intros k j Hk Hj. cbn [map2_t val]. rewrite !Vf by (auto; lia). split.
      - f_equal. f_equal. rewrite !Vvg. apply synth_zonal. intros m' Hm'. apply (bsum_zero' CT). intros l' Hl'. rewrite Zv by auto. ring.
      - cbn. ring. }
    destruct (zonal_wind _ _ St Zt Ets) as [_ Zts]. rewrite Zts by auto. rewrite cscale_0.
    rewrite (analyse_zonal h w (WS s q) (fun k j => val kg [k; j])) by (auto; try lia; intros; reflexivity).
    rewrite (analyse_zonal h w (WS s q) (fun k j => val (height_grid s) [k; j])) by (auto; try lia; intros; cbn [height_grid val nth]; unfold bump; rewrite H0; ring).
    ring.
Qed.
End Built.
