(** The jet, the bump and the balance equation of the Galewsky initial condition. *)
From Coq Require Import List Arith Lia Bool Reals ZArith Lra.
From Coquelicot Require Import Coquelicot.
From Verif Require Import TensorModel TensorProofs BigSum FFTModel TruncModel LegendreModel QuadModel QuadProofs SHTModel SHTSpec SHTRoundSpec SHTValueProofs
  LossModel LossProofs SHTMeanProofs SolverModel SolverSpec SolverProofs SolverProofs2 SolverProofs3 SolverProofs4 PdeDataModel PdeDataSpec PdeDataProofs.
Import ListNotations.
Local Open Scope R_scope.

Lemma jet_eq : forall lat, jet lat = jet_wind lat.
Proof.
  intros lat. unfold jet, jet_wind, jet_south, jet_north. pose proof PI_RGT_0 as Hp. replace (0.5 * PI - PI / 7) with (PI / 2 - PI / 7) by lra.
  destruct (Rlt_dec (PI / 7) lat) as [H1|H1]; destruct (Rle_dec lat (PI / 7)) as [G1|G1]; try lra.
  destruct (Rlt_dec lat (PI / 2 - PI / 7)) as [H2|H2]; destruct (Rle_dec (PI / 2 - PI / 7) lat) as [G2|G2]; try lra.
  replace (80 / exp (-4 / (PI / 2 - PI / 7 - PI / 7) ^ 2)) with (80 * exp (4 / (PI / 2 - PI / 7 - PI / 7) ^ 2)).
  - rewrite Rmult_assoc, <- exp_plus. f_equal. f_equal. field. repeat split; lra.
  - set (x := exp (-4 / _)). unfold Rdiv at 5. unfold x. rewrite <- exp_Ropp. f_equal. f_equal. field. lra.
Qed.
Lemma exp_mono : forall x y, x <= y -> exp x <= exp y.
Proof. intros x y [H|H]; [left; now apply exp_increasing|subst; lra]. Qed.
Lemma jet_bounds : forall lat, 0 <= jet_wind lat <= 80.
Proof.
  intros lat. unfold jet_wind. destruct (Rle_dec lat jet_south); [lra|]. destruct (Rle_dec jet_north lat); [lra|].
  pose proof (exp_pos (4 / (jet_north - jet_south) ^ 2 - 1 / ((lat - jet_south) * (jet_north - lat)))).
  assert (exp (4 / (jet_north - jet_south) ^ 2 - 1 / ((lat - jet_south) * (jet_north - lat))) <= 1); [|lra].
  eapply Rle_trans; [apply (exp_mono _ 0)|rewrite exp_0; lra]. set (a := lat - jet_south). set (b := jet_north - lat). assert (Ha : 0 < a) by (unfold a; lra). assert (Hb : 0 < b) by (unfold b; lra).
  replace (jet_north - jet_south) with (a + b) by (unfold a, b; ring). assert (P : 0 < a * b) by nra.
  replace (4 / (a + b) ^ 2 - 1 / (a * b)) with (- ((a - b) ^ 2 / ((a + b) ^ 2 * (a * b)))) by (field; lra).
  assert (0 <= (a - b) ^ 2 / ((a + b) ^ 2 * (a * b))); [|lra]. apply Rmult_le_pos; [apply pow2_ge_0|]. apply Rlt_le, Rinv_0_lt_compat. apply Rmult_lt_0_compat; [nra|auto].
Qed.
Lemma jet_peak : jet_wind (PI / 4) = 80.
Proof.
  unfold jet_wind, jet_south, jet_north. pose proof PI_RGT_0. destruct (Rle_dec _ _); [lra|]. destruct (Rle_dec _ _); [lra|].
  replace (4 / (PI / 2 - PI / 7 - PI / 7) ^ 2 - 1 / ((PI / 4 - PI / 7) * (PI / 2 - PI / 7 - PI / 4))) with 0 by (field; lra). rewrite exp_0. ring.
Qed.
Lemma bump_eq : forall hamp lat lon, bump hamp lat lon = bump_height hamp lat lon.
Proof. intros. unfold bump, bump_height. rewrite Rmult_assoc, <- exp_plus. f_equal. f_equal. replace (0.25 * PI) with (PI / 4) by lra. field. Qed.
Lemma bump_bounds : forall hamp lat lon, 0 <= hamp -> - PI / 2 <= lat <= PI / 2 -> 0 <= bump_height hamp lat lon <= hamp.
Proof.
  intros hamp lat lon Hh Hl. unfold bump_height. pose proof (COS_bound lat). assert (0 <= cos lat) by (apply cos_ge_0; lra).
  set (e := exp _). assert (0 < e) by apply exp_pos. assert (e <= 1). { unfold e. eapply Rle_trans; [apply (exp_mono _ 0)|rewrite exp_0; lra]. pose proof (pow2_ge_0 (lon - PI)). pose proof (pow2_ge_0 (PI / 4 - lat)). lra. }
  assert (0 <= hamp * cos lat <= hamp) by nra. nra.
Qed.

Section Balance.
Context (s : swe) (gl : nat -> rule) (g : grid) (lmax mmax : option nat) (q : rule) (B : built s gl g lmax mmax q) (Hw : (1 <= w_nlon s)%nat).
Notation L := (w_lmax s). Notation M := (w_mmax s). Notation h := (w_nlat s). Notation w := (w_nlon s).
Lemma galewsky_balance : exists u v z zg V T K H k e,
  galewsky_ic s = Some u /\
  shp v = [2%nat; h; w] /\ (forall i j, val v [0%nat; i; j] = jet_wind (val (w_lats s) [i]) /\ val v [1%nat; i; j] = 0) /\
  vrtdivspec s v = Some z /\ spec2grid s z = Some zg /\
  shp V = [2%nat; h; w] /\ (forall i j, (i < h)%nat -> (j < w)%nat -> val V [0%nat; i; j] = val v [0%nat; i; j] * (val zg [0%nat; i; j] + val (w_coriolis s) [i; 0%nat]) /\ val V [1%nat; i; j] = 0) /\
  vrtdivspec s V = Some T /\
  shp k = [h; w] /\ (forall i j, val k [i; j] = (val v [0%nat; i; j]) ^ 2 / 2) /\ grid2spec s k = Some K /\
  shp e = [h; w] /\ (forall i j, val e [i; j] = w_gravity s * (w_havg s + bump_height (w_hamp s) (val (w_lats s) [i]) (2 * PI * INR j / INR w))) /\ grid2spec s e = Some H /\
  forall l m, (l < L)%nat -> (m < M)%nat -> (m <= l)%nat ->
    val u [1%nat; l; m] = val z [0%nat; l; m] /\ val u [2%nat; l; m] = val z [1%nat; l; m] /\
    cscale (laplace (w_radius s) l) (Cminus (Cplus (val u [0%nat; l; m]) (val K [l; m])) (val H [l; m])) = (if (l =? 0)%nat then RtoC 0 else val T [0%nat; l; m]) /\
    (l = 0%nat -> Cplus (val u [0%nat; l; m]) (val K [l; m]) = val H [l; m]).
Proof.
  assert (Sj : shp (jet_grid s) = [2%nat; h; w]) by reflexivity.
  destruct (vrtdiv_value s gl g lmax mmax q B (jet_grid s) Sj) as (vd & Evd & Svd & Vvd).
  destruct (spec2grid_value s gl g lmax mmax q B Hw 2 vd Svd) as (vg & Evg & Svg & Vvg).
  assert (Sc : shp (w_coriolis s) = [h; 1%nat]) by now rewrite (b_cor _ _ _ _ _ _ B).
  destruct (bmap2_colfield _ _ _ Rplus vg (w_coriolis s) 2 h w Svg Sc) as (f & Ef & Sf & Vf).
  assert (St : shp (map2_t Rmult (jet_grid s) f) = [2%nat; h; w]) by reflexivity.
  destruct (vrtdiv_value s gl g lmax mmax q B _ St) as (ts & Ets & Sts & Vts).
  set (kg := map2_t (fun a b => 0.5 * (a ^ 2 + b ^ 2)) (select0 0 (jet_grid s)) (select0 1 (jet_grid s))).
  assert (Sk : shp kg = [h; w]) by reflexivity.
  destruct (grid2spec_value s gl g lmax mmax q B kg Sk) as (ke & Eke & Ske & Vke).
  assert (Si : shp (w_invlap s) = [L; M]) by now rewrite (b_inv _ _ _ _ _ _ B).
  assert (Sts0 : shp (select0 0 ts) = [L; M]) by (unfold select0; cbn [shp]; now rewrite Sts).
  destruct (bmap2_plain _ _ _ cscale (w_invlap s) (select0 0 ts) L M Si Sts0) as (a & Ea & Sa & Va).
  assert (Sh : shp (height_grid s) = [h; w]) by reflexivity.
  destruct (grid2spec_value s gl g lmax mmax q B (height_grid s) Sh) as (b & Eb & Sb & Vb).
  eexists. exists (jet_grid s), vd, vg, (map2_t Rmult (jet_grid s) f), ts, ke, b, kg, (height_grid s).
  split. { unfold galewsky_ic. cbv zeta. rewrite Evd. cbn [bindo]. rewrite Evg. cbn [bindo]. rewrite Ef. cbn [bindo]. rewrite Ets. cbn [bindo]. fold kg. rewrite Eke. cbn [bindo]. rewrite Ea. cbn [bindo]. rewrite Eb. cbn [bindo]. reflexivity. }
  split; [auto|]. split. { intros i j. split; [|reflexivity]. cbn [jet_grid val nth Nat.eqb]. apply jet_eq. }
  split; [auto|]. split; [auto|]. split; [auto|]. split. { intros i j Hi Hj. cbn [map2_t val]. rewrite !Vf by (auto; lia). split; [reflexivity|]. cbn. ring. }
  split; [auto|]. split; [auto|]. split. { intros i j. unfold kg, select0, jet_grid, map2_t. cbn [val nth Nat.eqb]. lra. }
  split; [auto|]. split; [auto|]. split. { intros i j. cbn [height_grid val nth]. now rewrite bump_eq. }
  split; [auto|]. intros l m Hl Hm Hlm. rewrite !tril3, (proj2 (Nat.leb_le _ _) Hlm). cbn [nth tl]. split; [reflexivity|]. split; [reflexivity|].
  rewrite Va by auto. unfold select0. cbn [val]. rewrite (b_inv _ _ _ _ _ _ B). pose proof (lap_inverse (w_radius s) l (b_radius _ _ _ _ _ _ B)) as LI. rewrite <- laplace_eq.
  change (val (inverse_laplacian L M (w_radius s)) [l; m]) with (invl (w_radius s) l). split.
  - match goal with |- cscale _ ?x = _ => replace x with (cscale (invl (w_radius s) l) (val ts [0%nat; l; m])) by (unfold select0; cbn [val]; ring) end.
    unfold cscale. rewrite Cmult_assoc, <- RtoC_mult, LI. destruct (l =? 0)%nat; ring.
  - intros ->. unfold invl. cbn. unfold cscale. ring.
Qed.
End Balance.
Lemma swe_consts : forall gl nlat nlon dt lmax mmax g radius omega gravity havg hamp s, swe_init gl nlat nlon dt lmax mmax g radius omega gravity havg hamp = Some s ->
  w_gravity s = gravity /\ w_havg s = havg /\ w_hamp s = hamp /\ forall q, sht_rule gl nlat g = Some q -> forall i, val (w_lats s) [i] = - asin (rn q i) /\ val (w_coriolis s) [i; 0%nat] = 2 * omega * sin (- asin (rn q i)).
Proof.
  intros gl nlat nlon dt lmax mmax g radius omega gravity havg hamp s E. unfold swe_init in E.
  destruct (real_sht_init gl nlat nlon lmax mmax g Ortho false) as [a|] eqn:Ea; [|discriminate]. cbn [bindo] in E.
  destruct (inverse_sht_init gl nlat nlon lmax mmax g Ortho false) as [b|] eqn:Eb; [|discriminate]. cbn [bindo] in E.
  destruct (vector_sht_init gl nlat nlon lmax mmax g Ortho false) as [c|] eqn:Ec; [|discriminate]. cbn [bindo] in E.
  destruct (inverse_vector_sht_init gl nlat nlon lmax mmax g Ortho false) as [d|] eqn:Ed; [|discriminate]. cbn [bindo] in E.
  destruct (sht_rule gl nlat g) as [q|] eqn:Eq; [|discriminate]. cbn [bindo] in E. destruct (Req_EM_T radius 0) as [|NR]; [discriminate|].
  injection E as <-. cbn. repeat split; congruence.
Qed.
