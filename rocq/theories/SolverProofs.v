(** Closed form of the shallow-water tendencies. *)
From Coq Require Import List Arith Lia Bool Reals ZArith Lra.
From Coquelicot Require Import Coquelicot.
From Verif Require Import TensorModel TensorProofs BigSum FFTModel TruncModel LegendreModel QuadModel SHTModel SHTSpec SHTRoundSpec SHTValueProofs VSHTValueProofs SHTRoundProofs VRoundProofs
  LossModel LossProofs SolverModel.
Import ListNotations.
Local Open Scope R_scope.

(** ** Broadcast products of the solver *)
Lemma bmap2_field : forall A B D (f : A -> B -> D) (x : tensor A) (y : tensor B) n h w, shp x = [h; w] -> shp y = [n; h; w] ->
  exists z, bmap2 f x y = Some z /\ shp z = [n; h; w] /\ forall c k j, (c < n)%nat -> (k < h)%nat -> (j < w)%nat -> val z [c; k; j] = f (val x [k; j]) (val y [c; k; j]).
Proof.
  intros A B D f x y n h w Sx Sy. unfold bmap2. rewrite Sx, Sy, bshape_comm. pose proof (bshape_tiled [n] h w) as E. cbn [app] in E. rewrite E. cbn [bindo].
  eexists. split. reflexivity. split. reflexivity. intros c k j Hc Hk Hj. cbn [val]. pose proof (bidx_tiled [c] h w k j Hk Hj) as E1. cbn [app] in E1. rewrite E1.
  rewrite bidx_valid. reflexivity. apply valid_cons; split; auto. apply valid_cons; split; auto. apply valid_cons; split; auto. apply valid_nil.
Qed.
Lemma bmap2_field' : forall A B D (f : A -> B -> D) (x : tensor A) (y : tensor B) n h w, shp x = [n; h; w] -> shp y = [h; w] ->
  exists z, bmap2 f x y = Some z /\ shp z = [n; h; w] /\ forall c k j, (c < n)%nat -> (k < h)%nat -> (j < w)%nat -> val z [c; k; j] = f (val x [c; k; j]) (val y [k; j]).
Proof.
  intros A B D f x y n h w Sx Sy. unfold bmap2. rewrite Sx, Sy. pose proof (bshape_tiled [n] h w) as E. cbn [app] in E. rewrite E. cbn [bindo].
  eexists. split. reflexivity. split. reflexivity. intros c k j Hc Hk Hj. cbn [val]. pose proof (bidx_tiled [c] h w k j Hk Hj) as E1. cbn [app] in E1. rewrite E1.
  rewrite bidx_valid. reflexivity. apply valid_cons; split; auto. apply valid_cons; split; auto. apply valid_cons; split; auto. apply valid_nil.
Qed.
Lemma bmap2_plain : forall A B D (f : A -> B -> D) (x : tensor A) (y : tensor B) h w, shp x = [h; w] -> shp y = [h; w] ->
  exists z, bmap2 f x y = Some z /\ shp z = [h; w] /\ forall k j, (k < h)%nat -> (j < w)%nat -> val z [k; j] = f (val x [k; j]) (val y [k; j]).
Proof.
  intros A B D f x y h w Sx Sy. unfold bmap2. rewrite Sx, Sy, bshape_refl. cbn [bindo]. eexists. split. reflexivity. split. reflexivity. intros k j Hk Hj. cbn [val].
  rewrite !bidx_valid. reflexivity. all: apply valid_cons; split; auto; apply valid_cons; split; auto; apply valid_nil.
Qed.
Lemma bmap2_col : forall A B D (f : A -> B -> D) (x : tensor A) (y : tensor B) h w, shp x = [h; w] -> shp y = [h; 1%nat] ->
  exists z, bmap2 f x y = Some z /\ shp z = [h; w] /\ forall k j, (k < h)%nat -> (j < w)%nat -> val z [k; j] = f (val x [k; j]) (val y [k; 0%nat]).
Proof.
  intros A B D f x y h w Sx Sy. unfold bmap2. rewrite Sx, Sy. pose proof (bshape_rows [] h w) as E. cbn [app] in E. rewrite E. cbn [bindo].
  eexists. split. reflexivity. split. reflexivity. intros k j Hk Hj. cbn [val]. pose proof (bidx_rows [] h k j Hk) as E1. cbn [app] in E1. rewrite E1.
  rewrite bidx_valid. reflexivity. apply valid_cons; split; auto; apply valid_cons; split; auto; apply valid_nil.
Qed.
Lemma bmap2_colfield : forall A B D (f : A -> B -> D) (x : tensor A) (y : tensor B) n h w, shp x = [n; h; w] -> shp y = [h; 1%nat] ->
  exists z, bmap2 f x y = Some z /\ shp z = [n; h; w] /\ forall c k j, (c < n)%nat -> (k < h)%nat -> (j < w)%nat -> val z [c; k; j] = f (val x [c; k; j]) (val y [k; 0%nat]).
Proof.
  intros A B D f x y n h w Sx Sy. unfold bmap2. rewrite Sx, Sy. pose proof (bshape_rows [n] h w) as E. cbn [app] in E. rewrite E. cbn [bindo].
  eexists. split. reflexivity. split. reflexivity. intros c k j Hc Hk Hj. cbn [val]. pose proof (bidx_rows [c] h k j Hk) as E1. cbn [app] in E1. rewrite E1.
  rewrite bidx_valid. reflexivity. apply valid_cons; split; auto. apply valid_cons; split; auto; apply valid_cons; split; auto; apply valid_nil.
Qed.

Lemma synthesise_ext : forall w ll mm n c d k j, (forall l m, (l < ll)%nat -> (m < mm)%nat -> c l m = d l m) -> synthesise w ll mm n c k j = synthesise w ll mm n d k j.
Proof. intros. unfold synthesise. apply synth_ext. intros. apply bsum_ext. intros. now rewrite H. Qed.
Lemma vsynthesise_ext : forall w ll mm n c d e k j, (forall a l m, (a < 2)%nat -> (l < ll)%nat -> (m < mm)%nat -> c a l m = d a l m) -> vsynthesise w ll mm n c e k j = vsynthesise w ll mm n d e k j.
Proof. intros. unfold vsynthesise. apply synth_ext. intros. apply bsum_ext. intros. rewrite !H by (auto; lia). reflexivity. Qed.
Lemma vanalyse_ext2 : forall w h n f g c l m, (forall d k j, (d < 2)%nat -> (k < h)%nat -> (j < n)%nat -> f d k j = g d k j) -> vanalyse w h n f c l m = vanalyse w h n g c l m.
Proof. intros. apply bsum_ext. intros. f_equal; apply fourier_ext; intros; apply H; auto. Qed.

(** ** What the constructor builds *)
Definition lapl (r : R) (l : nat) : R := - INR l * (INR l + 1) / r ^ 2.
Definition invl (r : R) (l : nat) : R := if (l =? 0)%nat then 0 else - r ^ 2 / INR l / (INR l + 1).

Record built (s : swe) (gl : nat -> rule) (g : grid) (lmax mmax : option nat) (q : rule) : Prop := mkBuilt {
  b_rule : sht_rule gl (w_nlat s) g = Some q;
  b_trunc : truncate_sht (w_nlat s) (w_nlon s) lmax mmax g = Some (w_lmax s, w_mmax s);
  b_sht : w_sht s = mkSHT (w_nlat s) (w_nlon s) (w_lmax s) (w_mmax s) (real_sht_weights (w_nlat s) (w_lmax s) (w_mmax s) q Ortho false);
  b_isht : w_isht s = mkSHT (w_nlat s) (w_nlon s) (w_lmax s) (w_mmax s) (inverse_sht_pct (w_nlat s) (w_lmax s) (w_mmax s) q Ortho false);
  b_vsht : w_vsht s = mkSHT (w_nlat s) (w_nlon s) (w_lmax s) (w_mmax s) (vector_sht_weights (w_nlat s) (w_lmax s) (w_mmax s) q Ortho false);
  b_ivsht : w_ivsht s = mkSHT (w_nlat s) (w_nlon s) (w_lmax s) (w_mmax s) (inverse_vector_dpct (w_nlat s) (w_lmax s) (w_mmax s) q Ortho false);
  b_lap : w_lap s = laplacian (w_lmax s) (w_mmax s) (w_radius s);
  b_inv : w_invlap s = inverse_laplacian (w_lmax s) (w_mmax s) (w_radius s);
  b_cor : w_coriolis s = mkT [w_nlat s; 1%nat] (fun i => 2 * w_omega s * sin (- asin (rn q (nth 0 i 0%nat))));
  b_hyp : w_hyperdiff s = hyperdiffusion (w_lmax s) (w_mmax s) (w_radius s) (w_dt s);
  b_quad : w_quad s = mkT [w_nlat s; 1%nat] (fun i => rw q (nth 0 i 0%nat));
  b_radius : w_radius s <> 0 }.
Lemma swe_init_inv : forall gl nlat nlon dt lmax mmax g radius omega gravity havg hamp s, swe_init gl nlat nlon dt lmax mmax g radius omega gravity havg hamp = Some s ->
  exists q, built s gl g lmax mmax q /\ w_nlat s = nlat /\ w_nlon s = nlon /\ w_dt s = dt /\ w_radius s = radius /\ w_omega s = omega /\
  real_sht_init gl nlat nlon lmax mmax g Ortho false = Some (w_sht s) /\ inverse_sht_init gl nlat nlon lmax mmax g Ortho false = Some (w_isht s) /\
  vector_sht_init gl nlat nlon lmax mmax g Ortho false = Some (w_vsht s) /\ inverse_vector_sht_init gl nlat nlon lmax mmax g Ortho false = Some (w_ivsht s).
Proof.
  intros gl nlat nlon dt lmax mmax g radius omega gravity havg hamp s E. unfold swe_init in E.
  destruct (real_sht_init gl nlat nlon lmax mmax g Ortho false) as [a|] eqn:Ea; [|discriminate]. cbn [bindo] in E.
  destruct (inverse_sht_init gl nlat nlon lmax mmax g Ortho false) as [b|] eqn:Eb; [|discriminate]. cbn [bindo] in E.
  destruct (vector_sht_init gl nlat nlon lmax mmax g Ortho false) as [c|] eqn:Ec; [|discriminate]. cbn [bindo] in E.
  destruct (inverse_vector_sht_init gl nlat nlon lmax mmax g Ortho false) as [d|] eqn:Ed; [|discriminate]. cbn [bindo] in E.
  destruct (sht_rule gl nlat g) as [q|] eqn:Eq; [|discriminate]. cbn [bindo] in E. destruct (Req_EM_T radius 0) as [|NR]; [discriminate|].
  destruct (real_sht_init_eq _ _ _ _ _ _ _ _ _ Ea) as (q1 & L & M & Q1 & T1 & Ha). destruct (inverse_sht_init_eq _ _ _ _ _ _ _ _ _ Eb) as (q2 & L2 & M2 & Q2 & T2 & Hb).
  destruct (vector_sht_init_eq _ _ _ _ _ _ _ _ _ Ec) as (q3 & L3 & M3 & Q3 & T3 & Hc). destruct (inverse_vector_sht_init_eq _ _ _ _ _ _ _ _ _ Ed) as (q4 & L4 & M4 & Q4 & T4 & Hd).
  assert (q1 = q) by congruence. assert (q2 = q) by congruence. assert (q3 = q) by congruence. assert (q4 = q) by congruence. subst q1 q2 q3 q4.
  rewrite T1 in T2, T3, T4. injection T2 as <- <-. injection T3 as <- <-. injection T4 as <- <-.
  injection E as <-. exists q. subst a b c d. cbn. repeat split; auto.
Qed.

Section Solver.
Variable s : swe.
Variable gl : nat -> rule.
Variable g : grid.
Variable lmax mmax : option nat.
Variable q : rule.
Hypothesis B : built s gl g lmax mmax q.
Hypothesis Hw : (1 <= w_nlon s)%nat.
Notation L := (w_lmax s).
Notation M := (w_mmax s).
Notation h := (w_nlat s).
Notation w := (w_nlon s).
Notation r := (w_radius s).
Definition WS := real_sht_weights h L M q Ortho false.
Definition WI := inverse_sht_pct h L M q Ortho false.
Definition WV := vector_sht_weights h L M q Ortho false.
Definition WIV := inverse_vector_dpct h L M q Ortho false.

Lemma spec2grid_value : forall n u, shp u = [n; L; M] -> exists f, spec2grid s u = Some f /\ shp f = [n; h; w] /\
  forall c k j, val f [c; k; j] = synthesise WI L M w (fun l m => val u [c; l; m]) k j.
Proof.
  intros n u Su. unfold spec2grid. rewrite (b_isht _ _ _ _ _ _ B). destruct (inverse_sht_value (mkSHT h w L M WI) [n] u Hw eq_refl Su) as (f & E & S & V).
  exists f. split; auto. split; auto. intros c k j. exact (V [c] k j eq_refl).
Qed.
Lemma getuv_value : forall v, shp v = [2%nat; L; M] -> exists f, getuv s v = Some f /\ shp f = [2%nat; h; w] /\
  forall d k j, val f [d; k; j] = vsynthesise WIV L M w (fun c l m => cscale (/ r) (cscale (invl r l) (val v [c; l; m]))) d k j.
Proof.
  intros v Sv. unfold getuv. rewrite (b_ivsht _ _ _ _ _ _ B), (b_inv _ _ _ _ _ _ B).
  destruct (bmap2_field _ _ _ cscale (inverse_laplacian L M r) v 2 L M eq_refl Sv) as (z & E & S & V). rewrite E. cbn [bindo].
  destruct (inverse_vector_sht_value (mkSHT h w L M WIV) [] (map_t (cscale (/ r)) z) Hw eq_refl S) as (f & E' & S' & V').
  exists f. split; auto. split; auto. intros d k j. pose proof (V' [] d k j eq_refl) as Vf. cbn [app] in Vf. rewrite Vf. cbn [s_weights s_lmax s_mmax s_nlon]. apply vsynthesise_ext. intros a l m Ha Hl Hm.
  cbn [map_t val app]. now rewrite V.
Qed.
Lemma vrtdiv_value : forall v, shp v = [2%nat; h; w] -> exists f, vrtdivspec s v = Some f /\ shp f = [2%nat; L; M] /\
  forall c l m, (c < 2)%nat -> (l < L)%nat -> (m < M)%nat -> val f [c; l; m] = cscale (lapl r l * r) (vanalyse WV h w (fun d k j => val v [d; k; j]) c l m).
Proof.
  intros v Sv. unfold vrtdivspec. rewrite (b_vsht _ _ _ _ _ _ B), (b_lap _ _ _ _ _ _ B).
  destruct (vector_sht_value (mkSHT h w L M WV) [] v eq_refl Sv) as (y & E & S & V). unfold WV in E. rewrite E. cbn [bindo].
  destruct (bmap2_field _ _ _ cscale (map_t (fun v => v * r) (laplacian L M r)) y 2 L M eq_refl S) as (z & Ez & Sz & Vz).
  exists z. split; auto. split; auto. intros c l m Hc Hl Hm. rewrite Vz by auto. pose proof (V [] c l m eq_refl Hm) as Vy. cbn [app s_weights s_nlat s_nlon] in Vy. rewrite Vy. reflexivity.
Qed.
Lemma grid2spec_value : forall v, shp v = [h; w] -> exists f, grid2spec s v = Some f /\ shp f = [L; M] /\
  forall l m, (m < M)%nat -> val f [l; m] = analyse WS h w (fun k j => val v [k; j]) l m.
Proof.
  intros v Sv. unfold grid2spec. rewrite (b_sht _ _ _ _ _ _ B). destruct (real_sht_value (mkSHT h w L M WS) [] v eq_refl Sv) as (f & E & S & V).
  exists f. split; auto. split; auto. intros l m Hm. exact (V [] l m eq_refl Hm).
Qed.

(** The fields on the grid, and the tendencies, as functions of the coefficients. *)
Definition gfield (u : nat -> nat -> nat -> C) (c k j : nat) : R := synthesise WI L M w (u c) k j.
Definition gwind (u : nat -> nat -> nat -> C) (d k j : nat) : R := vsynthesise WIV L M w (fun c l m => cscale (/ r) (cscale (invl r l) (u (S c) l m))) d k j.
Definition cori (k : nat) : R := 2 * w_omega s * sin (- asin (rn q k)).
Definition genergy (u : nat -> nat -> nat -> C) (k j : nat) : R := gfield u 0 k j + 0.5 * (gwind u 0 k j ^ 2 + gwind u 1 k j ^ 2).
Definition tend (u : nat -> nat -> nat -> C) (c l m : nat) : C :=
  let flux := fun d k j => gwind u d k j * gfield u 0 k j in
  let force := fun d k j => gwind u d k j * (gfield u 1 k j + cori k) in
  match c with
  | O => cscale (-1) (cscale (lapl r l * r) (vanalyse WV h w flux 1 l m))
  | 1%nat => cscale (-1) (cscale (lapl r l * r) (vanalyse WV h w force 1 l m))
  | _ => Cminus (cscale (lapl r l * r) (vanalyse WV h w force 0 l m)) (cscale (lapl r l) (analyse WS h w (genergy u) l m))
  end.
Definition coef (u : tensor C) (c l m : nat) : C := val u [c; l; m].

Lemma dudt_value : forall u, shp u = [3%nat; L; M] -> exists D, dudtspec s u = Some D /\ shp D = [3%nat; L; M] /\
  forall c l m, (c < 3)%nat -> (l < L)%nat -> (m < M)%nat -> val D [c; l; m] = tend (coef u) c l m.
Proof.
  intros u Su. unfold dudtspec. rewrite Su. unfold shape_eqb. destruct (list_eq_dec Nat.eq_dec [3%nat; L; M] [3%nat; L; M]); [|congruence]. clear e. cbn [guard bindo].
  destruct (spec2grid_value 3 u Su) as (ug & E1 & S1 & V1). rewrite E1. cbn [bindo].
  assert (ST : shp (tail0 u) = [2%nat; L; M]). { unfold tail0, narrow, dimsz. cbn [shp]. rewrite Su. reflexivity. }
  destruct (getuv_value (tail0 u) ST) as (uv & E2 & S2 & V2). rewrite E2. cbn [bindo].
  assert (SC : shp (w_coriolis s) = [h; 1%nat]) by now rewrite (b_cor _ _ _ _ _ _ B).
  assert (SS : forall c, shp (select0 c ug) = [h; w]). { intros. unfold select0. cbn [shp]. now rewrite S1. }
  destruct (bmap2_col _ _ _ Rplus (select0 1 ug) (w_coriolis s) h w (SS 1%nat) SC) as (f & E3 & S3 & V3). rewrite E3. cbn [bindo].
  destruct (bmap2_field' _ _ _ Rmult uv f 2 h w S2 S3) as (tmp & E4 & S4 & V4). rewrite E4. cbn [bindo].
  destruct (vrtdiv_value tmp S4) as (ts & E5 & S5 & V5). rewrite E5. cbn [bindo].
  destruct (bmap2_field' _ _ _ Rmult uv (select0 0 ug) 2 h w S2 (SS 0%nat)) as (tmp' & E6 & S6 & V6). rewrite E6. cbn [bindo].
  destruct (vrtdiv_value tmp' S6) as (ts' & E7 & S7 & V7). rewrite E7. cbn [bindo].
  set (e := map2_t (fun p k => p + 0.5 * k) (select0 0 ug) (map2_t (fun a b => a ^ 2 + b ^ 2) (select0 0 uv) (select0 1 uv))).
  destruct (grid2spec_value e (SS 0%nat)) as (es & E8 & S8 & V8). rewrite E8. cbn [bindo].
  assert (SL : shp (w_lap s) = [L; M]) by now rewrite (b_lap _ _ _ _ _ _ B).
  destruct (bmap2_plain _ _ _ cscale (w_lap s) es L M SL S8) as (le & E9 & S9 & V9). rewrite E9. cbn [bindo].
  assert (W2 : forall d k j, val uv [d; k; j] = gwind (coef u) d k j).
  { intros d k j. rewrite V2. apply vsynthesise_ext. intros a l m Ha Hl Hm. unfold tail0, narrow, coef. cbn [val nth upd]. now rewrite Nat.add_1_r. }
  assert (W1 : forall c k j, val ug [c; k; j] = gfield (coef u) c k j) by (intros; apply V1).
  eexists. split. reflexivity. split.
  - unfold stack3. cbn [shp map_t]. unfold select0. cbn [shp]. now rewrite S7.
  - intros c l m Hc Hl Hm. unfold stack3. cbn [val nth tl].
    assert (FL : forall a, (a < 2)%nat -> val ts' [a; l; m] = cscale (lapl r l * r) (vanalyse WV h w (fun d k j => gwind (coef u) d k j * gfield (coef u) 0 k j) a l m)).
    { intros a Ha. rewrite V7 by auto. f_equal. apply vanalyse_ext2. intros d k j Hd Hk Hj. rewrite V6 by auto. cbn [select0 val]. now rewrite W1, W2. }
    assert (FO : forall a, (a < 2)%nat -> val ts [a; l; m] = cscale (lapl r l * r) (vanalyse WV h w (fun d k j => gwind (coef u) d k j * (gfield (coef u) 1 k j + cori k)) a l m)).
    { intros a Ha. rewrite V5 by auto. f_equal. apply vanalyse_ext2. intros d k j Hd Hk Hj. rewrite V4, V3 by auto. cbn [select0 val]. rewrite W1, W2.
      rewrite (b_cor _ _ _ _ _ _ B). reflexivity. }
    destruct c as [|[|[|]]]; try lia; cbn [map_t map2_t val select0]; unfold tend.
    + rewrite FL by lia. reflexivity.
    + rewrite FO by lia. reflexivity.
    + rewrite FO by lia. f_equal. rewrite V9, V8 by auto. rewrite (b_lap _ _ _ _ _ _ B). f_equal. apply analyse_ext. intros k j Hk Hj. unfold e, genergy. cbn [map2_t select0 val]. now rewrite W1, !W2.
Qed.
Lemma lapl_0 : lapl r 0 = 0. Proof. unfold lapl. cbn [INR]. unfold Rdiv. ring. Qed.
Lemma tend_0 : forall u c m, tend u c 0 m = RtoC 0.
Proof.
  intros u c m. unfold tend, cscale. rewrite lapl_0. assert (Z : forall z, Cmult (RtoC 0) z = RtoC 0) by (intros; ring). destruct c as [|[|]]; rewrite ?Rmult_0_l, ?Z; ring.
Qed.
End Solver.
