(** The CUDA attention backward pass in the upsampling direction: the four launches. *)
From Coq Require Import List Arith Lia Bool Reals Lra Permutation FunctionalExtensionality.
From Verif Require Import TensorModel TensorProofs BigSum DiscoModel DiscoSortProofs AttnModel AttnCoreProofs AttnKernelProofs AttnUpProofs AttnGradProofs AttnBwdProofs AttnOpProofs AttnOpValProofs GpuModel GpuSpec GpuProofs GpuProofs2 WarpProofs CudaDiscoModel CudaWarpModel CudaAttnModel CudaAttnUpModel CudaJobSpec CudaAttnProofs CudaAttnLaneProofs CudaAttnFwdProofs2 WarpKernelProofs CudaKeyProofs CudaAttnUpProofs CudaAttnUpProofs2 CudaAttnUpProofs3 CudaAttnUpProofs4 CudaAttnUpBwdProofs CudaAttnUpBwdProofs2.
From Verif Require Import AttnSpec.
Import ListNotations.
Local Open Scope nat_scope.

Section Bwd.
Variables (B nh Ck Cv Hi Wi Ho Wo : nat) (fmin : R) (quad : nat -> R) (P : pattern) (kw vw qw dyw : tensor R).
Hypotheses (OK : attn_ok B nh Ck Cv Hi Wi Ho Wo quad P kw vw qw) (Hup : Wi mod Wo <> 0) (Sdy : shp dyw = [B; Ho; Wo; nh * Cv]).
Notation cells := (B * nh * Ho * Wo).
Notation kA := (prod_list (shp kw), flat kw). Notation vA := (prod_list (shp vw), flat vw). Notation qA := (prod_list (shp qw), flat qw). Notation dA := (prod_list (shp dyw), flat dyw).
Notation Kf := (ffld nh Ck kw). Notation Vf := (ffld nh Cv vw). Notation Qf := (ffld nh Ck qw). Notation Df := (ffld nh Cv dyw).
Notation N := (nbrs_scatter P Hi Wi Wo).
Theorem up_bwd_job_ok : job_settles (up_bwd_job fmin B nh Ck Cv Hi Wi Ho Wo kw vw qw dyw quad (columns P) (offsets 0 P))
  (fun g => teq (fst (fst g)) (dK B nh Ck Cv Hi Wi Ho Wo quad P kw vw qw dyw) /\ teq (snd (fst g)) (dV B nh Ck Cv Hi Wi Ho Wo quad P kw qw dyw) /\ teq (snd g) (dQ B nh Ck Cv Hi Wi Ho Wo quad P kw vw qw dyw)).
Proof.
  assert (OK' := OK). destruct OK' as [HB Hn HHi HHo HWi HWo Sk Sv Sq _ _ Hq _]. assert (Hdiv := up_div B nh Ck Cv Hi Wi Ho Wo quad P kw vw qw OK Hup). assert (HP := up_P B nh Ck Cv Hi Wi Ho Wo quad P kw vw qw OK Hup). assert (EN := up_N Hi Wi Wo P Hup).
  assert (Hne := up_ne B nh Ck Cv Hi Wi Ho Wo quad P kw vw qw OK Hup). assert (Hin : forall ho wo p, ho < Ho -> wo < Wo -> In p (N ho wo) -> fst p < Hi /\ snd p < Wi) by (intros ho wo p _ _ Hp; eapply scatter_in; exact Hp).
  unfold up_bwd_job. cbn [job_settles]. intros rg1 sh1. eapply settles_impl; [apply (max_ok B nh Ck Cv Hi Wi Ho Wo fmin quad P kw vw qw OK Hup)|].
  intros m _ rg2 sh2. set (arr := [kA; vA; qA; dA; (Hi, quad); (cells, m)]).
  eapply settles_impl; [apply (stats_settles B nh Hi Wi Ho Wo P Ck Cv Kf Qf Vf Df quad m HWi HWo Hdiv HP _ (part arr 0) (part arr 1) (part arr 2) (part arr 3) (part arr 4) (part arr 5)); try reflexivity|].
  1-4: apply tensor_reads; auto; cbn; lia.
  1-2: apply array_reads; [cbn; lia|reflexivity].
  intros o Eo rg3 sh3.
  set (S := fun b ho wo => rlsum (alm Ck quad Kf Qf b ho wo (m (bcell Ho Wo b (ho * Wo + wo)))) (N ho wo)).
  set (A := fun b ho wo => rlsum (fun p => alm Ck quad Kf Qf b ho wo (m (bcell Ho Wo b (ho * Wo + wo)%nat)) p * g_dot Cv Vf Df b ho wo p)%R (N ho wo)).
  assert (ES : forall b ho wo, b < B * nh -> ho < Ho -> wo < Wo -> o (bcell Ho Wo b (ho * Wo + wo)) = S b ho wo) by (intros b ho wo Hb Hh Hw; rewrite Eo; exact (st_S B nh Hi Wi Ho Wo P Ck Cv Kf Qf Vf Df quad m HWi HWo Hdiv HP b ho wo Hb Hh Hw)).
  assert (EA : forall b ho wo, b < B * nh -> ho < Ho -> wo < Wo -> o (cells + bcell Ho Wo b (ho * Wo + wo)) = A b ho wo) by (intros b ho wo Hb Hh Hw; rewrite Eo; exact (st_A B nh Hi Wi Ho Wo P Ck Cv Kf Qf Vf Df quad m HWi HWo Hdiv HP b ho wo Hb Hh Hw)).
  assert (EK := fun b ho wo y (Hb : b < B * nh) (Hh : ho < Ho) (Hw : wo < Wo) (Hy : y < Ck) => st_Ak B nh Hi Wi Ho Wo P Ck Cv Kf Qf Vf Df quad m HWi HWo Hdiv HP b ho wo y Hb Hh Hw Hy).
  assert (EV := fun b ho wo y (Hb : b < B * nh) (Hh : ho < Ho) (Hw : wo < Wo) (Hy : y < Ck) => st_Akv B nh Hi Wi Ho Wo P Ck Cv Kf Qf Vf Df quad m HWi HWo Hdiv HP b ho wo y Hb Hh Hw Hy).
  assert (Spos : forall b ho wo, ho < Ho -> wo < Wo -> (0 < S b ho wo)%R) by (intros b ho wo Hh Hw; apply (alm_pos Ck Hi Wi Ho Wo quad N Kf Qf Hq Hin Hne); auto).
  assert (Epr : forall b ho wo p, ho < Ho -> wo < Wo -> (alm Ck quad Kf Qf b ho wo (m (bcell Ho Wo b (ho * Wo + wo)%nat)) p / S b ho wo)%R = g_prob Ck quad N Kf Qf b ho wo p) by (intros b ho wo p Hh Hw; apply (alm_prob Ck Hi Wi Ho Wo quad N Kf Qf Hq Hin Hne); auto).
  assert (Ebar : forall b ho wo, ho < Ho -> wo < Wo -> (A b ho wo / S b ho wo)%R = g_bar Ck Cv quad N Kf Vf Qf Df b ho wo) by (intros b ho wo Hh Hw; apply (alm_avg Ck Hi Wi Ho Wo quad N Kf Qf Hq Hin Hne); auto).
  set (arr' := [(cells, o); (cells, fun i => o (cells + i)); (cells * Ck, fun i => o (2 * cells + i)); (cells * Ck, fun i => o (2 * cells + cells * Ck + i))]).
  eapply settles_impl; [apply (dq_settles B nh Ck Ho Wo _ (part arr' 0) (part arr' 1) (part arr' 2) (part arr' 3) o (fun i => o (cells + i)) (fun i => o (2 * cells + i)) (fun i => o (2 * cells + cells * Ck + i)) Hn); try reflexivity; apply array_reads; try reflexivity; cbn; lia|].
  intros dq Edq rg4 sh4. set (arr2 := [kA; vA; qA; dA; (Hi, quad); (cells, m); (cells, o); (cells, fun i => o (cells + i))]).
  eapply settles_impl; [apply (dkv_settles B nh Hi Wi Ho Wo P Ck Cv Kf Qf Vf Df quad m o (fun i => o (cells + i)) Hn HWi HWo Hdiv HP _ (part arr2 0) (part arr2 1) (part arr2 2) (part arr2 3) (part arr2 4) (part arr2 5) (part arr2 6) (part arr2 7)); try reflexivity|].
  1-4: apply tensor_reads; auto; cbn; lia.
  1-4: apply array_reads; [cbn; lia|reflexivity].
  intros o' Ekv. cbn [fst snd].
  assert (Pr : forall b hi wi c, b < B * nh -> hi < Hi -> wi < Wi -> In c (nth hi P []) -> let ho := to_ho Wo c in let wo := to_wo Wi Wo wi c in
     prc Wi Ho Wo Ck Kf Qf quad m o b hi wi c = g_prob Ck quad N Kf Qf b ho wo (hi, wi) /\ wtc Wi Ho Wo Ck Cv Kf Qf Vf Df quad m o (fun i => o (cells + i)) b hi wi c = g_wt Ck Cv quad N Kf Vf Qf Df b ho wo (hi, wi)).
  { intros b hi wi c Hb Hh Hw Hc ho wo. destruct (to_ok Hi Wi Ho Wo P HWi HWo Hdiv HP hi wi c Hh Hc) as [L1 L2]. fold ho in L1. fold wo in L2.
    assert (E1 : prc Wi Ho Wo Ck Kf Qf quad m o b hi wi c = g_prob Ck quad N Kf Qf b ho wo (hi, wi)).
    { unfold prc. rewrite (alp_alm Hi Wi Ho Wo P HWi HWo Hdiv) by auto. rewrite (bc_eq Hi Wi Ho Wo P HWi HWo Hdiv b hi wi c Hh Hw Hc). fold ho wo. rewrite ES by auto. now apply Epr. }
    split; [exact E1|]. unfold wtc. rewrite E1, gdv_dot. rewrite (bc_eq Hi Wi Ho Wo P HWi HWo Hdiv b hi wi c Hh Hw Hc). fold ho wo. rewrite ES, EA, Ebar by auto. unfold g_wt. ring. }
  split; [|split].
  - apply (unpk_teq B nh Ck Hi Wi _ (fun b h w c => o' (pidx nh (Hi * Wi) Ck b (h * Wi + w) c))); [reflexivity| |].
    + intros b h x d Hb Hh Hx Hd. now rewrite tensor_of_pidx.
    + intros b h w c Hb Hh Hw Hc. rewrite EN. destruct (Ekv b (h * Wi + w) c Hb (cell_lt Hi Wi h w Hh Hw)) as [E _]. rewrite (E Hc). destruct (cell_split Wi h w Hw) as [S1 S2]. rewrite S2, S1. unfold dk_part.
      transitivity (rlsum (fun e => (fun ho wo => Qf b ho wo c * g_wt Ck Cv quad N Kf Vf Qf Df b ho wo (h, w))%R (to_ho Wo e) (to_wo Wi Wo w e)) (nth h P [])).
      * apply lsum_ext. intros e He. destruct (Pr b h w e Hb Hh Hw He) as [_ ->]. ring.
      * rewrite (row_cells Hi Wi Ho Wo P HWi HWo Hdiv HP h w (fun ho wo => Qf b ho wo c * g_wt Ck Cv quad N Kf Vf Qf Df b ho wo (h, w))%R Hh Hw). unfold GK. apply bsum_ext. intros ho _. apply bsum_ext. intros wo _. apply lsum_ext. intros p _. destruct (pt_eqb (h, w) p) eqn:E2; [|reflexivity]. apply pt_eqb_iff in E2. now subst p.
  - apply (unpk_teq B nh Cv Hi Wi _ (fun b h w c => o' (B * Hi * Wi * (nh * Ck) + pidx nh (Hi * Wi) Cv b (h * Wi + w) c))); [reflexivity| |].
    + intros b h x d Hb Hh Hx Hd. now rewrite tensor_of_pidx.
    + intros b h w c Hb Hh Hw Hc. rewrite EN. destruct (Ekv b (h * Wi + w) c Hb (cell_lt Hi Wi h w Hh Hw)) as [_ E]. rewrite (E Hc). destruct (cell_split Wi h w Hw) as [S1 S2]. rewrite S2, S1. unfold dv_part.
      transitivity (rlsum (fun e => (fun ho wo => g_prob Ck quad N Kf Qf b ho wo (h, w) * Df b ho wo c)%R (to_ho Wo e) (to_wo Wi Wo w e)) (nth h P [])).
      * apply lsum_ext. intros e He. destruct (Pr b h w e Hb Hh Hw He) as [-> _]. reflexivity.
      * rewrite (row_cells Hi Wi Ho Wo P HWi HWo Hdiv HP h w (fun ho wo => g_prob Ck quad N Kf Qf b ho wo (h, w) * Df b ho wo c)%R Hh Hw). unfold GV. apply bsum_ext. intros ho _. apply bsum_ext. intros wo _. apply lsum_ext. intros p _. destruct (pt_eqb (h, w) p) eqn:E2; [|reflexivity]. apply pt_eqb_iff in E2. now subst p.
  - apply (unpk_teq B nh Ck Ho Wo _ (fun b h w c => dq (pidx nh (Ho * Wo) Ck b (h * Wo + w) c))); [reflexivity| |].
    + intros b h x d Hb Hh Hx Hd. now rewrite tensor_of_pidx.
    + intros b ho wo c Hb Hh Hw Hc. rewrite EN. rewrite (Edq b (ho * Wo + wo) c Hb (cell_lt Ho Wo ho wo Hh Hw) Hc). unfold dq_val. rewrite ES, EA by auto.
      assert (Q1 : o (2 * cells + cells * Ck + (bcell Ho Wo b (ho * Wo + wo) * Ck + c)) = rlsum (fun p => alm Ck quad Kf Qf b ho wo (m (bcell Ho Wo b (ho * Wo + wo)%nat)) p * Kf b (fst p) (snd p) c * g_dot Cv Vf Df b ho wo p)%R (N ho wo)) by (rewrite Eo; exact (EV b ho wo c Hb Hh Hw Hc)).
      assert (Q2 : o (2 * cells + (bcell Ho Wo b (ho * Wo + wo) * Ck + c)) = rlsum (fun p => alm Ck quad Kf Qf b ho wo (m (bcell Ho Wo b (ho * Wo + wo)%nat)) p * Kf b (fst p) (snd p) c)%R (N ho wo)) by (rewrite Eo; exact (EK b ho wo c Hb Hh Hw Hc)).
      rewrite Q1, Q2. assert (Sp := Spos b ho wo Hh Hw). assert (F := dq_formula (N ho wo) (alm Ck quad Kf Qf b ho wo (m (bcell Ho Wo b (ho * Wo + wo)))) (g_dot Cv Vf Df b ho wo) (fun p => Kf b (fst p) (snd p) c)). fold (S b ho wo) in F. fold (A b ho wo) in F. specialize (F ltac:(lra)).
      set (AV := rlsum (fun p => alm Ck quad Kf Qf b ho wo (m (bcell Ho Wo b (ho * Wo + wo)%nat)) p * Kf b (fst p) (snd p) c * g_dot Cv Vf Df b ho wo p)%R (N ho wo)) in *. set (AK := rlsum (fun p => alm Ck quad Kf Qf b ho wo (m (bcell Ho Wo b (ho * Wo + wo)%nat)) p * Kf b (fst p) (snd p) c)%R (N ho wo)) in *.
      transitivity ((AV * S b ho wo - A b ho wo * AK) / (S b ho wo * S b ho wo))%R; [field; lra|]. rewrite F. unfold GQ. apply lsum_ext. intros p _. rewrite Epr, Ebar by auto. unfold g_wt. reflexivity.
Qed.
End Bwd.
