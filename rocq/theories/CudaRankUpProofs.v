(** Forward and backward pass of a rank on the GPU in the upsampling direction. *)
From Coq Require Import List Arith Lia Bool ZArith Reals Lra Permutation.
From Verif Require Import TensorModel TensorProofs BigSum AttnModel AttnLayerModel AttnLayerProofs AttnCoreProofs DistAttnModel DistAttnBwdModel DistAttnProofs GpuModel GpuSpec GpuProofs GpuProofs2 GpuRwModel GpuRwSpec WarpProofs WarpKernelProofs CudaAttnUpProofs3 CudaDiscoModel CudaAttnModel CudaAttnSpec CudaAttnProofs CudaUtilsModel CudaRescaleSpec CudaRingUpModel CudaRingUpSpec CudaRingUpProofs2 CudaRingUpProofs3 CudaRingSpec CudaRingProofs8 CudaRingBwdSpec CudaRankSpec CudaRankProofs CudaRankUpModel CudaRankUpSpec.
From Verif Require Import AttnSpec.
Import ListNotations.
Local Open Scope nat_scope.

Lemma ends_mono : forall k st (Q Q' : (nat -> R) -> Prop), (forall o, Q o -> Q' o) -> ends k st Q -> ends k st Q'.
Proof. intros k st Q Q' HQ H rg sh. eapply settles_impl; [apply H|exact HQ]. Qed.
Lemma steps_up_round : forall A ws cells (ks : chunk -> option (kernel * ((nat -> R) -> kernel) * ((nat -> R) -> kernel))) (ch : A -> chunk) l st Q, steps_end ws cells ks (map ch l) st Q -> up_round_ends ws cells (fun s => ks (ch s)) l st Q.
Proof. intros A ws cells ks ch. induction l as [|c l IH]; intros st Q H; [exact H|]. cbn [map steps_end up_round_ends] in *. destruct (ks (ch c)) as [k|]; [|exact H]. eapply step_ends_mono; [|exact H]. cbv beta. intros o. apply IH. Qed.
Lemma up_round_mono : forall A ws cells (ks : A -> option (kernel * ((nat -> R) -> kernel) * ((nat -> R) -> kernel))) l st (Q Q' : (nat -> R) -> Prop), (forall o, Q o -> Q' o) -> up_round_ends ws cells ks l st Q -> up_round_ends ws cells ks l st Q'.
Proof. intros A ws cells ks. induction l as [|c l IH]; intros st Q Q' HQ H; [now apply HQ|]. cbn [up_round_ends] in *. destruct (ks c) as [k|]; [|exact H]. eapply step_ends_mono; [|exact H]. cbv beta. intros o. now apply IH. Qed.
Lemma chain_mono : forall A (ks : A -> option kernel) l st (Q Q' : (nat -> R) -> Prop), (forall o, Q o -> Q' o) -> chain_ends ks l st Q -> chain_ends ks l st Q'.
Proof. intros A ks. induction l as [|c l IH]; intros st Q Q' HQ H; [now apply HQ|]. cbn [chain_ends] in *. destruct (ks c) as [k|]; [|exact H]. eapply ends_mono; [|exact H]. cbv beta. intros o. now apply IH. Qed.
Lemma up_each_mono : forall A (ks : A -> option kernel) l (Q Q' : list (nat -> R) -> Prop), (forall gs, Q gs -> Q' gs) -> up_each_ends ks l Q -> up_each_ends ks l Q'.
Proof. intros A ks. induction l as [|c l IH]; intros Q Q' HQ H; [now apply HQ|]. cbn [up_each_ends] in *. destruct (ks c) as [k|]; [|exact H]. eapply ends_mono; [|exact H]. cbv beta. intros o Ho. eapply IH; [|exact Ho]. cbv beta. intros gs. apply HQ. Qed.
Lemma up_each_of : forall A (ks : A -> option kernel) (Rl : A -> (nat -> R) -> Prop) l (Q : list (nat -> R) -> Prop),
  (forall c, In c l -> exists k, ks c = Some k /\ ends k (fun _ => 0%R) (Rl c)) -> (forall gs, Forall2 Rl l gs -> Q gs) -> up_each_ends ks l Q.
Proof.
  intros A ks Rl. induction l as [|c l IH]; intros Q HK HQ; [apply HQ; constructor|]. cbn [up_each_ends]. destruct (HK c (or_introl eq_refl)) as (k & -> & Hk). eapply ends_mono; [|exact Hk]. cbv beta. intros g Hg. apply IH; [intros; apply HK; now right|]. intros gs Hgs. apply HQ. now constructor.
Qed.
Lemma seen_up : forall Ck quad P H W lon_lo lat0 Ho Wo kf vf qf WoG ps B (buf : rbuf) b h w, seen (buf b h w) -> seen (ring_step_up Ck quad (offsets 0 P) (columns P) H W lon_lo lat0 Ho Wo kf vf qf WoG ps B buf b h w).
Proof.
  intros until w. intros Hs. unfold ring_step_up. destruct (b <? B); [|exact Hs]. cbv zeta.
  match goal with |- seen (step_acc _ _ _ _ _ _ _ _ _ _ _ _ _ _ _ ?u h w) => set (u0 := u) end.
  pose proof (step_acc_at H W Wo WoG ps lon_lo P Ck kf qf vf lat0 quad b u0 h w) as A. cbv zeta in A. destruct A as (A1 & A2 & _).
  assert (S0 : seen (u0 h w)).
  { subst u0. cbv beta. destruct (_ && _); [|exact Hs]. unfold rescale. destruct (step_max _ _ _ _ _ _ _ _ _ _ _ _ _ h w) as [m|]; [|exact Hs]. destruct (DistAttnModel.r_max (buf b h w)) as [m0|] eqn:Em; [|intros E; discriminate E]. destruct (Req_EM_T m0 m); [exact Hs|intros E; discriminate E]. }
  intros E. rewrite A2. rewrite A1 in E. rewrite (S0 E), E. rewrite Rplus_0_l. apply rlsum_zero. intros t _. destruct (at_hw h w t); [|reflexivity]. unfold salpha. apply Rmult_0_l.
Qed.

Section Rank.
Variables (ws : nat) (dev : device) (ninf : R) (o : dattn) (p a : nat) (visits : list (nat * (tensor R * tensor R))) (B Ck Cv H : nat) (P : pattern) (q dy qn dyn : tensor R).
Let L := da_L o.
Let Ho := nth p (da_lat_out o) 0.
Let Wo := nth a (da_lon_out o) 0.
Let cells := B * Ho * Wo.
Let lat0 := (Z.of_nat (nth p (split_starts (da_lat_in o)) 0%nat) - Z.of_nat (da_r_lat o))%Z.
Hypotheses (Eup : da_up o = true) (Er : da_roff o = offsets 0 P) (Ec : da_col o = columns P) (HP : pattern_ok P H (Ho * na_Wo L)) (HI : rows_inside H lat0 P (na_Hi L)).
Hypotheses (Hws : 32 <= ws) (Sq : shp q = [B; Ck; Ho; Wo]) (Eq : to_nhwc q = Some qn).
Hypothesis HV : forall s, In s visits -> 1 <= nth (fst s) (da_lon_in o) 0 /\ shp (fst (snd s)) = [B; H; nth (fst s) (da_lon_in o) 0; Ck] /\ shp (snd (snd s)) = [B; H; nth (fst s) (da_lon_in o) 0; Cv] /\
  scores_above ninf B H (nth (fst s) (da_lon_in o) 0) Ho Wo Ck (hwc (fst (snd s))) (hwc qn).
Hypothesis HF : forall s, In s visits -> up_fwd_launches dev ninf o p a qn B Ck Cv s <> None.

Lemma up_Sqn : shp qn = [B; Ho; Wo; Ck].
Proof. destruct (to_nhwc_val q B Ck Ho Wo Sq) as (r & E & S & _). congruence. Qed.
Lemma up_Lq : lays B Ho Wo Ck (flat qn) (hwc qn).
Proof. intros b h w c Hb Hh Hw Hc. exact (flat4 qn B Ho Wo Ck b h w c up_Sqn Hb Hh Hw Hc). Qed.
Lemma up_dims : forall s, In s visits -> dimsz (fst (snd s)) 1 = H /\ dimsz (fst (snd s)) 2 = nth (fst s) (da_lon_in o) 0 /\ dimsz (snd (snd s)) 3 = Cv.
Proof. intros s Hin. destruct (HV s Hin) as (_ & S1 & S2 & _). unfold dimsz. rewrite S1, S2. repeat split. Qed.
Lemma up_Lk : forall s, In s visits -> lays B H (nth (fst s) (da_lon_in o) 0) Ck (flat (fst (snd s))) (hwc (fst (snd s))).
Proof. intros s Hin b h w c Hb Hh Hw Hc. destruct (HV s Hin) as (_ & S1 & S2 & _). exact (flat4 _ B H _ Ck b h w c S1 Hb Hh Hw Hc). Qed.
Lemma up_Lv : forall s, In s visits -> lays B H (nth (fst s) (da_lon_in o) 0) Cv (flat (snd (snd s))) (hwc (snd (snd s))).
Proof. intros s Hin b h w c Hb Hh Hw Hc. destruct (HV s Hin) as (_ & S1 & S2 & _). exact (flat4 _ B H _ Cv b h w c S2 Hb Hh Hw Hc). Qed.
Lemma up_D4 : dimsz qn 3 = Ck.
Proof. unfold dimsz. rewrite up_Sqn. reflexivity. Qed.

Theorem up_rank_state : up_round_ends ws cells (up_fwd_launches dev ninf o p a qn B Ck Cv) visits (up_empty_bufs ninf o p a B) (fun fo => all_hold B Ho Wo Cv ninf fo (ring_state o p a visits qn B)).
Proof.
  set (ch := fun s : nat * (tensor R * tensor R) => let k := fst (snd s) in let v := snd (snd s) in mkChunk (dimsz k 1) (dimsz k 2) (nth (fst s) (split_starts (da_lon_in o)) 0) lat0 P (flat k) (flat v) (hwc k) (hwc v)).
  assert (Q := ring_up_round ws dev ninf B Ck Cv Ho Wo (na_Wo L) (na_Wo L / na_Wi L) (na_Hi L) (flat qn) (na_quad L) (hwc qn) up_Lq Hws (map ch visits) (up_empty_bufs ninf o p a B) (fun _ _ _ => rst0)). cbv zeta in Q.
  eapply up_round_mono; [|refine (steps_up_round _ ws cells (fun c => ring_up_fwd B Ck Cv (c_H c) (c_W c) Ho Wo (na_Wo L) (na_Wo L / na_Wi L) (c_lon c) (c_lat c) (da_roff o) (da_col o) (na_Hi L) (c_kA c) (c_vA c) (flat qn) (na_quad L) dev ninf) ch visits _ _ _)].
  2: { assert (Same : forall l st (Q0 : (nat -> R) -> Prop), (forall c, In c l -> c_pat c = P) ->
        steps_end ws (B * Ho * Wo) (fun c => ring_up_fwd B Ck Cv (c_H c) (c_W c) Ho Wo (na_Wo L) (na_Wo L / na_Wi L) (c_lon c) (c_lat c) (offsets 0 (c_pat c)) (columns (c_pat c)) (na_Hi L) (c_kA c) (c_vA c) (flat qn) (na_quad L) dev ninf) l st Q0 ->
        steps_end ws cells (fun c => ring_up_fwd B Ck Cv (c_H c) (c_W c) Ho Wo (na_Wo L) (na_Wo L / na_Wi L) (c_lon c) (c_lat c) (da_roff o) (da_col o) (na_Hi L) (c_kA c) (c_vA c) (flat qn) (na_quad L) dev ninf) l st Q0).
      { induction l as [|c l IH]; intros st Q0 Hc HS; [exact HS|]. cbn [steps_end] in HS |- *. rewrite (Hc c (or_introl eq_refl)), <- Er, <- Ec in HS. destruct (ring_up_fwd _ _ _ _ _ _ _ _ _ _ _ _ _ _ _ _ _ _ _ _) as [k|]; [|exact HS]. eapply step_ends_mono; [|exact HS]. cbv beta. intros o'. apply IH. intros; apply Hc; now right. }
      apply Same; [intros c Hc; apply in_map_iff in Hc; destruct Hc as (s & <- & _); reflexivity|]. apply Q.
      - intros c Hc. apply in_map_iff in Hc. destruct Hc as (s & <- & Hin). destruct (HV s Hin) as (W1 & S1 & S2 & S3). destruct (up_dims s Hin) as (D1 & D2 & _). split.
        + unfold ch. cbv zeta. rewrite D1, D2. constructor; cbn [c_H c_W c_lat c_pat c_kA c_vA c_k c_v]; auto; [now apply up_Lk|now apply up_Lv].
        + specialize (HF s Hin). unfold up_fwd_launches in HF. cbv zeta in HF. unfold ch. cbn [c_H c_W c_lon c_lat c_pat c_kA c_vA]. rewrite <- Er, <- Ec. exact HF.
      - intros b h w m _ _ _ E. discriminate E.
      - exact (empty_hold B Ho Wo Cv ninf). }
  cbv beta. intros fo HO. replace (ring_state o p a visits qn B) with (fold_left (fun buf c => ring_step_up Ck (na_quad L) (offsets 0 (c_pat c)) (columns (c_pat c)) (c_H c) (c_W c) (c_lon c) (c_lat c) Ho Wo (c_k c) (c_v c) (hwc qn) (na_Wo L) (na_Wo L / na_Wi L) B buf) (map ch visits) (fun _ _ _ => rst0)); [exact HO|].
  unfold ring_state. cbv zeta. rewrite Eup, up_D4, Er, Ec. fold L Ho Wo lat0. generalize (fun _ _ _ : nat => rst0). unfold ch. clear. induction visits as [|s l IH]; intros buf; [reflexivity|]. cbn [map fold_left]. apply IH.
Qed.
Theorem up_rank_forward : match visits with [] => False | _ => True end -> forall y, ring_output o p a visits q = Some y ->
  up_round_ends ws cells (up_fwd_launches dev ninf o p a qn B Ck Cv) visits (up_empty_bufs ninf o p a B) (fun fo => shp y = [B; Cv; Ho; Wo] /\ same4 B Ho Wo Cv (cf y) (up_y_of o p a B Cv fo)).
Proof.
  intros Hne y E. unfold ring_output in E. rewrite Eq in E. cbn [bindo] in E.
  assert (D0 : dimsz q 0 = B) by (unfold dimsz; rewrite Sq; reflexivity). rewrite D0 in E. fold Ho Wo in E.
  assert (DV : match visits with (_, (_, v)) :: _ => dimsz v 3 | [] => 0 end = Cv). { destruct visits as [|[s0 [k v]] l]; [destruct Hne|]. destruct (HV (s0, (k, v)) (or_introl eq_refl)) as (_ & _ & S2 & _). cbn [fst snd] in S2. unfold dimsz. rewrite S2. reflexivity. }
  rewrite DV in E. destruct (guard _); [|discriminate E]. cbn [bindo] in E. destruct (to_nchw_val (mk_hwc B Ho Wo Cv (fun b h w c => r_acc (ring_state o p a visits qn B b h w) c / DistAttnModel.r_sum (ring_state o p a visits qn B b h w))%R) B Cv Ho Wo eq_refl) as (r & Er' & Sr & Vr).
  assert (Ey : y = r) by congruence. subst r. eapply up_round_mono; [|exact up_rank_state]. cbv beta. intros fo HO. split; [exact Sr|]. intros b h w c Hb Hh Hw Hc. rewrite Vr. unfold hwc, mk_hwc, up_y_of. cbn [val nth]. fold Ho Wo cells.
  destruct (HO b h w Hb Hh Hw) as (_ & A2 & A3). fold cells in A2, A3. rewrite (A3 c Hc), A2. reflexivity.
Qed.
Lemma up_state_seen : forall b h w, seen (ring_state o p a visits qn B b h w).
Proof.
  intros b h w. unfold ring_state. cbv zeta. rewrite Eup, Er, Ec. fold L Ho Wo. assert (S0 : seen ((fun _ _ _ : nat => rst0) b h w)) by (intros _; reflexivity). revert S0. generalize (fun _ _ _ : nat => rst0).
  clear. induction visits as [|s l IH]; intros buf Hb; [exact Hb|]. cbn [fold_left]. apply IH. now apply seen_up.
Qed.

Hypotheses (Sd : shp dy = [B; Cv; Ho; Wo]) (Ed : to_nhwc dy = Some dyn).
Hypothesis (H1 : forall fo s, In s visits -> up_p1_launches dev o p a qn dyn B Ck Cv fo s <> None).
Hypothesis (H2 : forall fo bo s, In s visits -> up_p2_launches dev o p a qn dyn B Ck Cv fo bo s <> None).
Lemma up_Sdn : shp dyn = [B; Ho; Wo; Cv].
Proof. destruct (to_nhwc_val dy B Cv Ho Wo Sd) as (r & E & S & _). congruence. Qed.
Lemma up_Ld : lays B Ho Wo Cv (flat dyn) (hwc dyn).
Proof. intros b h w c Hb Hh Hw Hc. exact (flat4 dyn B Ho Wo Cv b h w c up_Sdn Hb Hh Hw Hc). Qed.

Section Saved.
Variables (fo : nat -> R) (sv : rbuf).
Let maxs := fun b h w => DistAttnModel.r_max (sv b h w).
Hypothesis HM : forall b h w m, b < B -> h < Ho -> w < Wo -> maxs b h w = Some m -> the_max fo ((b * Ho + h) * Wo + w) = m.
Hypothesis HN : forall b h w, b < B -> h < Ho -> w < Wo -> maxs b h w <> None.
Lemma up_trips : forall s, In s visits -> forall b t, b < B -> In t (chunk_trips (offsets 0 P) (columns P) H (nth (fst s) (da_lon_in o) 0) (nth (fst s) (split_starts (da_lon_in o)) 0) Wo (na_Wo L) (na_Wo L / na_Wi L)) -> maxs b (fst (snd t)) (snd (snd t)) <> None.
Proof. intros s Hin b t Hb Ht. destruct (HV s Hin) as (W1 & _). destruct (trips_ok H _ Ho Wo (na_Wo L) (na_Wo L / na_Wi L) _ P W1 HP t Ht) as [T1 T2]. now apply HN. Qed.
Theorem up_rank_stats : chain_ends (up_p1_launches dev o p a qn dyn B Ck Cv fo) visits (fun _ => 0%R) (fun bo => stats_hold B Ho Wo Ck bo (bwd_state o p a visits qn dyn sv B)).
Proof.
  unfold bwd_state. cbv zeta. rewrite Eup, up_D4. fold L Ho Wo lat0 maxs.
  assert (G : forall l st buf, (forall s, In s l -> In s visits) -> stats_hold B Ho Wo Ck st buf -> chain_ends (up_p1_launches dev o p a qn dyn B Ck Cv fo) l st (fun bo => stats_hold B Ho Wo Ck bo
    (fold_left (fun buf s => bring_step_up Ck (dimsz (snd (snd s)) 3) (na_quad L) (da_roff o) (da_col o) (dimsz (fst (snd s)) 1) (dimsz (fst (snd s)) 2) (nth (fst s) (split_starts (da_lon_in o)) 0) lat0 Wo (hwc (fst (snd s))) (hwc (snd (snd s))) (hwc qn) (hwc dyn) (na_Wo L) (na_Wo L / na_Wi L) maxs B buf) l buf))).
  { induction l as [|s l IH]; intros st buf Hin HS; [exact HS|]. cbn [chain_ends fold_left]. assert (Hv := Hin s (or_introl eq_refl)). specialize (H1 fo s Hv). destruct (up_p1_launches _ _ _ _ _ _ _ _ _ fo s) as [k|] eqn:Ek; [|contradiction].
    destruct (HV s Hv) as (W1 & _). destruct (up_dims s Hv) as (D1 & D2 & D3). unfold up_p1_launches in Ek. cbv zeta in Ek. fold L Ho Wo lat0 in Ek. rewrite D1, D2, Er, Ec in Ek.
    eapply ends_mono; [|intros rg sh; eapply (pass1 B Ck Cv H _ Ho Wo (na_Wo L) (na_Wo L / na_Wi L) _ (na_Hi L) lat0 P _ _ _ (na_quad L) _ _ _ W1 HP HI (up_Lk s Hv) (up_Lv s Hv) up_Lq (flat dyn) (hwc dyn) up_Ld maxs (fun c => the_max fo c) HM (up_trips s Hv) dev k st buf Ek HS rg sh)].
    cbv beta. intros bo Hbo. apply IH; [intros; apply Hin; now right|]. rewrite D1, D2, D3, Er, Ec. exact Hbo. }
  apply G; [auto|]. intros b h w _ _ _. cbv zeta. split; [reflexivity|]. intros x _. split; reflexivity.
Qed.
End Saved.

Definition up_rank_goal (own : tensor R * tensor R) (fo bo : nat -> R) (gs : list (nat -> R)) : Prop :=
  forall dk dv dq, ring_bwd_local o p a visits own q dy = Some (dk, dv, dq) ->
  let Wt := sum_list (da_lon_in o) in let f := up_full_of o B Ck Cv H visits gs in
  shp dk = [B; H; Wt; Ck] /\ shp dv = [B; H; Wt; Cv] /\ shp dq = [B; Ck; Ho; Wo] /\
  same4 B H Wt Ck (hwc dk) (fst f) /\ same4 B H Wt Cv (hwc dv) (snd f) /\ same4 B Ho Wo Ck (cf dq) (up_dq_of o p a B Ck fo bo).
Theorem up_rank_backward : forall own Wx, shp (fst own) = [B; H; Wx; Ck] -> shp (snd own) = [B; H; Wx; Cv] -> ring_bwd_local o p a visits own q dy <> None ->
  up_round_ends ws cells (up_fwd_launches dev ninf o p a qn B Ck Cv) visits (up_empty_bufs ninf o p a B) (fun fo =>
  chain_ends (up_p1_launches dev o p a qn dyn B Ck Cv fo) visits (fun _ => 0%R) (fun bo =>
  up_each_ends (up_p2_launches dev o p a qn dyn B Ck Cv fo bo) visits (up_rank_goal own fo bo))).
Proof.
  intros own Wx So1 So2 Nn. eapply up_round_mono; [|exact up_rank_state]. cbv beta. intros fo HFo.
  set (sv := ring_state o p a visits qn B) in *. set (st := bwd_state o p a visits qn dyn sv B).
  set (sums := fun b h w => DistAttnModel.r_sum (sv b h w)). set (maxs := fun b h w => DistAttnModel.r_max (sv b h w)). set (inorm := fun b h w => (b_int (st b h w) * (1 / DistAttnModel.r_sum (sv b h w)))%R).
  assert (D0 : dimsz q 0 = B) by (unfold dimsz; rewrite Sq; reflexivity). assert (D1 : dimsz (fst own) 3 = Ck) by (unfold dimsz; rewrite So1; reflexivity). assert (D2 : dimsz (snd own) 3 = Cv) by (unfold dimsz; rewrite So2; reflexivity). assert (D3 : dimsz (fst own) 1 = H) by (unfold dimsz; rewrite So1; reflexivity).
  assert (Loc : exists dqt, to_nchw (mk_hwc B Ho Wo Ck (fun b h w c => let i := (1 / DistAttnModel.r_sum (sv b h w))%R in (i * i * (DistAttnModel.r_sum (sv b h w) * b_kvw (st b h w) c - b_int (st b h w) * b_k (st b h w) c))%R)) = Some dqt /\
    ring_bwd_local o p a visits own q dy = Some (mk_hwc B H (sum_list (da_lon_in o)) Ck (fst (bwd_full o p a visits qn dyn sv inorm B)), mk_hwc B H (sum_list (da_lon_in o)) Cv (snd (bwd_full o p a visits qn dyn sv inorm B)), dqt) /\
    forallb (fun t => let '(b, h, w) := t in nz (DistAttnModel.r_sum (sv b h w))) (cells3 Ho Wo B) = true).
  { unfold ring_bwd_local in Nn |- *. rewrite D0, D1, D2, D3, Eq, Ed in *. fold Ho Wo in Nn |- *. destruct (shape_eqb (shp dy) [B; Cv; Ho; Wo]) eqn:Es; [|contradiction Nn; reflexivity]. cbn [guard bindo] in Nn |- *. fold sv in Nn |- *.
    destruct (forallb _ _) eqn:Ef in Nn |- *; [|contradiction Nn; reflexivity]. cbn [guard bindo] in Nn |- *. fold st in Nn |- *. fold inorm in Nn |- *. destruct (to_nchw _) as [t|] eqn:Et in Nn |- *; [|contradiction Nn; reflexivity]. exists t. split; [reflexivity|]. split; [reflexivity|]. first [exact Ef|reflexivity]. }
  destruct Loc as (dqt & Edq & Eloc & Enz). clear Nn.
  assert (NZ : forall b h w, b < B -> h < Ho -> w < Wo -> DistAttnModel.r_sum (sv b h w) <> 0%R).
  { intros b h w Hb Hh Hw E0. rewrite forallb_forall in Enz. specialize (Enz (b, h, w) ltac:(apply cells3_in; auto)). cbv beta iota in Enz. unfold nz in Enz. destruct (Req_EM_T _ _); [discriminate|contradiction]. }
  assert (HN : forall b h w, b < B -> h < Ho -> w < Wo -> maxs b h w <> None) by (intros b h w Hb Hh Hw E0; apply (NZ b h w Hb Hh Hw); now apply (up_state_seen b h w)).
  assert (HM : forall b h w m, b < B -> h < Ho -> w < Wo -> maxs b h w = Some m -> the_max fo ((b * Ho + h) * Wo + w) = m) by (intros b h w m Hb Hh Hw E0; destruct (HFo b h w Hb Hh Hw) as (A1 & _); unfold maxs in E0; rewrite A1, E0; reflexivity).
  assert (HsA : lays1 B Ho Wo (fun c => CudaRescaleSpec.the_sum cells fo 0 c) sums) by (intros b h w Hb Hh Hw; destruct (HFo b h w Hb Hh Hw) as (_ & A2 & _); exact A2).
  eapply chain_mono; [|exact (up_rank_stats fo sv HM HN)]. cbv beta. fold st. intros bo HBo.
  assert (HiA : lays1 B Ho Wo (up_inorm_of o p a B fo bo) inorm).
  { intros b h w Hb Hh Hw. unfold up_inorm_of, up_int, inorm. fold Ho Wo cells. destruct (HFo b h w Hb Hh Hw) as (_ & A2 & _). destruct (HBo b h w Hb Hh Hw) as (B3 & _). fold cells in A2. now rewrite A2, B3. }
  set (step := fun s : nat * (tensor R * tensor R) => dkv_step_up Ck Cv (na_quad L) (da_roff o) (da_col o) H (nth (fst s) (da_lon_in o) 0) (nth (fst s) (split_starts (da_lon_in o)) 0) lat0 Wo (hwc (fst (snd s))) (hwc (snd (snd s))) (hwc qn) (hwc dyn) (na_Wo L) (na_Wo L / na_Wi L) sums maxs inorm B).
  apply (up_each_of _ _ (fun s g => let w := nth (fst s) (da_lon_in o) 0 in lays B H w Ck g (fst (step s)) /\ lays B H w Cv (fun x => g (B * H * w * Ck + x)) (snd (step s)))).
  - intros s Hin. destruct (HV s Hin) as (W1 & _). destruct (up_dims s Hin) as (E1 & E2 & E3). specialize (H2 fo bo s Hin). destruct (up_p2_launches _ _ _ _ _ _ _ _ _ fo bo s) as [k|] eqn:Ek; [|contradiction]. exists k. split; [reflexivity|].
    unfold up_p2_launches in Ek. cbv zeta in Ek. fold L Ho Wo lat0 cells in Ek. rewrite E1, E2, Er, Ec in Ek. intros rg sh. unfold step. rewrite Er, Ec.
    exact (pass2 B Ck Cv H _ Ho Wo (na_Wo L) (na_Wo L / na_Wi L) _ (na_Hi L) lat0 P _ _ _ (na_quad L) _ _ _ W1 HP HI (up_Lk s Hin) (up_Lv s Hin) up_Lq (flat dyn) (hwc dyn) up_Ld maxs (fun c => the_max fo c) HM (up_trips sv HN s Hin) sums inorm _ _ HsA HiA dev k Ek rg sh).
  - intros gs HG dk dv dq E. rewrite Eloc in E. injection E as <- <- <-. cbv zeta. split; [reflexivity|]. split; [reflexivity|].
    match type of Edq with to_nchw ?t = _ => destruct (to_nchw_val t B Ck Ho Wo eq_refl) as (r & Er' & Sr & Vr) end. assert (r = dqt) by congruence. subst r. split; [exact Sr|].
    assert (Full : forall l gs acc acc' , Forall2 (fun s g => let w := nth (fst s) (da_lon_in o) 0 in lays B H w Ck g (fst (step s)) /\ lays B H w Cv (fun x => g (B * H * w * Ck + x)) (snd (step s))) l gs ->
      same4 B H (sum_list (da_lon_in o)) Ck (fst acc) (fst acc') -> same4 B H (sum_list (da_lon_in o)) Cv (snd acc) (snd acc') ->
      let r := fold_left (fun acc s => (add_cols (nth (fst s) (split_starts (da_lon_in o)) 0) (nth (fst s) (da_lon_in o) 0) (fst (step s)) (fst acc), add_cols (nth (fst s) (split_starts (da_lon_in o)) 0) (nth (fst s) (da_lon_in o) 0) (snd (step s)) (snd acc))) l acc in
      let r' := fold_left (fun acc (x : nat * (tensor R * tensor R) * (nat -> R)) => let s := fst (fst x) in let g := snd x in let lo := nth s (split_starts (da_lon_in o)) 0 in let w := nth s (da_lon_in o) 0 in
        (add_cols lo w (fun b h wl c => g (((b * H + h) * w + wl) * Ck + c)) (fst acc), add_cols lo w (fun b h wl c => g (B * H * w * Ck + (((b * H + h) * w + wl) * Cv + c))) (snd acc))) (combine l gs) acc' in
      same4 B H (sum_list (da_lon_in o)) Ck (fst r) (fst r') /\ same4 B H (sum_list (da_lon_in o)) Cv (snd r) (snd r')).
    { clearbody step. clear. induction l as [|s l IH]; intros gs acc acc' HG A1 A2; inversion HG as [|? g ? gs' [G1 G2] HG']; subst; [split; assumption|]. cbv zeta. cbn [fold_left combine]. apply IH; [assumption| |]; cbn [fst snd]; intros b h w c Hb Hh Hw Hc; unfold add_cols; (destruct (_ && _) eqn:Ei; [|auto]); apply andb_true_iff in Ei; destruct Ei as [I1 I2]; apply Nat.leb_le in I1; apply Nat.ltb_lt in I2.
      - rewrite A1 by auto. f_equal. symmetry. exact (G1 b h (w - nth (fst s) (split_starts (da_lon_in o)) 0) c Hb Hh ltac:(lia) Hc).
      - rewrite A2 by auto. f_equal. symmetry. exact (G2 b h (w - nth (fst s) (split_starts (da_lon_in o)) 0) c Hb Hh ltac:(lia) Hc). }
    assert (Bw : bwd_full o p a visits qn dyn sv inorm B = fold_left (fun acc s => (add_cols (nth (fst s) (split_starts (da_lon_in o)) 0) (nth (fst s) (da_lon_in o) 0) (fst (step s)) (fst acc), add_cols (nth (fst s) (split_starts (da_lon_in o)) 0) (nth (fst s) (da_lon_in o) 0) (snd (step s)) (snd acc))) visits (fld0, fld0)).
    { unfold bwd_full. cbv zeta. rewrite Eup, up_D4. fold Ho Wo L lat0 sums maxs. generalize (fld0, fld0). pose proof up_dims as Dm.
      unfold step. clearbody sums maxs inorm. clear - Dm. induction visits as [|s l IH]; intros acc; [reflexivity|]. cbn [fold_left]. rewrite IH by (intros; apply Dm; now right). destruct (Dm s (or_introl eq_refl)) as (-> & -> & ->). reflexivity. }
    destruct (Full visits gs (fld0, fld0) (fld0, fld0) HG) as [F1 F2]; [intros b h w c _ _ _ _; reflexivity|intros b h w c _ _ _ _; reflexivity|]. rewrite <- Bw in F1, F2.
    split; [exact F1|]. split; [exact F2|]. intros b h w c Hb Hh Hw Hc. rewrite Vr. unfold hwc, mk_hwc, up_dq_of, up_int, up_k, up_kvw. cbn [val nth]. fold Ho Wo cells.
    destruct (HFo b h w Hb Hh Hw) as (_ & A2 & _). destruct (HBo b h w Hb Hh Hw) as (B3 & B4). fold cells in A2, B4. destruct (B4 c Hc) as [B5 B6]. rewrite A2, B3, B5, B6. reflexivity.
Qed.
End Rank.
