(** Forward and backward pass of a rank on the GPU. *)
From Coq Require Import List Arith Lia Bool ZArith Reals Lra Permutation.
From Verif Require Import TensorModel TensorProofs BigSum AttnModel AttnLayerModel AttnLayerProofs AttnCoreProofs DistAttnModel DistAttnBwdModel DistAttnProofs GpuModel GpuSpec GpuProofs GpuProofs2 GpuRwModel GpuRwSpec WarpProofs WarpKernelProofs CudaAttnUpProofs3 CudaDiscoModel CudaAttnModel CudaAttnSpec CudaAttnProofs CudaUtilsModel CudaRescaleSpec CudaRingUpSpec CudaRingSpec CudaRingModel CudaRingProofs8 CudaRingBwdModel CudaRingBwdSpec CudaRingBwdProofs5 CudaRingBwdProofs10 CudaRankModel CudaRankSpec.
From Verif Require Import AttnSpec.
Import ListNotations.
Local Open Scope nat_scope.

Lemma rings_round : forall A ws cells (ks : chunk -> option ring_launches) (ch : A -> chunk) l st Q, rings_end ws cells ks (map ch l) st Q -> round_ends ws cells (fun s => ks (ch s)) l st Q.
Proof. intros A ws cells ks ch. induction l as [|c l IH]; intros st Q H; [exact H|]. cbn [map rings_end round_ends] in *. destruct (ks (ch c)) as [k|]; [|exact H]. eapply ring_ends_mono; [|exact H]. cbv beta. intros o. apply IH. Qed.
Lemma round_mono : forall A ws cells (ks : A -> option ring_launches) l st (Q Q' : (nat -> R) -> Prop), (forall o, Q o -> Q' o) -> round_ends ws cells ks l st Q -> round_ends ws cells ks l st Q'.
Proof. intros A ws cells ks. induction l as [|c l IH]; intros st Q Q' HQ H; [now apply HQ|]. cbn [round_ends] in *. destruct (ks c) as [k|]; [|exact H]. eapply ring_ends_mono; [|exact H]. cbv beta. intros o. now apply IH. Qed.
Lemma pass2_mono : forall k st (Q Q' : (nat -> R) -> Prop), (forall o, Q o -> Q' o) -> pass2_ends k st Q -> pass2_ends k st Q'.
Proof.
  intros [l s] st Q Q' HQ H. unfold pass2_ends in *. cbn [fst snd] in *. assert (HS : forall o, if_any ends s o Q -> if_any ends s o Q').
  { intros o Ho. destruct s as [s|]; cbn [if_any] in *; [|now apply HQ]. intros rg sh. eapply settles_impl; [apply Ho|exact HQ]. }
  destruct l as [l|]; cbn [if_any] in *; [|now apply HS]. intros rg sh. eapply settles_impl; [apply H|exact HS].
Qed.
Lemma each_of : forall A (ks : A -> option (option kernel * option kernel)) (Rl : A -> (nat -> R) -> Prop) l (Q : list (nat -> R) -> Prop),
  (forall c, In c l -> exists k, ks c = Some k /\ pass2_ends k (fun _ => 0%R) (Rl c)) -> (forall gs, Forall2 Rl l gs -> Q gs) -> each_ends ks l Q.
Proof.
  intros A ks Rl. induction l as [|c l IH]; intros Q HK HQ; [apply HQ; constructor|]. cbn [each_ends]. destruct (HK c (or_introl eq_refl)) as (k & -> & Hk). eapply pass2_mono; [|exact Hk]. cbv beta. intros g Hg. apply IH; [intros; apply HK; now right|]. intros gs Hgs. apply HQ. now constructor.
Qed.
(** a cell without a maximum has seen no entry *)
Definition seen (st : rst) : Prop := DistAttnModel.r_max st = None -> DistAttnModel.r_sum st = 0%R.
Lemma seen_visits : forall Ck quad H W lon_lo lat0 kf vf qf Wi ps b h w l st, seen st -> seen (fold_left (ring_visit Ck quad H W lon_lo lat0 kf vf qf Wi ps b h w) l st).
Proof.
  intros until l. induction l as [|c l IH]; intros st Hs; [exact Hs|]. cbn [fold_left]. apply IH. unfold ring_visit. cbv zeta. destruct (_ || _); [exact Hs|]. destruct (_ || _); [exact Hs|]. intros E. discriminate E.
Qed.

Section Rank.
Variables (ws : nat) (dev : device) (vec old : bool) (ninf : R) (thres : nat -> nat) (o : dattn) (p a : nat) (visits : list (nat * (tensor R * tensor R))) (B Ck Cv H n mx md : nat) (P : pattern) (q dy qn dyn : tensor R).
Let L := da_L o.
Let Ho := nth p (da_lat_out o) 0.
Let Wo := nth a (da_lon_out o) 0.
Let cells := B * Ho * Wo.
Let lat0 := (Z.of_nat (nth p (split_starts (da_lat_in o)) 0%nat) - Z.of_nat (da_r_lat o))%Z.
Hypotheses (Eup : da_up o = false) (Er : da_roff o = offsets 0 P) (Ec : da_col o = columns P) (HP : pattern_ok P Ho (na_Hi L * na_Wi L)) (HWi : 1 <= na_Wi L).
Hypotheses (Hp : Permutation (da_row o) (seq 0 Ho)) (Hs : Sorted.StronglySorted (fun x y => length (nth y P []) <= length (nth x P [])) (da_row o)) (Esp : split_cpu thres (da_row o) (da_roff o) Ho = (n, mx, md)).
Hypotheses (HC1 : 1 <= Cv) (HC2 : Cv <= 16 * 1024) (Hwv : n = 0 \/ block_width Cv <= ws) (Sq : shp q = [B; Ck; Ho; Wo]) (Eq : to_nhwc q = Some qn).
Hypothesis HV : forall s, In s visits -> shp (fst (snd s)) = [B; H; nth (fst s) (da_lon_in o) 0; Ck] /\ shp (snd (snd s)) = [B; H; nth (fst s) (da_lon_in o) 0; Cv] /\
  scores_above ninf B H (nth (fst s) (da_lon_in o) 0) Ho Wo Ck (hwc (fst (snd s))) (hwc qn).
Hypothesis HF : forall s, In s visits -> fwd_launches dev vec ninf o p a qn B Ck Cv n mx md s <> None.

Lemma Sqn : shp qn = [B; Ho; Wo; Ck].
Proof. destruct (to_nhwc_val q B Ck Ho Wo Sq) as (r & E & S & _). congruence. Qed.
Theorem rank_state : round_ends ws cells (fwd_launches dev vec ninf o p a qn B Ck Cv n mx md) visits (empty_bufs ninf o p a B) (fun fo => all_hold B Ho Wo Cv ninf fo (ring_state o p a visits qn B)).
Proof.
  set (ch := fun s : nat * (tensor R * tensor R) => let k := fst (snd s) in let v := snd (snd s) in mkChunk (dimsz k 1) (dimsz k 2) (nth (fst s) (split_starts (da_lon_in o)) 0) lat0 P (flat k) (flat v) (hwc k) (hwc v)).
  assert (Q := layer_ring ws dev vec ninf thres o p a visits qn B Ck Cv P (na_Hi L) n mx md Eup Er Ec HP HWi Hp Hs Esp HC1 HC2 Hwv Sqn). cbv zeta in Q. fold Ho Wo L in Q.
  apply (rings_round _ ws cells (fun c => ring_fwd dev vec ninf B Ck Cv (c_H c) (c_W c) (na_Wi L) (na_Wi L / na_Wo L) (c_lon c) (c_lat c) Ho Wo (na_Hi L) (c_kA c) (c_vA c) (flat qn) (na_quad L) (da_row o) (da_roff o) (da_col o) n mx md) ch visits).
  apply Q. intros s Hin. destruct (HV s Hin) as (S1 & S2 & S3). split; [|exact (HF s Hin)]. exists H, (nth (fst s) (da_lon_in o) 0). auto.
Qed.
Theorem rank_forward : match visits with [] => False | _ => True end -> forall y, ring_output o p a visits q = Some y ->
  round_ends ws cells (fwd_launches dev vec ninf o p a qn B Ck Cv n mx md) visits (empty_bufs ninf o p a B) (fun fo => shp y = [B; Cv; Ho; Wo] /\ same4 B Ho Wo Cv (cf y) (y_of o p a B Cv fo)).
Proof.
  intros Hne y E. unfold ring_output in E. rewrite Eq in E. cbn [bindo] in E.
  assert (D0 : dimsz q 0 = B) by (unfold dimsz; rewrite Sq; reflexivity). rewrite D0 in E. fold Ho Wo in E.
  assert (DV : match visits with (_, (_, v)) :: _ => dimsz v 3 | [] => 0 end = Cv). { destruct visits as [|[s0 [k v]] l]; [destruct Hne|]. destruct (HV (s0, (k, v)) (or_introl eq_refl)) as (_ & S2 & _). cbn [fst snd] in S2. unfold dimsz. rewrite S2. reflexivity. }
  rewrite DV in E. destruct (guard _); [|discriminate E]. cbn [bindo] in E. destruct (to_nchw_val (mk_hwc B Ho Wo Cv (fun b h w c => r_acc (ring_state o p a visits qn B b h w) c / DistAttnModel.r_sum (ring_state o p a visits qn B b h w))%R) B Cv Ho Wo eq_refl) as (r & Er' & Sr & Vr).
  assert (Ey : y = r) by congruence. subst r. eapply round_mono; [|exact rank_state]. cbv beta. intros fo HO. split; [exact Sr|]. intros b h w c Hb Hh Hw Hc. rewrite Vr. unfold hwc, mk_hwc, y_of. cbn [val nth]. fold Ho Wo cells.
  destruct (HO b h w Hb Hh Hw) as (_ & A2 & A3). fold cells in A2, A3. rewrite (A3 c Hc), A2. reflexivity.
Qed.

Hypotheses (Hwk : n = 0 \/ block_width Ck <= ws) (Sd : shp dy = [B; Cv; Ho; Wo]) (Ed : to_nhwc dy = Some dyn).
Hypothesis (H1 : forall s, In s visits -> p1_launches dev vec ninf o p a qn dyn B Ck Cv n mx md s <> None).
Hypothesis (H2 : forall fo bo s, In s visits -> p2_launches dev vec old o p a qn dyn B Ck Cv n mx md fo bo s <> None).
Hypothesis (HI : rows_in_chunk H (na_Wi L) lat0 P).
Lemma Sdn : shp dyn = [B; Ho; Wo; Cv].
Proof. destruct (to_nhwc_val dy B Cv Ho Wo Sd) as (r & E & S & _). congruence. Qed.
Theorem rank_stats : forall sv, round_ends ws cells (p1_launches dev vec ninf o p a qn dyn B Ck Cv n mx md) visits (empty_bufs ninf o p a B) (fun bo => all_bhold B Ho Wo Ck ninf bo (bwd_state o p a visits qn dyn sv B)).
Proof.
  intros sv. set (ch := fun s : nat * (tensor R * tensor R) => let k := fst (snd s) in let v := snd (snd s) in mkChunk (dimsz k 1) (dimsz k 2) (nth (fst s) (split_starts (da_lon_in o)) 0) lat0 P (flat k) (flat v) (hwc k) (hwc v)).
  assert (Q := pass1_layer ws dev vec ninf thres o p a visits qn dyn sv B Ck Cv P (na_Hi L) n mx md Eup Er Ec HP HWi Hp Hs Esp Hwk Sqn Sdn). cbv zeta in Q. fold Ho Wo L in Q.
  apply (rings_round _ ws cells (fun c => ring_pass1 dev vec ninf B Ck Cv (c_H c) (c_W c) (na_Wi L) (na_Wi L / na_Wo L) (c_lon c) (c_lat c) Ho Wo (na_Hi L) (c_kA c) (c_vA c) (flat qn) (flat dyn) (na_quad L) (da_row o) (da_roff o) (da_col o) n mx md) ch visits).
  apply Q. intros s Hin. destruct (HV s Hin) as (S1 & S2 & S3). split; [|exact (H1 s Hin)]. exists H, (nth (fst s) (da_lon_in o) 0). auto.
Qed.
Lemma state_seen : forall b h w, b < B -> h < Ho -> w < Wo -> seen (ring_state o p a visits qn B b h w).
Proof.
  intros b h w Hb Hh Hw. unfold ring_state. cbv zeta. rewrite Eup. fold L Ho Wo.
  assert (G : forall l (buf : rbuf), seen (buf b h w) -> seen (fold_left (fun buf s => ring_step (dimsz qn 3) (na_quad L) (da_roff o) (da_col o) (dimsz (fst (snd s)) 1) (dimsz (fst (snd s)) 2) (nth (fst s) (split_starts (da_lon_in o)) 0) lat0 Ho Wo (hwc (fst (snd s))) (hwc (snd (snd s))) (hwc qn) (na_Wi L) (na_Wi L / na_Wo L) (da_row o) B buf) l buf b h w)).
  { induction l as [|s l IH]; intros buf Hbf; [exact Hbf|]. cbn [fold_left]. apply IH. rewrite ring_step_cell by auto. now apply seen_visits. }
  apply G. intros _. reflexivity.
Qed.
Definition rank_goal (own : tensor R * tensor R) (fo bo : nat -> R) (gs : list (nat -> R)) : Prop :=
  forall dk dv dq, ring_bwd_local o p a visits own q dy = Some (dk, dv, dq) ->
  let Wt := sum_list (da_lon_in o) in let f := full_of o B Ck Cv H visits gs in
  shp dk = [B; H; Wt; Ck] /\ shp dv = [B; H; Wt; Cv] /\ shp dq = [B; Ck; Ho; Wo] /\
  same4 B H Wt Ck (hwc dk) (fst f) /\ same4 B H Wt Cv (hwc dv) (snd f) /\ same4 B Ho Wo Ck (cf dq) (dq_of o p a B Ck fo bo).
Theorem rank_backward : forall own Wx, shp (fst own) = [B; H; Wx; Ck] -> shp (snd own) = [B; H; Wx; Cv] -> ring_bwd_local o p a visits own q dy <> None ->
  round_ends ws cells (fwd_launches dev vec ninf o p a qn B Ck Cv n mx md) visits (empty_bufs ninf o p a B) (fun fo =>
  round_ends ws cells (p1_launches dev vec ninf o p a qn dyn B Ck Cv n mx md) visits (empty_bufs ninf o p a B) (fun bo =>
  each_ends (p2_launches dev vec old o p a qn dyn B Ck Cv n mx md fo bo) visits (rank_goal own fo bo))).
Proof.
  intros own Wx So1 So2 Nn. eapply round_mono; [|exact rank_state]. cbv beta. intros fo HFo. eapply round_mono; [|exact (rank_stats (ring_state o p a visits qn B))]. cbv beta. intros bo HBo.
  set (sv := ring_state o p a visits qn B) in *. set (st := bwd_state o p a visits qn dyn sv B) in *.
  set (sums := fun b h w => DistAttnModel.r_sum (sv b h w)). set (maxs := fun b h w => DistAttnModel.r_max (sv b h w)). set (inorm := fun b h w => (b_int (st b h w) * (1 / DistAttnModel.r_sum (sv b h w)))%R).
  (* the local pass as the model states it *)
  assert (D0 : dimsz q 0 = B) by (unfold dimsz; rewrite Sq; reflexivity). assert (D1 : dimsz (fst own) 3 = Ck) by (unfold dimsz; rewrite So1; reflexivity). assert (D2 : dimsz (snd own) 3 = Cv) by (unfold dimsz; rewrite So2; reflexivity). assert (D3 : dimsz (fst own) 1 = H) by (unfold dimsz; rewrite So1; reflexivity).
  assert (Loc : exists dqt, to_nchw (mk_hwc B Ho Wo Ck (fun b h w c => let i := (1 / DistAttnModel.r_sum (sv b h w))%R in (i * i * (DistAttnModel.r_sum (sv b h w) * b_kvw (st b h w) c - b_int (st b h w) * b_k (st b h w) c))%R)) = Some dqt /\
    ring_bwd_local o p a visits own q dy = Some (mk_hwc B H (sum_list (da_lon_in o)) Ck (fst (bwd_full o p a visits qn dyn sv inorm B)), mk_hwc B H (sum_list (da_lon_in o)) Cv (snd (bwd_full o p a visits qn dyn sv inorm B)), dqt) /\
    forallb (fun t => let '(b, h, w) := t in nz (DistAttnModel.r_sum (sv b h w))) (cells3 Ho Wo B) = true).
  { unfold ring_bwd_local in Nn |- *. rewrite D0, D1, D2, D3, Eq, Ed in *. fold Ho Wo in Nn |- *. destruct (shape_eqb (shp dy) [B; Cv; Ho; Wo]) eqn:Es; [|contradiction Nn; reflexivity]. cbn [guard bindo] in Nn |- *. fold sv in Nn |- *.
    destruct (forallb _ _) eqn:Ef in Nn |- *; [|contradiction Nn; reflexivity]. cbn [guard bindo] in Nn |- *. fold st in Nn |- *. fold inorm in Nn |- *. destruct (to_nchw _) as [t|] eqn:Et in Nn |- *; [|contradiction Nn; reflexivity]. exists t. split; [reflexivity|]. split; [reflexivity|]. first [exact Ef|reflexivity]. }
  destruct Loc as (dqt & Edq & Eloc & Enz). clear Nn.
  assert (NZ : forall b h w, b < B -> h < Ho -> w < Wo -> DistAttnModel.r_sum (sv b h w) <> 0%R).
  { intros b h w Hb Hh Hw E0. rewrite forallb_forall in Enz. specialize (Enz (b, h, w) ltac:(apply cells3_in; auto)). cbv beta iota in Enz. unfold nz in Enz. destruct (Req_EM_T _ _); [discriminate|contradiction]. }
  assert (HsA : lays1 B Ho Wo (fun c => CudaRescaleSpec.the_sum cells fo 0 c) sums) by (intros b h w Hb Hh Hw; destruct (HFo b h w Hb Hh Hw) as (_ & A2 & _); exact A2).
  assert (HmA : lays_max B Ho Wo (fun c => the_max fo c) maxs).
  { intros b h w Hb Hh Hw. destruct (HFo b h w Hb Hh Hw) as (A1 & _). unfold maxs. destruct (DistAttnModel.r_max (sv b h w)) as [m|] eqn:Em; [now rewrite A1|]. exfalso. apply (NZ b h w Hb Hh Hw). now apply (state_seen b h w Hb Hh Hw). }
  assert (HiA : lays1 B Ho Wo (inorm_of o p a B fo bo) inorm).
  { intros b h w Hb Hh Hw. unfold inorm_of, inorm. fold Ho Wo cells. destruct (HFo b h w Hb Hh Hw) as (_ & A2 & _). destruct (HBo b h w Hb Hh Hw) as (_ & _ & B3 & _). fold cells in A2, B3. now rewrite A2, B3. }
  destruct (layer_split thres P Ho _ (da_row o) n mx md HP Hp Hs ltac:(rewrite <- Er; exact Esp)) as [Hl Hn].
  assert (Lq : lays B Ho Wo Ck (flat qn) (hwc qn)) by (intros b h w c Hb Hh Hww Hc; exact (flat4 qn B Ho Wo Ck b h w c Sqn Hb Hh Hww Hc)).
  assert (Ld : lays B Ho Wo Cv (flat dyn) (hwc dyn)) by (intros b h w c Hb Hh Hww Hc; exact (flat4 dyn B Ho Wo Cv b h w c Sdn Hb Hh Hww Hc)).
  set (step := fun s : nat * (tensor R * tensor R) => dkv_step Ck Cv (na_quad L) (da_roff o) (da_col o) H (nth (fst s) (da_lon_in o) 0) (nth (fst s) (split_starts (da_lon_in o)) 0) lat0 Ho Wo (hwc (fst (snd s))) (hwc (snd (snd s))) (hwc qn) (hwc dyn) (na_Wi L) (na_Wi L / na_Wo L) (da_row o) sums maxs inorm B).
  apply (each_of _ _ (fun s g => grads_add B H (nth (fst s) (da_lon_in o) 0) Ck Cv (fun _ => 0%R) g (fst (step s)) (snd (step s)))).
  - intros s Hin. destruct (HV s Hin) as (S1 & S2 & _). specialize (H2 fo bo s Hin). destruct (p2_launches _ _ _ _ _ _ _ _ _ _ _ _ _ _ fo bo s) as [k|] eqn:Ek; [|contradiction]. exists k. split; [reflexivity|].
    unfold p2_launches in Ek. cbv zeta in Ek. fold L Ho Wo cells in Ek.
    assert (E1 : dimsz (fst (snd s)) 1 = H) by (unfold dimsz; rewrite S1; reflexivity). assert (E2 : dimsz (fst (snd s)) 2 = nth (fst s) (da_lon_in o) 0) by (unfold dimsz; rewrite S1; reflexivity). rewrite E1, E2, Er, Ec in Ek.
    unfold step. rewrite Er, Ec. eapply (pass2_step vec old B Ck Cv H (nth (fst s) (da_lon_in o) 0) (na_Wi L) (na_Wi L / na_Wo L) (nth (fst s) (split_starts (da_lon_in o)) 0) lat0 Ho Wo (na_Hi L) P (flat (fst (snd s))) (flat (snd (snd s))) (flat qn) (flat dyn) (na_quad L)); eauto.
    + intros b h w c Hb Hh Hww Hc. exact (flat4 _ B H _ Ck b h w c S1 Hb Hh Hww Hc).
    + intros b h w c Hb Hh Hww Hc. exact (flat4 _ B H _ Cv b h w c S2 Hb Hh Hww Hc).
  - intros gs HG dk dv dq E. rewrite Eloc in E. injection E as <- <- <-. cbv zeta. split; [reflexivity|]. split; [reflexivity|].
    match type of Edq with to_nchw ?t = _ => destruct (to_nchw_val t B Ck Ho Wo eq_refl) as (r & Er' & Sr & Vr) end. assert (r = dqt) by congruence. subst r. split; [exact Sr|].
    assert (Full : forall l gs acc acc' , (forall s, In s l -> In s visits) -> Forall2 (fun s g => grads_add B H (nth (fst s) (da_lon_in o) 0) Ck Cv (fun _ => 0%R) g (fst (step s)) (snd (step s))) l gs ->
      same4 B H (sum_list (da_lon_in o)) Ck (fst acc) (fst acc') -> same4 B H (sum_list (da_lon_in o)) Cv (snd acc) (snd acc') ->
      let r := fold_left (fun acc s => (add_cols (nth (fst s) (split_starts (da_lon_in o)) 0) (nth (fst s) (da_lon_in o) 0) (fst (step s)) (fst acc), add_cols (nth (fst s) (split_starts (da_lon_in o)) 0) (nth (fst s) (da_lon_in o) 0) (snd (step s)) (snd acc))) l acc in
      let r' := fold_left (fun acc (x : nat * (tensor R * tensor R) * (nat -> R)) => let s := fst (fst x) in let g := snd x in let lo := nth s (split_starts (da_lon_in o)) 0 in let w := nth s (da_lon_in o) 0 in
        (add_cols lo w (fun b h wl c => g (((b * H + h) * w + wl) * Ck + c)) (fst acc), add_cols lo w (fun b h wl c => g (B * H * w * Ck + (((b * H + h) * w + wl) * Cv + c))) (snd acc))) (combine l gs) acc' in
      same4 B H (sum_list (da_lon_in o)) Ck (fst r) (fst r') /\ same4 B H (sum_list (da_lon_in o)) Cv (snd r) (snd r')).
    { clear. induction l as [|s l IH]; intros gs acc acc' Hin HG A1 A2; inversion HG; subst; [split; assumption|]. cbv zeta. cbn [fold_left combine]. apply IH; [intros; apply Hin; now right|assumption| |]; cbn [fst snd]; intros b h w c Hb Hh Hw Hc; unfold add_cols; (destruct (_ && _) eqn:Ei; [|auto]); apply andb_true_iff in Ei; destruct Ei as [I1 I2]; apply Nat.leb_le in I1; apply Nat.ltb_lt in I2.
      - rewrite A1 by auto. f_equal. destruct (H2 b h (w - nth (fst s) (split_starts (da_lon_in o)) 0) Hb Hh ltac:(lia)) as [G _]. rewrite (G c Hc). now rewrite Rplus_0_l.
      - rewrite A2 by auto. f_equal. destruct (H2 b h (w - nth (fst s) (split_starts (da_lon_in o)) 0) Hb Hh ltac:(lia)) as [_ G]. rewrite (G c Hc). now rewrite Rplus_0_l. }
    assert (Bw : bwd_full o p a visits qn dyn sv inorm B = fold_left (fun acc s => (add_cols (nth (fst s) (split_starts (da_lon_in o)) 0) (nth (fst s) (da_lon_in o) 0) (fst (step s)) (fst acc), add_cols (nth (fst s) (split_starts (da_lon_in o)) 0) (nth (fst s) (da_lon_in o) 0) (snd (step s)) (snd acc))) visits (fld0, fld0)).
    { unfold bwd_full. cbv zeta. rewrite Eup. assert (D4 : dimsz qn 3 = Ck) by (unfold dimsz; rewrite Sqn; reflexivity). rewrite D4. fold Ho Wo L lat0 sums maxs. generalize (fld0, fld0).
      assert (Dm : forall s, In s visits -> dimsz (fst (snd s)) 1 = H /\ dimsz (fst (snd s)) 2 = nth (fst s) (da_lon_in o) 0 /\ dimsz (snd (snd s)) 3 = Cv) by (intros s Hin; destruct (HV s Hin) as (S1 & S2 & _); unfold dimsz; rewrite S1, S2; repeat split).
      unfold step. clearbody sums maxs inorm. clear - Dm. induction visits as [|s l IH]; intros acc; [reflexivity|]. cbn [fold_left]. rewrite IH by (intros; apply Dm; now right). destruct (Dm s (or_introl eq_refl)) as (-> & -> & ->). reflexivity. }
    destruct (Full visits gs (fld0, fld0) (fld0, fld0) (fun s H => H) HG) as [F1 F2]; [intros b h w c _ _ _ _; reflexivity|intros b h w c _ _ _ _; reflexivity|]. rewrite <- Bw in F1, F2.
    split; [exact F1|]. split; [exact F2|]. intros b h w c Hb Hh Hw Hc. rewrite Vr. unfold hwc, mk_hwc, dq_of. cbn [val nth]. fold Ho Wo cells.
    destruct (HFo b h w Hb Hh Hw) as (_ & A2 & _). destruct (HBo b h w Hb Hh Hw) as (_ & _ & B3 & B4). fold cells in A2, B3, B4. destruct (B4 c Hc) as [B5 B6]. rewrite A2, B3, B5, B6. reflexivity.
Qed.
End Rank.
