(** The forward kernels of CUDA attention: groups, launches. *)
From Coq Require Import List Arith Lia Bool Reals Lra Permutation FunctionalExtensionality.
From Verif Require Import TensorModel TensorProofs BigSum DiscoModel DiscoSortProofs AttnModel AttnCoreProofs GpuModel GpuSpec GpuProofs GpuProofs2 WarpProofs CudaDiscoModel CudaWarpModel WarpSumProofs CudaFwdProofs CudaAttnModel CudaAttnProofs CudaAttnLaneProofs CudaAttnFwdProofs DistSpectralProofs.
From Verif Require Import AttnSpec.
Import ListNotations.
Local Open Scope nat_scope.

(** ** The points of the groups *)
Lemma split_div : forall n a c, c < n -> (a * n + c) / n = a /\ (a * n + c) mod n = c.
Proof. intros n a c H. split; [rewrite Nat.div_add_l, Nat.div_small by lia; lia|]. rewrite Nat.add_comm, Nat.mod_add by lia. now apply Nat.mod_small. Qed.
Lemma div_up_ge : forall a b, 1 <= b -> a <= div_up a b * b.
Proof. intros a b H. unfold div_up. pose proof (Nat.div_mod (a + (b - 1)) b ltac:(lia)). pose proof (Nat.mod_upper_bound (a + (b - 1)) b ltac:(lia)). nia. Qed.
Section Points.
Variables (B nh Ho Wo BY : nat) (row_idx : list nat).
Hypotheses (HBY : 1 <= BY) (Hperm : Permutation row_idx (seq 0 Ho)).
Notation gw := (div_up (Ho * Wo) BY * BY).
Definition groups : nat := B * nh * gw.
Definition active (g : nat) : Prop := g mod gw < Ho * Wo.
Definition g_b (g : nat) : nat := g / gw / nh.
Definition g_hd (g : nat) : nat := g / gw - g / gw / nh * nh.
Definition g_h (g : nat) : nat := g mod gw / Wo.
Definition g_wo (g : nat) : nat := g mod gw - g mod gw / Wo * Wo.
Definition g_ho (g : nat) : nat := nth (g_h g) row_idx 0.
Lemma mod_sub : forall x n, 1 <= n -> x - x / n * n = x mod n.
Proof. intros. rewrite (Nat.mod_eq x n) by lia. rewrite (Nat.mul_comm n). reflexivity. Qed.
Lemma row_len : length row_idx = Ho.
Proof. rewrite (Permutation_length Hperm). apply seq_length. Qed.
Lemma group_ok : forall g, g < groups -> active g -> g_b g < B /\ g_hd g < nh /\ g_ho g < Ho /\ g_wo g < Wo /\ nth_error row_idx (g_h g) = Some (g_ho g) /\ g_h g < Ho.
Proof.
  intros g Hg Ha. unfold groups, active in *. assert (W0 : 1 <= Wo) by (destruct Wo; [rewrite Nat.mul_0_r in Ha; lia|lia]).
  assert (Hnh : 1 <= nh) by (destruct nh; [rewrite Nat.mul_0_r in Hg; cbn in Hg; lia|lia]).
  assert (Hgw : gw <> 0) by (intros E; rewrite E, Nat.mul_0_r in Hg; lia).
  assert (Hbh : g / gw < B * nh) by (apply Nat.div_lt_upper_bound; [exact Hgw|rewrite (Nat.mul_comm gw); exact Hg]).
  assert (Hh : g_h g < Ho) by (unfold g_h; apply Nat.div_lt_upper_bound; [lia|rewrite (Nat.mul_comm Wo); exact Ha]).
  split; [unfold g_b; apply Nat.div_lt_upper_bound; [lia|rewrite (Nat.mul_comm nh); exact Hbh]|]. split; [unfold g_hd; rewrite mod_sub by lia; apply Nat.mod_upper_bound; lia|].
  split. { assert (I : In (g_ho g) row_idx) by (apply nth_In; rewrite row_len; exact Hh). apply (Permutation_in _ Hperm) in I. apply in_seq in I. lia. }
  split; [unfold g_wo; rewrite mod_sub by lia; apply Nat.mod_upper_bound; lia|]. split; [|exact Hh]. apply nth_error_nth'. rewrite row_len. exact Hh.
Qed.
Lemma group_at : forall b hd ho wo, b < B -> hd < nh -> ho < Ho -> wo < Wo -> exists g, g < groups /\ active g /\ g_b g = b /\ g_hd g = hd /\ g_ho g = ho /\ g_wo g = wo.
Proof.
  intros b hd ho wo Hb Hhd Hho Hwo. assert (I : In ho row_idx) by (apply (Permutation_in _ (Permutation_sym Hperm)); apply in_seq; lia).
  apply (In_nth _ _ 0) in I. destruct I as (h & Hh & Eh). rewrite row_len in Hh.
  assert (Hc : h * Wo + wo < Ho * Wo) by nia. assert (Hg : h * Wo + wo < gw) by (pose proof (div_up_ge (Ho * Wo) BY HBY); lia).
  assert (Hbh : b * nh + hd < B * nh) by nia. exists ((b * nh + hd) * gw + (h * Wo + wo)).
  destruct (split_div gw (b * nh + hd) _ Hg) as [D1 D2]. destruct (split_div nh b hd Hhd) as [D3 D4]. destruct (split_div Wo h wo Hwo) as [D5 D6].
  unfold groups, active, g_b, g_hd, g_ho, g_h, g_wo. rewrite D1, D2, D3, D5. split; [nia|]. split; [exact Hc|]. split; [reflexivity|]. split; [lia|]. split; [exact Eh|lia].
Qed.
Lemma group_inj : forall g g', g < groups -> g' < groups -> active g -> active g' -> g_b g = g_b g' -> g_hd g = g_hd g' -> g_ho g = g_ho g' -> g_wo g = g_wo g' -> g = g'.
Proof.
  intros g g' Hg Hg' Ha Ha' E1 E2 E3 E4. destruct (group_ok g Hg Ha) as (A1 & A2 & A3 & A4 & A5 & A6). destruct (group_ok g' Hg' Ha') as (B1 & B2 & B3 & B4 & B5 & B6).
  assert (ND : NoDup row_idx) by (apply (Permutation_NoDup (Permutation_sym Hperm)), seq_NoDup).
  assert (Eh : g_h g = g_h g') by (apply (proj1 (NoDup_nth row_idx 0) ND); rewrite ?row_len; auto).
  assert (Hgw : gw <> 0) by (intros E; unfold groups in Hg; rewrite E, Nat.mul_0_r in Hg; lia).
  rewrite (Nat.div_mod g gw Hgw), (Nat.div_mod g' gw Hgw). f_equal; [f_equal|].
  - unfold g_b, g_hd in *. pose proof (Nat.div_mod (g / gw) nh ltac:(lia)). pose proof (Nat.div_mod (g' / gw) nh ltac:(lia)). rewrite !mod_sub in E2 by lia. rewrite H, H0, E1, E2. reflexivity.
  - unfold g_h, g_wo in *. pose proof (Nat.div_mod (g mod gw) Wo ltac:(lia)). pose proof (Nat.div_mod (g' mod gw) Wo ltac:(lia)). rewrite !mod_sub in E4 by lia. rewrite H, H0, Eh, E4. reflexivity.
Qed.
End Points.

(** ** A launch *)
Section Launch.
Variables (V B nh nco Ho Wo BY nT : nat) (row_idx : list nat) (ch : nat -> list nat) (Yv : nat -> nat -> nat -> nat -> nat -> R).
Notation Cv := (V * nco).
Hypotheses (HBY : 1 <= BY) (HnT : 1 <= nT) (Hperm : Permutation row_idx (seq 0 Ho)) (Hch : covers nT Cv (chan_own nT V) ch).
Notation ok b hd ho wo := (b < B /\ hd < nh /\ ho < Ho /\ wo < Wo).
Notation ybase := (yb V nh nco Ho Wo).
Notation g_ho := (g_ho Ho Wo BY row_idx). Notation g_b := (g_b nh Ho Wo BY). Notation g_hd := (g_hd nh Ho Wo BY). Notation g_wo := (g_wo Ho Wo BY). Notation active := (active Ho Wo BY).
Definition trace_at (b hd ho wo : nat) : list (nat * uop * R) := flat_map (fun t => map (fun c => (ybase b hd ho wo + c, USet, Yv b hd ho wo c)) (ch t)) (seq 0 nT).
Definition group_trace (g : nat) : list (nat * uop * R) := if Ho * Wo <=? g mod (div_up (Ho * Wo) BY * BY) then [] else trace_at (g_b g) (g_hd g) (g_ho g) (g_wo g).
Definition writer (a : nat) (gt : nat * nat) : Prop := let '(g, t) := gt in
  g < groups B nh Ho Wo BY /\ active g /\ exists c, c < Cv /\ chan_own nT V c = t /\ a = ybase (g_b g) (g_hd g) (g_ho g) (g_wo g) + c.
Lemma ybase_inj : forall b hd ho wo c b' hd' ho' wo' c', ok b hd ho wo -> ok b' hd' ho' wo' -> c < Cv -> c' < Cv -> ybase b hd ho wo + c = ybase b' hd' ho' wo' + c' -> b = b' /\ hd = hd' /\ ho = ho' /\ wo = wo' /\ c = c'.
Proof.
  intros b hd ho wo c b' hd' ho' wo' c' (H1 & H2 & H3 & H4) (H1' & H2' & H3' & H4') Hc Hc' E. unfold yb, ldo in E. rewrite !point_addr in E.
  apply addr4_inj in E; auto; try (now apply chan_lt). destruct E as (-> & -> & -> & E).
  assert (Q : hd = hd' /\ c = c') by (destruct (split_div Cv hd c Hc) as [D1 D2]; destruct (split_div Cv hd' c' Hc') as [D3 D4]; rewrite E in D1, D2; split; congruence). destruct Q. auto.
Qed.
Lemma writer_one : forall a gt gt', gt <> gt' -> writer a gt -> writer a gt' -> False.
Proof.
  intros a [g t] [g' t'] Ne (Hg & Ha & c & Hc & Et & Ea) (Hg' & Ha' & c' & Hc' & Et' & Ea').
  destruct (group_ok B nh Ho Wo BY row_idx HBY Hperm g Hg Ha) as (A1 & A2 & A3 & A4 & _). destruct (group_ok B nh Ho Wo BY row_idx HBY Hperm g' Hg' Ha') as (B1 & B2 & B3 & B4 & _).
  subst a. apply ybase_inj in Ea'; auto. destruct Ea' as (E1 & E2 & E3 & E4 & E5). apply Ne. subst c'. f_equal; [|congruence]. eapply (group_inj B nh Ho Wo BY row_idx); eauto.
Qed.
Theorem gather_settles : forall k (prog lprog : nat -> nat -> nat -> nat -> list gstep) own W Rd rg sh out, k_threads k = nT -> k_groups k = groups B nh Ho Wo BY ->
  (forall g t, g < k_groups k -> t < nT -> k_code k g t = code_of (if Ho * Wo <=? g mod (div_up (Ho * Wo) BY * BY) then [] else prog (g_b g) (g_hd g) (g_ho g) (g_wo g)) t) ->
  disciplined k W Rd ->
  (forall b hd ho wo, ok b hd ho wo -> Forall (step_bounds k) (prog b hd ho wo) /\ safe k W Rd (prog b hd ho wo) /\ refines (k_in k) nT own (prog b hd ho wo) (lprog b hd ho wo) /\
     (forall st, snd (lane_prog (k_in k) nT (lprog b hd ho wo) (st, [])) = trace_at b hd ho wo) /\
     (forall g (holds : nat -> nat * nat -> Prop), (forall t c, t < nT -> c < Cv -> chan_own nT V c = t -> holds (ybase b hd ho wo + c) (g, t)) ->
        forall t x, t < nT -> In x (prog b hd ho wo) -> match x with Seg p => Forall (tidy (fun _ => None) holds (g, t)) (p t) | _ => True end)) ->
  settles k (start k rg sh out) (fun o => forall b hd ho wo c, ok b hd ho wo -> c < Cv -> o (ybase b hd ho wo + c) = Yv b hd ho wo c).
Proof.
  intros k prog lprog own W Rd rg sh out Et Eg Ec Di H.
  set (pr := fun g => if Ho * Wo <=? g mod (div_up (Ho * Wo) BY * BY) then [] else prog (g_b g) (g_hd g) (g_ho g) (g_wo g)).
  set (lp := fun g => if Ho * Wo <=? g mod (div_up (Ho * Wo) BY * BY) then [] else lprog (g_b g) (g_hd g) (g_ho g) (g_wo g)).
  assert (Hok : forall g, g < k_groups k -> active g -> ok (g_b g) (g_hd g) (g_ho g) (g_wo g)).
  { intros g Hg Ha. rewrite Eg in Hg. destruct (group_ok B nh Ho Wo BY row_idx HBY Hperm g Hg Ha) as (A1 & A2 & A3 & A4 & _). auto. }
  assert (S := lanes_settle k pr lp own W Rd (fun _ => None) writer group_trace rg sh out). rewrite Et in S.
  assert (Q : settles k (start k rg sh out) (fun o => o = upds (flat_map group_trace (seq 0 (k_groups k))) out)).
  { apply S; auto.
    - intros g Hg. unfold pr. destruct (Nat.leb_spec (Ho * Wo) (g mod (div_up (Ho * Wo) BY * BY))) as [L|L]; [constructor|]. now apply H, Hok.
    - intros g Hg. unfold pr. destruct (Nat.leb_spec (Ho * Wo) (g mod (div_up (Ho * Wo) BY * BY))) as [L|L]; [exact I|]. now apply H, Hok.
    - intros g Hg. unfold pr, lp. destruct (Nat.leb_spec (Ho * Wo) (g mod (div_up (Ho * Wo) BY * BY))) as [L|L]; [apply refines_nil|]. now apply H, Hok.
    - intros g t x Hg Ht. unfold pr. destruct (Nat.leb_spec (Ho * Wo) (g mod (div_up (Ho * Wo) BY * BY))) as [L|L]; [intros []|]. destruct (H _ _ _ _ (Hok g Hg L)) as (_ & _ & _ & _ & T).
      intros Hx. apply (T g writer); auto. intros t0 c Ht0 Hc E0. split; [rewrite <- Eg; exact Hg|]. split; [exact L|]. eauto.
    - apply writer_one.
    - intros g st Hg. unfold lp, group_trace. destruct (Nat.leb_spec (Ho * Wo) (g mod (div_up (Ho * Wo) BY * BY))) as [L|L]; [reflexivity|]. now apply H, Hok. }
  destruct Q as [n Q]. exists n. intros j u Hp. destruct (Q j u Hp) as [Q1 Q2]. split; [exact Q1|]. intros Hx. destruct (Q2 Hx) as [Q3 Q4]. split; [exact Q3|]. clear Q Q1 Q2 Hp Hx. rewrite Q4.
  intros b hd ho wo c Hb Hc. 
  apply (upds_set (fun _ => Yv b hd ho wo c)).
  - intros [[a o] v] Hu Ea. apply in_flat_map in Hu. destruct Hu as (g & Hg & Hu). apply in_seq in Hg. unfold group_trace in Hu. destruct (Nat.leb_spec (Ho * Wo) (g mod (div_up (Ho * Wo) BY * BY))) as [L|L]; [destruct Hu|].
    assert (Hk := Hok g ltac:(lia) L). unfold trace_at in Hu. apply in_flat_map in Hu. destruct Hu as (t & Ht & Hu). apply in_seq in Ht. apply in_map_iff in Hu. destruct Hu as (c' & Eu & Hc'). apply (Hch t ltac:(lia)) in Hc'.
    cbn [fst] in Ea. injection Eu as <- <- <-. rewrite Ea. apply ybase_inj in Ea; auto; try tauto. destruct Ea as (E1 & E2 & E3 & E4 & E5). rewrite E1, E2, E3, E4, E5. reflexivity.
  - destruct Hb as (H1 & H2 & H3 & H4). destruct (group_at B nh Ho Wo BY row_idx HBY Hperm b hd ho wo H1 H2 H3 H4) as (g & Hg & Ha & E1 & E2 & E3 & E4).
    exists (ybase b hd ho wo + c, USet, Yv b hd ho wo c). split; [|reflexivity]. apply in_flat_map. exists g. split; [apply in_seq; lia|]. unfold group_trace. rewrite (proj2 (Nat.leb_gt _ _) Ha). rewrite E1, E2, E3, E4.
    unfold trace_at. apply in_flat_map. exists (chan_own nT V c). assert (Ho' := chan_own_lt nT V c HnT). split; [apply in_seq; lia|]. apply in_map_iff. exists c. split; [reflexivity|]. apply Hch; auto.
Qed.
End Launch.

(** ** The kernels *)
Section Kernels.
Variables (V B nh nci nco Hi Wi Ho Wo : nat) (fmin : R) (kw vw qw : tensor R) (quad : nat -> R) (P : pattern) (row_idx : list nat).
Notation Ck := (V * nci). Notation Cv := (V * nco).
Hypotheses (HV : 1 <= V) (Hok : attn_ok B nh Ck Cv Hi Wi Ho Wo quad P kw vw qw) (Hdiv : Wi mod Wo = 0) (Hperm : Permutation row_idx (seq 0 Ho)).
Notation arr := (arrays Hi kw vw qw quad).
Notation spec := (attn_spec nh Ck Cv quad (nbrs P Hi Wi Wo) Ho Wo kw vw qw).
Lemma gather_P : pattern_ok P Ho (Hi * Wi).
Proof. assert (H := ao_P _ _ _ _ _ _ _ _ _ _ _ _ _ Hok). rewrite Hdiv in H. exact H. Qed.
Lemma gather_ne : forall ho wo, ho < Ho -> wo < Wo -> pts Wi Wo P ho wo <> [].
Proof. intros ho wo H1 H2. assert (H := ao_ne _ _ _ _ _ _ _ _ _ _ _ _ _ Hok ho wo H1 H2). unfold nbrs in H. rewrite Hdiv in H. exact H. Qed.
Lemma fwd_spec : forall o, (forall b hd ho wo c, (b < B /\ hd < nh /\ ho < Ho /\ wo < Wo) -> c < Cv -> o (yb V nh nco Ho Wo b hd ho wo + c) = Y V nci nco Wi Wo kw vw qw quad P b hd ho wo c) ->
  teq (tensor_of [B; Ho; Wo; nh * Cv] o) spec.
Proof.
  intros o H. destruct Hok. split; [cbn [tensor_of attn_spec shp]; unfold dimsz; rewrite ao_q; reflexivity|]. intros i Hi0. cbn [tensor_of shp] in Hi0. destruct (valid4 _ _ _ _ _ Hi0) as (b & ho & wo & d & -> & Hb & Hho & Hwo & Hd).
  cbn [tensor_of attn_spec val nth ravel prod_list fold_right]. unfold attn_packed.
  assert (HCv : Cv <> 0) by (intros E; rewrite E, Nat.mul_0_r in Hd; lia).
  assert (Hhd : d / Cv < nh) by (apply Nat.div_lt_upper_bound; [exact HCv|rewrite (Nat.mul_comm Cv); exact Hd]). assert (Hc : d mod Cv < Cv) by (apply Nat.mod_upper_bound; exact HCv).

  assert (Ed := Nat.div_mod d Cv HCv). specialize (H b (d / Cv) ho wo (d mod Cv) (conj Hb (conj Hhd (conj Hho Hwo))) Hc). unfold Y, pts in H. unfold nbrs. rewrite Hdiv. cbn [Nat.eqb]. rewrite <- H. f_equal.
  unfold yb, ldo. rewrite point_addr. rewrite (Nat.mul_comm (d / Cv) Cv), <- Ed. ring.
Qed.
Notation insz := (list_sum (map fst arr)).
Definition special_kernel (NW nloc BY shared : nat) (as_out : bool) : kernel :=
  mkKernel (groups B nh Ho Wo BY) (32 * NW) shared insz (joined arr) (ysize V B nh nco Ho Wo)
    (fun g => code_of (special_group (32 * NW) BY V nloc nh nci nco Hi Wi Ho Wo as_out fmin (part arr 0) (part arr 1) (part arr 2) (part arr 3) (ysize V B nh nco Ho Wo) row_idx (offsets 0 P) (columns P) g)).
Theorem special_settles : forall NW nloc BY shared as_out rg sh out, 1 <= NW <= 32 -> 1 <= nloc -> (nloc - 1) * (32 * NW) <= nco <= nloc * (32 * NW) -> (as_out = true -> (nloc - 1) * (32 * NW) <= nci <= nloc * (32 * NW)) ->
  1 <= BY -> Ck <= shared -> (1 < NW -> Ck + NW <= shared) ->
  settles (special_kernel NW nloc BY shared as_out) (start (special_kernel NW nloc BY shared as_out) rg sh out) (fun o => teq (tensor_of [B; Ho; Wo; nh * Cv] o) spec).
Proof.
  intros NW nloc BY shared as_out rg sh out HNW Hnl Hout Hin HBY Hs1 Hs2. assert (HP := gather_P). assert (Hne := gather_ne). destruct Hok.
  assert (S := gather_settles V B nh nco Ho Wo BY (32 * NW) row_idx (out_chans (32 * NW) V nloc nco) (Y V nci nco Wi Wo kw vw qw quad P) HBY ltac:(lia) Hperm (cout_covers V nco HV NW nloc Hnl Hout)
    (special_kernel NW nloc BY shared as_out) (fun b hd ho wo => special_prog V B nh nci nco Hi Wi Ho Wo fmin kw vw qw quad P b hd ho wo NW nloc as_out) (fun b hd ho wo => special_lanes V B nh nci nco Hi Wi Ho Wo fmin kw vw qw quad P b hd ho wo NW nloc as_out)
    (own_of (32 * NW) V Ck) (W0 (32 * NW) V Ck) (mine (own_of (32 * NW) V Ck)) rg sh out eq_refl eq_refl).
  destruct S as [n S].
  - intros g t Hg Ht. cbn [k_code special_kernel]. f_equal. unfold special_group. destruct (Nat.leb_spec (Ho * Wo) (g mod (div_up (Ho * Wo) BY * BY))) as [L|L]; [reflexivity|].
    destruct (group_ok B nh Ho Wo BY row_idx HBY Hperm g Hg L) as (A1 & A2 & A3 & A4 & A5 & A6). fold (g_h Ho Wo BY g). rewrite A5. rewrite (row_of_spec P Ho (Hi * Wi) _ HP A3).
    reflexivity.
  - now apply W0_disciplined.
  - intros b hd ho wo (H1 & H2 & H3 & H4). split; [|split; [|split; [|split]]].
    + apply special_bounds; auto.
    + apply special_safe; auto.
    + apply special_refines; auto.
    + intros st. apply special_trace; auto.
    + intros g holds Hh t x Ht Hx. revert t x Ht Hx. now apply special_tidy.
  - exists n. intros j u Hp. destruct (S j u Hp) as [S1 S2]. split; [exact S1|]. intros Hx. destruct (S2 Hx) as [S3 S4]. split; [exact S3|]. now apply fwd_spec.
Qed.
Definition generic_kernel (shared : nat) : kernel :=
  mkKernel (groups B nh Ho Wo 2) 32 shared insz (joined arr) (ysize V B nh nco Ho Wo)
    (fun g => code_of (generic_group V nh nci nco Hi Wi Ho Wo fmin (part arr 0) (part arr 1) (part arr 2) (part arr 3) (ysize V B nh nco Ho Wo) row_idx (offsets 0 P) (columns P) g)).
Theorem generic_settles : forall shared rg sh out, Cv <= shared ->
  settles (generic_kernel shared) (start (generic_kernel shared) rg sh out) (fun o => teq (tensor_of [B; Ho; Wo; nh * Cv] o) spec).
Proof.
  intros shared rg sh out Hs1. assert (HP := gather_P). assert (Hne := gather_ne). destruct Hok.
  assert (S := gather_settles V B nh nco Ho Wo 2 32 row_idx (gout_chans V nco) (Y V nci nco Wi Wo kw vw qw quad P) ltac:(lia) ltac:(lia) Hperm ltac:(apply gout_covers; auto)
    (generic_kernel shared) (fun b hd ho wo => generic_prog V B nh nci nco Hi Wi Ho Wo fmin kw vw qw quad P b hd ho wo) (fun b hd ho wo => generic_lanes V B nh nci nco Hi Wi Ho Wo fmin kw vw qw quad P b hd ho wo)
    (own_of 32 V Cv) (W0 32 V Cv) (mine (own_of 32 V Cv)) rg sh out eq_refl eq_refl).
  destruct S as [n S].
  - intros g t Hg Ht. cbn [k_code generic_kernel]. f_equal. unfold generic_group. destruct (Nat.leb_spec (Ho * Wo) (g mod (div_up (Ho * Wo) 2 * 2))) as [L|L]; [reflexivity|].
    destruct (group_ok B nh Ho Wo 2 row_idx ltac:(lia) Hperm g Hg L) as (A1 & A2 & A3 & A4 & A5 & A6). fold (g_h Ho Wo 2 g). rewrite A5. rewrite (row_of_spec P Ho (Hi * Wi) _ HP A3).
    reflexivity.
  - now apply W0_disciplined.
  - intros b hd ho wo (H1 & H2 & H3 & H4). split; [|split; [|split; [|split]]].
    + apply generic_bounds; auto.
    + apply generic_safe; auto.
    + apply generic_refines; auto.
    + intros st. apply generic_trace; auto.
    + intros g holds Hh t x Ht Hx. revert t x Ht Hx. now apply generic_tidy.
  - exists n. intros j u Hp. destruct (S j u Hp) as [S1 S2]. split; [exact S1|]. intros Hx. destruct (S2 Hx) as [S3 S4]. split; [exact S3|]. now apply fwd_spec.
Qed.
End Kernels.
