(** The forward CUDA operator on preprocessed filters. *)
From Coq Require Import List Arith Lia Bool Reals Lra Permutation Sorted FunctionalExtensionality.
From Verif Require Import TensorModel TensorProofs BigSum DistSpectralProofs DiscoModel DiscoSpec DiscoSortProofs DiscoRunProofs DiscoKernelProofs DiscoTensorProofs DiscoPackProofs
  GpuModel GpuSpec GpuProofs GpuProofs2 CudaDiscoModel CudaDiscoSpec CudaFwdProofs.
Import ListNotations.
Local Open Scope nat_scope.

(** ** Launch configuration *)
Lemma find_ok : forall fuel n e W, e <= elxth_max -> elxth_max < fuel + e -> W <= n * elxth_max ->
  exists E, find_elxth fuel n e W = Some E /\ W <= n * E /\ e <= E <= elxth_max /\ (E = e \/ n * (E - 1) < W).
Proof.
  induction fuel as [|fuel IH]; intros n e W He Hf HW; [lia|]. cbn [find_elxth]. destruct (Nat.leb_spec e elxth_max); [|lia].
  destruct (Nat.leb_spec W (n * e)).
  - exists e. repeat split; auto.
  - assert (e <> elxth_max) by (intros ->; lia). destruct (IH n (Datatypes.S e) W) as (E & F & A & B & C); [lia|lia|auto|]. exists E. split; [exact F|]. split; [exact A|]. split; [lia|]. right.
    destruct C as [->|C]; [|exact C]. now replace (Datatypes.S e - 1) with e by lia.
Qed.
Lemma pick_ok : forall W, 1 <= W -> W <= 1024 * 32 -> exists e, pick_config W = Some (lanes W, e) /\ 1 <= e <= elxth_max /\ W <= lanes W * elxth_max /\ lanes W * (e - 1) < W /\ 1 <= lanes W.
Proof.
  intros W H1 H2. unfold pick_config, lanes. change elxth_max with 32. change (32 / 2 + 1) with 17.
  destruct (Nat.leb_spec W (64 * 32)); [exists 1; split; [reflexivity|]; lia|].
  destruct (Nat.leb_spec W (128 * 32)); [exists 17; split; [reflexivity|]; lia|].
  destruct (Nat.leb_spec W (256 * 32)); [exists 17; split; [reflexivity|]; lia|].
  destruct (Nat.leb_spec W (512 * 32)); [exists 17; split; [reflexivity|]; lia|].
  destruct (Nat.leb_spec W (1024 * 32)); [exists 17; split; [reflexivity|]; lia|lia].
Qed.
Lemma pick_none : forall W, 1024 * 32 < W -> pick_config W = None.
Proof.
  intros W H. unfold pick_config. change elxth_max with 32. repeat match goal with |- context [?a <=? ?b] => destruct (Nat.leb_spec a b); [lia|] end. reflexivity.
Qed.
Lemma round_up_unique : forall n W E, 1 <= n -> W <= n * E -> n * (E - 1) < W -> n * E = round_up n W.
Proof.
  intros n W E Hn H1 H2. unfold round_up. rewrite Nat.mul_comm. f_equal. apply Nat.div_unique with (r := W + n - 1 - n * E); nia.
Qed.

(** ** Runs *)
Lemma sorted_asc : forall w l h, Sorted le (h :: map (fun e => col e / w) l) -> asc w h l.
Proof. induction l as [|e l IH]; intros h H; [exact I|]. cbn [map] in H. inversion H as [|? ? H1 H2]; subst. inversion H2; subst. split; auto. Qed.
Lemma asc_self : forall w e l, Sorted le (map (fun e => col e / w) (e :: l)) -> asc w (col e / w) (e :: l).
Proof. intros. split; [lia|]. now apply sorted_asc. Qed.
Lemma preprocess_asc : forall junk K Ho N w es roff es', 1 <= K -> psi_wf K Ho N es -> rows_sorted es -> kernels_separated K es -> es <> [] -> lats_sorted w es ->
  preprocess_psi junk K Ho es = Some (roff, es') ->
  exists rs, roff = starts 0 rs /\ es' = concat rs /\ runs_ok rs /\ NoDup (heads rs) /\ Permutation es' es /\ (forall e l, In (e :: l) rs -> asc w (col e / w) (e :: l)).
Proof.
  intros junk K Ho N w es roff es' HK Wf RS SP NE LS E. pose proof (preprocess_spec junk K Ho N es HK Wf RS NE) as E2.
  destruct (preprocess_runs _ _ _ _ _ _ _ HK Wf RS SP NE E) as (rs & R1 & R2 & RO & ND & PM). exists rs. repeat (split; [assumption|]).
  intros e l Hl. apply asc_self. rewrite E in E2. injection E2 as _ E3.
  rewrite <- (runs_at_key rs RO ND (e :: l) e Hl (or_introl eq_refl)). rewrite <- R2, E3. rewrite at_key_ksorted; [apply LS|].
  assert (In e es); [|apply (Wf e H)]. eapply Permutation_in; [exact PM|]. rewrite R2. apply in_concat. exists (e :: l). split; [exact Hl|now left].
Qed.
Lemma run_head : forall (rs : list (list entry)) i, (forall r, In r rs -> r <> []) -> i < length rs ->
  exists e0 l, nth i rs [] = e0 :: l /\ nth_error (concat rs) (nth i (starts 0 rs) 0) = Some e0 /\ slice (concat rs) (nth i (starts 0 rs) 0) (nth (i + 1) (starts 0 rs) 0) = e0 :: l /\ In (e0 :: l) rs.
Proof.
  intros rs i NE Hi. assert (Hin : In (nth i rs []) rs) by (apply nth_In; auto). destruct (nth i rs []) as [|e0 l] eqn:Er; [exfalso; eapply NE; eauto|].
  exists e0, l. split; [reflexivity|]. split; [|split; [rewrite slice_starts by auto; exact Er|exact Hin]].
  rewrite head_starts by auto. now rewrite Er.
Qed.
Lemma disco_sum_key : forall w ps es f k t q, disco_sum w ps es f k t q = rlsum (fterm w ps f q) (at_key k t es).
Proof.
  intros. unfold disco_sum, at_key, fterm. induction es as [|e es IH]; [reflexivity|]. cbn [filter]. destruct ((ker e =? k) && (row e =? t)) eqn:X.
  - unfold rlsum, lsum_ in *. cbn [fold_right]. rewrite X. now rewrite IH.
  - unfold rlsum, lsum_ in *. cbn [fold_right]. rewrite X. rewrite IH. apply Rplus_0_l.
Qed.

Section Op.
Variables (K Ho Wo Hi Wi B C BD E ps : nat) (rs : list (list entry)) (x : tensor R).
Hypotheses (HBD : 1 <= BD) (HWo : 1 <= Wo) (HWi : 1 <= Wi) (HW : Wi = ps * Wo) (HE : Wo <= BD * E).
Hypotheses (RO : runs_ok rs) (ND : NoDup (heads rs)) (Wf : psi_wf K Ho (Hi * Wi) (concat rs)).
Hypothesis (AS : forall e l, In (e :: l) rs -> asc Wi (col e / Wi) (e :: l)).
Hypothesis (Sx : shp x = [B; C; Hi; Wi]) (Hrs : 1 <= length rs).
Notation nr := (length rs).
Definition kf : kernel := mkKernel (B * C * nr) BD (Wi * 2 + ps * (BD * E - Wo)) (B * C * Hi * Wi) (flat x) (B * C * K * Ho * Wo)
  (fun g tid => fwd_thread BD E Hi Wi K Ho Wo ps (starts 0 rs) (concat rs) (g mod nr) (g / nr) tid).
Definition rhd (g : nat) : entry := hd (mkE 0 0 0 0%R) (nth (g mod nr) rs []).
Definition obase (g : nat) : nat := g / nr * K * Ho * Wo + ker (rhd g) * Ho * Wo + row (rhd g) * Wo.
Definition ibase (g : nat) : nat := g / nr * Hi * Wi.
Definition prog (g : nat) : list gstep := fprog BD E Wi Wo ps (ibase g) (obase g) (rhd g) (nth (g mod nr) rs []).
Lemma rhd_spec : forall g, exists l, nth (g mod nr) rs [] = rhd g :: l /\ In (rhd g :: l) rs /\ ker (rhd g) < K /\ row (rhd g) < Ho /\ (forall e, In e (rhd g :: l) -> col e < Hi * Wi).
Proof.
  intros g. destruct (run_head rs (g mod nr) (proj1 RO)) as (e0 & l & E1 & _ & _ & Hin); [apply Nat.mod_upper_bound; lia|].
  exists l. unfold rhd. rewrite E1. cbn [hd]. split; [reflexivity|]. split; [exact Hin|].
  assert (Q : forall e, In e (e0 :: l) -> In e (concat rs)) by (intros e He; apply in_concat; eauto). split; [apply (Wf e0), Q; now left|]. split; [apply (Wf e0), Q; now left|]. intros e He. apply (Wf e), Q, He.
Qed.
Lemma prog_code : forall g t, fwd_thread BD E Hi Wi K Ho Wo ps (starts 0 rs) (concat rs) (g mod nr) (g / nr) t = code_of (prog g) t.
Proof.
  intros g t. unfold fwd_thread. cbv zeta. destruct (run_head rs (g mod nr) (proj1 RO)) as (e0 & l & E1 & E2 & E3 & Hin); [apply Nat.mod_upper_bound; lia|].
  rewrite E2, E3. unfold prog, obase, rhd. rewrite E1. cbn [hd]. apply fprog_code.
Qed.
(** Address of an output element *)
Definition addr (n k t q : nat) : nat := n * K * Ho * Wo + k * Ho * Wo + t * Wo + q.
Lemma addr_inj : forall n k t q n' k' t' q', k < K -> t < Ho -> q < Wo -> k' < K -> t' < Ho -> q' < Wo -> addr n k t q = addr n' k' t' q' -> n = n' /\ k = k' /\ t = t' /\ q = q'.
Proof.
  intros n k t q n' k' t' q' H1 H2 H3 H1' H2' H3' X. unfold addr in X.
  assert (X1 : ((n * K + k) * Ho + t) * Wo + q = ((n' * K + k') * Ho + t') * Wo + q') by nia.
  destruct (row_div Wo ((n * K + k) * Ho + t) q H3) as [A1 A2]. destruct (row_div Wo ((n' * K + k') * Ho + t') q' H3') as [B1 B2]. rewrite X1 in A1, A2. rewrite B1 in A1. rewrite B2 in A2.
  destruct (row_div Ho (n * K + k) t H2) as [C1 C2]. destruct (row_div Ho (n' * K + k') t' H2') as [D1 D2]. rewrite <- A1 in C1, C2. rewrite D1 in C1. rewrite D2 in C2.
  destruct (row_div K n k H1) as [F1 F2]. destruct (row_div K n' k' H1') as [G1 G2]. rewrite <- C1 in F1, F2. rewrite G1 in F1. rewrite G2 in F2. auto.
Qed.
Lemma rhd_inj : forall g g', ker (rhd g) = ker (rhd g') -> row (rhd g) = row (rhd g') -> g mod nr = g' mod nr.
Proof.
  intros g g' H1 H2. pose proof (Nat.mod_upper_bound g nr ltac:(lia)) as L1. pose proof (Nat.mod_upper_bound g' nr ltac:(lia)) as L2.
  assert (Hh : forall g, nth (g mod nr) (heads rs) (0, 0) = key (rhd g)).
  { intros u. destruct (rhd_spec u) as (l & E1 & _). unfold heads. change (0, 0) with ((fun r : list entry => match r with e :: _ => key e | [] => (0, 0) end) []). rewrite map_nth, E1. reflexivity. }
  apply (proj1 (NoDup_nth (heads rs) (0, 0)) ND); [unfold heads; rewrite map_length; auto..|]. rewrite !Hh. unfold key. congruence.
Qed.
Lemma group_inj : forall g g' q q', q < Wo -> q' < Wo -> obase g + q = obase g' + q' -> g = g' /\ q = q'.
Proof.
  intros g g' q q' Hq Hq' X. destruct (rhd_spec g) as (l & _ & _ & H1 & H2 & _). destruct (rhd_spec g') as (l' & _ & _ & H1' & H2' & _).
  destruct (addr_inj (g / nr) (ker (rhd g)) (row (rhd g)) q (g' / nr) (ker (rhd g')) (row (rhd g')) q') as (A1 & A2 & A3 & A4); auto. split; [|exact A4].
  pose proof (rhd_inj g g' A2 A3). rewrite (Nat.div_mod g nr), (Nat.div_mod g' nr) by lia. congruence.
Qed.
Lemma groups_div : forall g, g < B * C * nr -> g / nr < B * C.
Proof. intros. apply Nat.div_lt_upper_bound; lia. Qed.

Definition gval (g q : nat) : R := rlsum (fterm Wi ps (plane Wi (flat x) (ibase g)) q) (nth (g mod nr) rs []).
Definition inv (n : nat) (out : nat -> R) : Prop :=
  (forall g q, g < n -> q < Wo -> out (obase g + q) = gval g q) /\ (forall a, (forall g q, g < n -> q < Wo -> a <> obase g + q) -> out a = 0%R).
Lemma inv_step : forall g rg sh out, g < B * C * nr -> inv g out -> inv (Datatypes.S g) (snd (run_prog (flat x) BD (prog g) (rg, sh, out))).
Proof.
  intros g rg sh out Hg [I1 I2]. destruct (rhd_spec g) as (l & E1 & Hin & _). assert (A := AS _ _ Hin).
  assert (F := fprog_run BD E Wi Wo ps HBD HWo HWi HW HE (flat x) (ibase g) (obase g) (rhd g) (nth (g mod nr) rs []) (rg, sh, out)). rewrite E1 in F at 1. specialize (F A).
  unfold prog. split.
  - intros g' q Hg' Hq. rewrite F. destruct (Nat.eq_dec g' g) as [->|Ne].
    + destruct (Nat.leb_spec (obase g) (obase g + q)); [|lia]. destruct (Nat.ltb_spec (obase g + q) (obase g + Wo)); [|lia]. cbn [andb]. replace (obase g + q - obase g) with q by lia. reflexivity.
    + cbn [snd]. destruct (Nat.leb_spec (obase g) (obase g' + q)); cbn [andb]; [|apply I1; auto; lia]. destruct (Nat.ltb_spec (obase g' + q) (obase g + Wo)); [|apply I1; auto; lia].
      exfalso. destruct (group_inj g g' (obase g' + q - obase g) q); [lia|auto|lia|]. congruence.
  - intros a Ha. rewrite F. cbn [snd]. destruct (Nat.leb_spec (obase g) a); cbn [andb]; [|apply I2; intros; apply Ha; auto]. destruct (Nat.ltb_spec a (obase g + Wo)); [|apply I2; intros; apply Ha; auto].
    exfalso. apply (Ha g (a - obase g)); lia.
Qed.
Lemma flat_at : forall b c h w, b < B -> c < C -> h < Hi -> w < Wi -> flat x ((b * C + c) * Hi * Wi + h * Wi + w) = val x [b; c; h; w].
Proof.
  intros b c h w Hb Hc Hh Hw. unfold flat. rewrite Sx. f_equal. rewrite <- (unravel_ravel [B; C; Hi; Wi] [b; c; h; w]); [|apply valid4_intro; auto]. f_equal. cbn [ravel prod_list fold_right]. ring.
Qed.
Lemma inv_final : forall out, inv (B * C * nr) out -> teq (tensor_of [B; C; K; Ho; Wo] out) (tensor_disco K Ho Wo (concat rs) x).
Proof.
  intros out [I1 I2]. destruct (shape4 _ _ _ _ _ Sx) as (_ & D0 & D1 & D2 & D3). split; [unfold tensor_disco; cbn [shp tensor_of]; now rewrite D0, D1|].
  intros i V. cbn [tensor_of shp] in V. destruct (valid5 _ _ _ _ _ _ V) as (b & c & k & t & q & -> & Hb & Hc & Hk & Ht & Hq).
  unfold tensor_disco, tensor_of. cbn [val nth]. rewrite D3. replace (Wi / Wo) with ps by (rewrite HW, Nat.div_mul; lia).
  rewrite disco_sum_key.
  replace (ravel [B; C; K; Ho; Wo] [b; c; k; t; q]) with (addr (b * C + c) k t q) by (cbn [ravel prod_list fold_right]; unfold addr; ring).
  destruct (at_key k t (concat rs)) as [|e l0] eqn:AK.
  - rewrite I2; [reflexivity|]. intros g q' Hg Hq' X. destruct (rhd_spec g) as (l & E1 & Hin & H1 & H2 & _).
    destruct (addr_inj (b * C + c) k t q (g / nr) (ker (rhd g)) (row (rhd g)) q') as (A1 & A2 & A3 & A4); auto.
    assert (Y : In (rhd g) (at_key k t (concat rs))). { unfold at_key. apply filter_In. split; [apply in_concat; exists (rhd g :: l); split; [exact Hin|now left]|]. rewrite A2, A3, !Nat.eqb_refl. reflexivity. }
    rewrite AK in Y. destruct Y.
  - assert (He : In e (at_key k t (concat rs))) by (rewrite AK; now left). unfold at_key in He. apply filter_In in He. destruct He as [He Hk']. apply andb_true_iff in Hk'. destruct Hk' as [Hk1 Hk2]. apply Nat.eqb_eq in Hk1, Hk2.
    apply in_concat in He. destruct He as (r & Hr & He). assert (Er := runs_at_key rs RO ND r e Hr He). rewrite Hk1, Hk2, AK in Er.
    destruct (In_nth rs r [] Hr) as (i & Hi' & Ei). set (g := (b * C + c) * nr + i). destruct (row_div nr (b * C + c) i Hi') as [G1 G2]. fold g in G1, G2.
    assert (Hbc : b * C + c + 1 <= B * C) by nia. assert (Hg : g < B * C * nr). { unfold g. apply Nat.lt_le_trans with ((b * C + c + 1) * nr); [lia|]. now apply Nat.mul_le_mono_r. }
    assert (Eh : rhd g = e) by (unfold rhd; rewrite G2, Ei, <- Er; reflexivity).
    replace (addr (b * C + c) k t q) with (obase g + q) by (unfold obase, addr; rewrite G1, Eh, Hk1, Hk2; reflexivity).
    rewrite I1 by auto. unfold gval. rewrite G2, Ei, <- Er. apply lsum_ext. intros e' He'. unfold fterm, plane, ibase. rewrite G1. f_equal. apply flat_at; auto.
    + apply Nat.div_lt_upper_bound; [lia|]. rewrite Nat.mul_comm. apply (Wf e'). apply in_concat. exists r. split; [exact Hr|]. now rewrite <- Er.
    + apply Nat.mod_upper_bound. lia.
Qed.
Theorem kf_computes : computes kf [B; C; K; Ho; Wo] (tensor_disco K Ho Wo (concat rs) x).
Proof.
  intros rg sh. assert (Hsh : k_shared kf = Wi * 2 + ps * (BD * E - Wo)) by reflexivity.
  assert (Hout : forall g, g < B * C * nr -> obase g + Wo <= B * C * K * Ho * Wo).
  { intros g Hg. destruct (rhd_spec g) as (l & _ & _ & H1 & H2 & _). pose proof (groups_div g Hg) as H3. unfold obase.
    assert ((g / nr * K + ker (rhd g)) * Ho + row (rhd g) + 1 <= B * C * K * Ho); [|nia].
    assert (g / nr * K + ker (rhd g) + 1 <= B * C * K) by nia. nia. }
  assert (KI : forall g, g < B * C * nr -> ibase g + Hi * Wi <= B * C * Hi * Wi).
  { intros g Hg. unfold ibase. pose proof (groups_div g Hg). replace (g / nr * Hi * Wi + Hi * Wi) with ((g / nr + 1) * (Hi * Wi)) by ring. replace (B * C * Hi * Wi) with (B * C * (Hi * Wi)) by ring. apply Nat.mul_le_mono_r. lia. }
  apply (program_settles kf prog inv _ rg sh (fun _ => 0%R) (Wl BD Wi) none).
  - exact HBD.
  - intros g t _ _. apply prog_code.
  - intros g Hg. cbn [kf k_groups] in Hg. destruct (rhd_spec g) as (l & E1 & Hin & _ & _ & Hc). unfold prog. rewrite E1. apply (fprog_bounds BD E Hi Wi Wo ps); auto.
    intros e [<-|He]; apply Hc; auto. now left.
  - apply (disc_load BD E Wi Wo ps); auto.
  - intros g Hg. destruct (rhd_spec g) as (l & E1 & Hin & _). unfold prog. rewrite E1. apply fprog_safe; auto.
  - intros g t g' t' Hg Ht Hg' Ht' Ne. cbn [kf k_code k_threads] in *. rewrite !prog_code.
    destruct (rhd_spec g) as (l & E1 & Hin & _). destruct (rhd_spec g') as (l' & E1' & Hin' & _).
    apply (own_compat (fun a => obase g <= a < obase g + Wo /\ (a - obase g) mod BD = t) (fun a => obase g' <= a < obase g' + Wo /\ (a - obase g') mod BD = t')).
    + intros a [A1 A2] [B1 B2]. destruct (group_inj g g' (a - obase g) (a - obase g')) as [-> Eq]; [lia..|]. apply Ne. congruence.
    + unfold prog. rewrite E1. apply (fprog_owned BD E Hi) with (k := kf); auto.
    + unfold prog. rewrite E1'. apply (fprog_owned BD E Hi) with (k := kf); auto.
  - split; [intros; lia|reflexivity].
  - intros g rg' sh' out Hg I. apply inv_step; auto.
  - apply inv_final.
Qed.
End Op.

Theorem cuda_fwd_spec : forall dev junk K Ho Wo es roff es' (x : tensor R) B C Hi Wi k,
  1 <= K -> psi_wf K Ho (Hi * Wi) es -> rows_sorted es -> kernels_separated K es -> es <> [] -> lats_sorted Wi es ->
  preprocess_psi junk K Ho es = Some (roff, es') -> shp x = [B; C; Hi; Wi] ->
  disco_cuda_fwd dev K Ho Wo roff es' x = Some k -> computes k [B; C; K; Ho; Wo] (tensor_disco K Ho Wo es x).
Proof.
  intros dev junk K Ho Wo es roff es' x B C Hi Wi k HK Wf RS SP NE LS PP Sx L.
  destruct (preprocess_asc _ _ _ _ Wi _ _ _ HK Wf RS SP NE LS PP) as (rs & -> & -> & RO & ND & PM & AS).
  destruct (shape4 _ _ _ _ _ Sx) as (N4 & D0 & D1 & D2 & D3).
  unfold disco_cuda_fwd in L. rewrite N4, D0, D1, D2, D3 in L. cbn [Nat.eqb guard bindo] in L. rewrite starts_length in L. cbn [Nat.sub] in L. rewrite Nat.sub_0_r in L.
  destruct (Nat.leb_spec 1 Wo) as [HWo|]; [|discriminate]. destruct (Nat.eqb_spec (Wi mod Wo) 0) as [HM|]; [|discriminate]. cbn [andb guard bindo] in L.
  assert (HWi : 1 <= Wi). { destruct es as [|e es0]; [congruence|]. destruct (Wf e (or_introl eq_refl)) as (_ & _ & X). destruct Wi; [lia|lia]. }
  destruct (le_lt_dec Wo (1024 * 32)) as [HL|HL]; [|rewrite pick_none in L by auto; discriminate].
  destruct (pick_ok Wo HWo HL) as (e & Ep & He1 & He2 & He3 & He4). rewrite Ep in L. cbn [bindo fst snd] in L.
  destruct (find_ok (Datatypes.S elxth_max) (lanes Wo) e Wo) as (E & Ef & F1 & F2 & F3); [lia|lia|auto|]. rewrite Ef in L. cbn [bindo] in L.
  destruct (launchable _ _ _ _) eqn:LA; [|discriminate]. cbn [guard bindo] in L. injection L as <-.
  unfold launchable in LA. rewrite !andb_true_iff, !Nat.leb_le in LA. destruct LA as [[[[LA _] _] _] _].
  assert (T : teq (tensor_disco K Ho Wo (concat rs) x) (tensor_disco K Ho Wo es x)).
  { split; [reflexivity|]. intros i _. unfold tensor_disco. cbn [val]. now apply disco_sum_perm. }
  assert (Q := kf_computes K Ho Wo Hi Wi B C (lanes Wo) E (Wi / Wo) rs x He4 HWo HWi (mod0_mul Wi Wo HWo HM) F1 RO ND (wf_perm _ _ _ _ _ (Permutation_sym PM) Wf) AS Sx LA).
  intros rg sh. destruct (Q rg sh) as (n & Hn). exists n. intros j u Hp. destruct (Hn j u Hp) as [A1 A2]. split; [exact A1|]. intros St. destruct (A2 St) as [A3 A4]. split; [exact A3|]. eapply teq_trans; eauto.
Qed.
Theorem cuda_fwd_launches : forall dev K Ho Wo roff es (x : tensor R) B C Hi Wi, shp x = [B; C; Hi; Wi] -> 1 <= Wo ->
  ((exists k, disco_cuda_fwd dev K Ho Wo roff es x = Some k) <->
   Wi mod Wo = 0 /\ Wo <= 1024 * 32 /\ 1 <= length roff - 1 <= d_gridx dev /\ 1 <= B * C <= d_gridy dev /\
   2 * Wi + Wi / Wo * (round_up (lanes Wo) Wo - Wo) <= d_shared dev).
Proof.
  intros dev K Ho Wo roff es x B C Hi Wi Sx HWo. destruct (shape4 _ _ _ _ _ Sx) as (N4 & D0 & D1 & D2 & D3).
  unfold disco_cuda_fwd. rewrite N4, D0, D1, D2, D3. cbn [Nat.eqb guard bindo].
  destruct (Nat.leb_spec 1 Wo); [|lia]. destruct (Nat.eqb_spec (Wi mod Wo) 0) as [HM|HM]; cbn [andb guard bindo]; [|split; [intros [? ?]; discriminate|intros [? _]; congruence]].
  destruct (le_lt_dec Wo (1024 * 32)) as [HL|HL]; [|rewrite pick_none by auto; split; [intros [? ?]; discriminate|lia]].
  destruct (pick_ok Wo HWo HL) as (e & Ep & He1 & He2 & He3 & He4). rewrite Ep. cbn [bindo fst snd].
  destruct (find_ok (Datatypes.S elxth_max) (lanes Wo) e Wo) as (E & Ef & F1 & F2 & F3); [lia|lia|auto|]. rewrite Ef. cbn [bindo].
  assert (ER : lanes Wo * E = round_up (lanes Wo) Wo) by (apply round_up_unique; auto; destruct F3 as [->|F3]; auto). rewrite ER, (Nat.mul_comm Wi 2).
  destruct (launchable _ _ _ _) eqn:LA; cbn [guard bindo]; unfold launchable in LA.
  - rewrite !andb_true_iff, !Nat.leb_le in LA. split; [intros _; tauto|eauto].
  - split; [intros [? ?]; discriminate|]. intros (_ & _ & [G1 G2] & [G3 G4] & G5). apply Nat.leb_le in G1, G2, G3, G4, G5. rewrite G1, G2, G3, G4, G5 in LA. discriminate.
Qed.
