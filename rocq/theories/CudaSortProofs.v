(** The kernels need the entries of a row in the order of the image rows; the library's
    filters come in this order. *)
From Coq Require Import List Arith Lia Bool Reals Lra Permutation Sorted FunctionalExtensionality.
From Verif Require Import TensorModel TensorProofs BigSum DistSpectralProofs QuadModel FilterModel FilterSpec FilterProofs PsiModel PsiSpec PsiProofs PsiPreProofs PsiLayerProofs PsiUseProofs
  DiscoModel DiscoSpec DiscoSortProofs DiscoRunProofs DiscoKernelProofs DiscoTensorProofs DiscoPackProofs
  PrimSpec DistDiscoSpec DistDiscoProofs GpuModel GpuSpec GpuProofs GpuProofs2 CudaDiscoModel CudaDiscoSpec CudaFwdProofs CudaFwdProofs2 CudaBwdProofs CudaBwdProofs2.
Import ListNotations.
Local Open Scope nat_scope.

(** ** A fault is never passed *)
Lemma fault_stays : forall k l s s' g t, g < k_groups k -> t < k_threads k -> exec k l s = Some s' -> In IFault (s_code s g t) -> In IFault (s_code s' g t).
Proof.
  intros k l s s' g t Hg Ht X H. destruct l as [g0 t0|g0|g0 w]; [cbn [exec] in X|cbn [exec] in X|].
  - destruct (_ && _); [|discriminate]. cbn [guard bindo] in X. destruct (s_code s g0 t0) as [|i c] eqn:Ec; [discriminate|]. destruct (in_bounds k i) eqn:Eb; [|discriminate]. cbn [guard bindo] in X. injection X as <-. cbn [s_code].
    unfold put. destruct (Nat.eqb_spec g g0) as [->|]; [|exact H]. destruct (Nat.eqb_spec t t0) as [->|]; [|exact H]. rewrite Ec in H. destruct H as [->|H]; [discriminate|exact H].
  - destruct (_ && _) eqn:G; [|discriminate]. cbn [guard bindo] in X. injection X as <-. cbn [s_code]. apply andb_true_iff in G. destruct G as [_ G]. rewrite forallb_forall in G.
    unfold put. destruct (Nat.eqb_spec g g0) as [->|]; [|exact H]. destruct (Nat.ltb_spec t (k_threads k)); [|lia]. specialize (G t ltac:(apply in_seq; lia)). destruct (s_code s g0 t) as [|i c]; [destruct H|]. destruct i; try discriminate. destruct H as [H|H]; [discriminate|exact H].
  - apply exec_shfl in X. destruct X as (_ & _ & Hs & ->). cbn [shfl_state s_code]. unfold put. destruct (Nat.eqb_spec g g0) as [->|]; [|exact H]. destruct (in_warp k w t) eqn:E; [|exact H].
    destruct (Hs t E) as (f & c & E'). rewrite E' in *. destruct H as [H|H]; [discriminate|exact H].
Qed.
Lemma fault_path : forall k n s u g t, g < k_groups k -> t < k_threads k -> path k n s u -> In IFault (s_code s g t) -> In IFault (s_code u g t).
Proof. intros k n s u g t Hg Ht P. induction P; auto. intros H0. apply IHP. eapply fault_stays; eauto. Qed.
Lemma path_snoc : forall k n s u l v, path k n s u -> exec k l u = Some v -> path k (Datatypes.S n) s v.
Proof. intros k n s u l v P. induction P; intros X; econstructor; eauto. constructor. Qed.
Lemma fault_never : forall k s Q g t, g < k_groups k -> t < k_threads k -> In IFault (s_code s g t) -> ~ settles k s Q.
Proof.
  intros k s Q g t Hg Ht Hf (n & Hn).
  assert (X : forall m j u, m + j = Datatypes.S n -> path k j s u -> False).
  { induction m as [|m IH]; intros j u Em P; [destruct (Hn j u P); lia|].
    assert (St : forall l, exec k l u = None). { intros l. destruct (exec k l u) eqn:El; [|reflexivity]. exfalso. eapply (IH (Datatypes.S j)); [lia|]. eapply path_snoc; eauto. }
    destruct (Hn j u P) as [_ F]. destruct (F St) as [F1 _]. specialize (F1 g t Hg Ht). assert (Y := fault_path k j s u g t Hg Ht P Hf). rewrite F1 in Y. destruct Y. }
  eapply (X (Datatypes.S n) 0); [lia|constructor].
Qed.

(** ** Entries out of order *)
Lemma asc_dec : forall w l h, asc w h l \/ ~ asc w h l.
Proof. induction l as [|e l IH]; intros h; [left; exact I|]. cbn [asc]. destruct (le_dec h (col e / w)); [destruct (IH (col e / w)); [left; auto|right; tauto]|right; tauto]. Qed.
Lemma back_facts : forall w p e, 1 <= w -> p = at_col w (p_col p) -> col e / w < p_h p -> new_row w p e = false /\ p_w p + col e < p_col p.
Proof.
  intros w p e Hw Ep H. rewrite Ep in *. unfold new_row, at_col in *. cbn [p_col p_h p_w] in *. set (c := p_col p) in *.
  pose proof (Nat.div_mod c w ltac:(lia)). pose proof (Nat.div_mod (col e) w ltac:(lia)). pose proof (Nat.mod_upper_bound (col e) w ltac:(lia)).
  assert ((col e / w + 1) * w <= c / w * w) by (apply Nat.mul_le_mono_r; lia). split; [apply Nat.leb_gt|]; lia.
Qed.
Lemma fwd_loop_fault : forall BD E Wi ps ib l p, 1 <= E -> 1 <= Wi -> p = at_col Wi (p_col p) -> ~ asc Wi (p_h p) l -> In IFault (fwd_loop BD E Wi ps ib p l 0).
Proof.
  intros BD E Wi ps ib l. induction l as [|e l IH]; intros p HE HWi Ep Na; [exfalso; apply Na; exact I|]. cbn [fwd_loop]. cbv zeta. apply in_or_app. right. apply in_or_app.
  destruct (le_lt_dec (p_h p) (col e / Wi)) as [Hh|Hh].
  - right. assert (Hp' := nextprev Wi p e HWi Ep Hh). apply IH; auto; [apply Hp'|]. rewrite (proj2 Hp'). intros X. apply Na. split; auto.
  - left. destruct (back_facts Wi p e HWi Ep Hh) as [N1 N2]. unfold next_prev. rewrite N1. unfold fwd_acc. apply in_flat_map. exists 0. split; [apply in_seq; lia|]. cbn [Nat.mul Nat.add]. rewrite Nat.mul_0_r, Nat.add_0_r.
    destruct (Nat.ltb_spec (p_w p + col e) (p_col p)); [now left|lia].
Qed.
Lemma bwd_loop_fault : forall BD E Wi Wo ps ob l p, 1 <= BD -> 1 <= E -> 1 <= ps -> 1 <= Wo -> p = at_col Wo (p_col p) -> ~ asc Wo (p_h p) l -> In IFault (bwd_loop BD E Wi Wo ps ob p l 0).
Proof.
  intros BD E Wi Wo ps ob l. induction l as [|e l IH]; intros p HB HE Hps HWo Ep Na; [exfalso; apply Na; exact I|]. cbn [bwd_loop]. cbv zeta. apply in_or_app. right. apply in_or_app.
  destruct (le_lt_dec (p_h p) (col e / Wo)) as [Hh|Hh].
  - right. apply in_or_app. right. assert (Hp' := nextprev Wo p e HWo Ep Hh). apply IH; auto; [apply Hp'|]. rewrite (proj2 Hp'). intros X. apply Na. split; auto.
  - left. destruct (back_facts Wo p e HWo Ep Hh) as [N1 N2]. unfold next_prev. rewrite N1. unfold bwd_acc. apply in_flat_map. exists 0. split; [apply in_seq; lia|]. cbv zeta.
    destruct (Nat.ltb_spec (p_w p + col e) (p_col p)); [|lia]. set (m := p_col p - (p_w p + col e)). assert (Hm : 1 <= m) by (unfold m; lia).
    assert (1 <= cell BD E (m mod ps) (m / ps)). { unfold cell. pose proof (Nat.div_mod m ps ltac:(lia)). destruct (m / ps); [|lia]. assert (1 <= m mod ps) by lia. nia. }
    destruct (Nat.ltb_spec (0 * BD + 0) (cell BD E (m mod ps) (m / ps))); [now left|lia].
Qed.
(** A list is in order if the run it consists of is. *)
Lemma asc_sorted : forall w e l, asc w (col e / w) (e :: l) -> Sorted le (map (fun e => col e / w) (e :: l)).
Proof.
  intros w e l [_ H]. revert e H. induction l as [|e' l IH]; intros e H; cbn [map]; [constructor; constructor|]. destruct H as [H1 H2]. constructor; [apply IH; exact H2|]. constructor. exact H1.
Qed.
Lemma order_of_runs : forall junk K Ho N w es rs, 1 <= K -> psi_wf K Ho N es -> rows_sorted es -> kernels_separated K es -> es <> [] ->
  preprocess_psi junk K Ho es = Some (starts 0 rs, concat rs) -> runs_ok rs -> NoDup (heads rs) -> (forall e l, In (e :: l) rs -> asc w (col e / w) (e :: l)) -> lats_sorted w es.
Proof.
  intros junk K Ho N w es rs HK Wf RS SP NE E RO ND AS k t. pose proof (preprocess_spec junk K Ho N es HK Wf RS NE) as E2. rewrite E in E2. injection E2 as _ E3.
  destruct (at_key k t es) as [|e0 l0] eqn:AK; [constructor|]. assert (He : In e0 es /\ ker e0 = k /\ row e0 = t).
  { assert (X : In e0 (at_key k t es)) by (rewrite AK; now left). unfold at_key in X. apply filter_In in X. destruct X as [X Y]. apply andb_true_iff in Y. rewrite !Nat.eqb_eq in Y. tauto. }
  destruct He as (He & Hk & Ht). assert (Hkk : k < K) by (rewrite <- Hk; apply (Wf e0 He)). rewrite <- AK, <- (at_key_ksorted K) by auto. rewrite <- E3.
  assert (X : In e0 (concat rs)). { rewrite E3. eapply Permutation_in; [apply Permutation_sym, ksorted_perm; intros e' H'; apply (Wf e' H')|exact He]. }
  apply in_concat in X. destruct X as (r & Hr & He'). rewrite <- Hk, <- Ht, (runs_at_key rs RO ND r e0 Hr He'). destruct r as [|e l]; [constructor|]. apply asc_sorted. now apply AS.
Qed.

Theorem cuda_fwd_iff : forall dev junk K Ho Wo es roff es' (x : tensor R) B C Hi Wi k,
  1 <= K -> psi_wf K Ho (Hi * Wi) es -> rows_sorted es -> kernels_separated K es -> es <> [] ->
  preprocess_psi junk K Ho es = Some (roff, es') -> shp x = [B; C; Hi; Wi] ->
  disco_cuda_fwd dev K Ho Wo roff es' x = Some k ->
  (lats_sorted Wi es -> computes k [B; C; K; Ho; Wo] (tensor_disco K Ho Wo es x)) /\ (~ lats_sorted Wi es -> forall rg sh out Q, ~ settles k (start k rg sh out) Q).
Proof.
  intros dev junk K Ho Wo es roff es' x B C Hi Wi k HK Wf RS SP NE PP Sx L. split; [intros LS; eapply cuda_fwd_spec; eauto|]. intros NS rg sh out Q HQ. apply NS. clear NS.
  destruct (preprocess_runs _ _ _ _ _ _ _ HK Wf RS SP NE PP) as (rs & -> & -> & RO & ND & PM). eapply order_of_runs; eauto. intros e l Hin. destruct (asc_dec Wi (e :: l) (col e / Wi)) as [A|A]; [exact A|]. exfalso.
  destruct (shape4 _ _ _ _ _ Sx) as (N4 & D0 & D1 & D2 & D3).
  unfold disco_cuda_fwd in L. rewrite N4, D0, D1, D2, D3 in L. cbn [Nat.eqb guard bindo] in L. rewrite starts_length in L. cbn [Nat.sub] in L. rewrite Nat.sub_0_r in L.
  destruct (Nat.leb_spec 1 Wo) as [HWo|]; [|discriminate]. destruct (Nat.eqb_spec (Wi mod Wo) 0) as [HM|]; [|discriminate]. cbn [andb guard bindo] in L.
  assert (HWi : 1 <= Wi). { destruct es as [|e' es0]; [congruence|]. destruct (Wf e' (or_introl eq_refl)) as (_ & _ & X). destruct Wi; [lia|lia]. }
  destruct (le_lt_dec Wo (1024 * 32)) as [HL|HL]; [|rewrite pick_none in L by auto; discriminate].
  destruct (pick_ok Wo HWo HL) as (e0 & Ep & He1 & He2 & He3 & He4). rewrite Ep in L. cbn [bindo fst snd] in L.
  destruct (find_ok (Datatypes.S elxth_max) (lanes Wo) e0 Wo) as (E & Ef & F1 & F2 & F3); [lia|lia|auto|]. rewrite Ef in L. cbn [bindo] in L.
  destruct (launchable _ _ _ _) eqn:LA; [|discriminate]. cbn [guard bindo] in L. injection L as <-.
  unfold launchable in LA. rewrite !andb_true_iff, !Nat.leb_le in LA. destruct LA as [[[[L1 _] L3] _] _].
  destruct (In_nth rs (e :: l) [] Hin) as (i & Hi' & Ei). destruct (run_head rs i (proj1 RO) Hi') as (e1 & l1 & E1 & E2 & E3 & _). rewrite Ei in E1. injection E1 as -> ->.
  revert HQ. eapply (fault_never _ _ _ i 0); [cbn [k_groups]; nia|cbn [k_threads]; lia|]. cbn [start s_code k_code].
  assert (Hd : i / length rs = 0) by (apply Nat.div_small; auto). rewrite Nat.mod_small, Hd by auto. unfold fwd_thread. rewrite E2, E3. cbv zeta. apply in_or_app. right. apply in_or_app. right. apply in_or_app. right. apply in_or_app. left.
  apply fwd_loop_fault; auto. lia.
Qed.
Theorem cuda_bwd_iff : forall dev junk K Ho Wo es roff es' (y : tensor R) B C Hi Wi k,
  1 <= K -> psi_wf K Hi (Ho * Wo) es -> rows_sorted es -> kernels_separated K es -> es <> [] ->
  preprocess_psi junk K Hi es = Some (roff, es') -> shp y = [B; C; K; Hi; Wi] ->
  disco_cuda_bwd dev K Ho Wo roff es' y = Some k ->
  (lats_sorted Wo es -> computes k [B; C; Ho; Wo] (tensor_disco_adjoint Ho Wo es y)) /\ (~ lats_sorted Wo es -> forall rg sh out Q, ~ settles k (start k rg sh out) Q).
Proof.
  intros dev junk K Ho Wo es roff es' y B C Hi Wi k HK Wf RS SP NE PP Sy L. split; [intros LS; eapply cuda_bwd_spec; eauto|]. intros NS rg sh out Q HQ. apply NS. clear NS.
  destruct (preprocess_runs _ _ _ _ _ _ _ HK Wf RS SP NE PP) as (rs & -> & -> & RO & ND & PM). eapply order_of_runs; eauto. intros e l Hin. destruct (asc_dec Wo (e :: l) (col e / Wo)) as [A|A]; [exact A|]. exfalso.
  destruct (shape5 _ _ _ _ _ _ Sy) as (N5 & D0 & D1 & D2 & D3 & D4).
  unfold disco_cuda_bwd in L. rewrite N5, D0, D1, D2, D3, D4 in L. cbn [Nat.eqb guard bindo] in L. rewrite starts_length in L. cbn [Nat.sub] in L. rewrite Nat.sub_0_r in L.
  destruct (Nat.leb_spec 1 Wi) as [HWi|]; [|discriminate]. destruct (Nat.eqb_spec (Wo mod Wi) 0) as [HM|]; [|discriminate]. cbn [andb guard bindo] in L.
  assert (HWo : 1 <= Wo). { destruct es as [|e' es0]; [congruence|]. destruct (Wf e' (or_introl eq_refl)) as (_ & _ & X). destruct Wo; [lia|lia]. }
  pose proof (mod0_mul Wo Wi HWi HM) as EW. set (ps := Wo / Wi) in *. assert (Hps : 1 <= ps) by nia. assert (HWW : Wi <= Wo) by nia.
  destruct (le_lt_dec Wo (1024 * 32)) as [HL|HL]; [|rewrite pick_none in L by auto; discriminate].
  destruct (pick_eq Wo HWo HL) as (Ep & He1 & He3 & He4). rewrite Ep in L. cbn [bindo fst snd] in L.
  destruct (find_ok (Datatypes.S elxth_max) (lanes Wo) (least_share Wo) Wi) as (E & Ef & F1 & F2 & F3); [lia|lia|lia|]. rewrite Ef in L. cbn [bindo] in L.
  destruct (launchable _ _ _ _) eqn:LA; [|discriminate]. cbn [guard bindo] in L. injection L as <-.
  unfold launchable in LA. rewrite !andb_true_iff, !Nat.leb_le in LA. destruct LA as [[[[L1 _] L3] _] _].
  destruct (In_nth rs (e :: l) [] Hin) as (i & Hi' & Ei). destruct (run_head rs i (proj1 RO) Hi') as (e1 & l1 & E1 & E2 & E3 & _). rewrite Ei in E1. injection E1 as -> ->.
  revert HQ. eapply (fault_never _ _ _ i 0); [cbn [k_groups]; nia|cbn [k_threads]; lia|]. cbn [start s_code k_code].
  assert (Hd : i / length rs = 0) by (apply Nat.div_small; auto). rewrite Nat.mod_small, Hd by auto. unfold bwd_thread. rewrite E2, E3. cbv zeta. apply in_or_app. right. apply in_or_app. right. apply in_or_app. right. apply in_or_app. left.
  apply bwd_loop_fault; auto. lia.
Qed.

(** ** The library's filters *)
(** row-major order of the support, columns in range *)
Definition idx_le (a b : idx3) : Prop := fst (fst a) = fst (fst b) -> snd (fst a) <= snd (fst b).
Definition in_order (W : nat) (l : list idx3) : Prop := StronglySorted idx_le l /\ (forall a, In a l -> snd a < W).
Lemma SS_app : forall X (R : X -> X -> Prop) l l', StronglySorted R l -> StronglySorted R l' -> (forall a b, In a l -> In b l' -> R a b) -> StronglySorted R (l ++ l').
Proof.
  intros X R l l' H. induction H as [|a l H IH F]; intros H' C; [exact H'|]. cbn. constructor.
  - apply IH; auto. intros; apply C; auto. now right.
  - apply Forall_app. split; [exact F|]. apply Forall_forall. intros b Hb. apply C; auto. now left.
Qed.
Lemma SS_flat : forall X (R : X -> X -> Prop) (f : nat -> list X) n a, (forall i, a <= i < a + n -> StronglySorted R (f i)) ->
  (forall i j x y, a <= i -> i < j -> In x (f i) -> In y (f j) -> R x y) -> StronglySorted R (flat_map f (seq a n)).
Proof.
  intros X R f n. induction n as [|n IH]; intros a H C; cbn [seq flat_map]; [constructor|]. apply SS_app; [apply H; lia| |].
  - apply IH; [intros; apply H; lia|intros; eapply C; [| |eauto|eauto]; lia].
  - intros x y Hx Hy. apply in_flat_map in Hy. destruct Hy as (j & Hj & Hy). apply in_seq in Hj. eapply (C a j); eauto; lia.
Qed.
Lemma all_idx_order : forall K H W, in_order W (all_idx K H W).
Proof.
  intros K H W. split.
  - apply SS_flat.
    + intros k _. apply SS_flat.
      * intros i _. assert (Q : forall l, StronglySorted idx_le (map (fun j => (k, i, j)) l)); [|apply Q]. induction l; cbn; constructor; auto. apply Forall_forall. intros b Hb. apply in_map_iff in Hb. destruct Hb as (j & <- & _). intros _. cbn. lia.
      * intros i j x y _ Hij Hx Hy. apply in_map_iff in Hx. destruct Hx as (? & <- & _). apply in_map_iff in Hy. destruct Hy as (? & <- & _). intros _. cbn. lia.
    + intros i j x y _ Hij Hx Hy. apply in_flat_map in Hx. destruct Hx as (? & _ & Hx). apply in_map_iff in Hx. destruct Hx as (? & <- & _). apply in_flat_map in Hy. destruct Hy as (? & _ & Hy). apply in_map_iff in Hy. destruct Hy as (? & <- & _). intros X. cbn in X. lia.
  - intros a Ha. unfold all_idx in Ha. apply in_flat_map in Ha. destruct Ha as (k & _ & Ha). apply in_flat_map in Ha. destruct Ha as (i & _ & Ha). apply in_map_iff in Ha. destruct Ha as (j & <- & Hj). apply in_seq in Hj. cbn. lia.
Qed.
Lemma SS_filter : forall X (R : X -> X -> Prop) p l, StronglySorted R l -> StronglySorted R (filter p l).
Proof.
  intros X R p l H. induction H as [|a l H IH F]; [constructor|]. cbn. destruct (p a); [|exact IH]. constructor; [exact IH|]. apply Forall_forall. intros b Hb. apply filter_In in Hb. apply (proj1 (Forall_forall _ _) F). apply Hb.
Qed.
Lemma argwhere_order : forall K H W c, in_order W (argwhere K H W c).
Proof. intros. unfold argwhere. destruct (all_idx_order K H W) as [A B]. split; [now apply SS_filter|]. intros a Ha. apply filter_In in Ha. apply B, Ha. Qed.
Definition fb_ordered (fb : fbasis) : Prop := forall H W r phi rc s, fb_support fb H W r phi rc = Some s -> in_order W (map fst s).
Lemma with_vals_order : forall K H W c f, in_order W (map fst (with_vals (argwhere K H W c) f)).
Proof. intros. rewrite fst_with_vals. apply argwhere_order. Qed.
Theorem library_order : forall jn jz ks b fb, get_filter_basis jn jz ks b = Some fb -> fb_ordered fb.
Proof.
  intros jn jz ks b fb E H W r phi rc s Hs. destruct b; cbn [get_filter_basis] in E; try discriminate.
  - unfold pl_basis in E. apply bindo_some in E. destruct E as ((nr, nphi) & _ & E). injection E as <-. cbn [fb_support] in Hs. injection Hs as <-. unfold pl_support.
    repeat match goal with |- context [if ?c then _ else _] => destruct c end; apply with_vals_order.
  - unfold hm_basis in E. apply bindo_some in E. destruct E as ((k0, k1) & _ & E). injection E as <-. cbn [fb_support] in Hs. injection Hs as <-. apply with_vals_order.
  - unfold zk_basis in E. apply bindo_some in E. destruct E as (N & _ & E). injection E as <-. cbn [fb_support] in Hs. unfold zk_support in Hs. apply bindo_some in Hs. destruct Hs as (u & _ & Hs). injection Hs as <-. apply with_vals_order.
  - unfold fbs_basis in E. apply bindo_some in E. destruct E as ((a, b) & _ & E). apply bindo_some in E. destruct E as (es' & _ & E). injection E as <-. cbn [fb_support] in Hs. injection Hs as <-. apply with_vals_order.
  - unfold hm_basis in E. apply bindo_some in E. destruct E as ((k0, k1) & _ & E). injection E as <-. cbn [fb_support] in Hs. injection Hs as <-. apply with_vals_order.
Qed.
Definition ent_le (w : nat) (e e' : entry) : Prop := ker e = ker e' -> row e = row e' -> col e / w <= col e' / w.
Lemma ordered_lats : forall w es, StronglySorted (ent_le w) es -> lats_sorted w es.
Proof.
  intros w es H k t. unfold at_key. apply StronglySorted_Sorted. assert (Q := SS_filter _ _ (fun e => (ker e =? k) && (row e =? t)) _ H). 
  assert (A : forall e, In e (filter (fun e => (ker e =? k) && (row e =? t)) es) -> ker e = k /\ row e = t). { intros e He. apply filter_In in He. destruct He as [_ He]. apply andb_true_iff in He. now rewrite !Nat.eqb_eq in He. }
  induction Q as [|a l Q IH F]; cbn [map]; constructor; [apply IH; intros; apply A; now right|]. apply Forall_forall. intros b Hb. apply in_map_iff in Hb. destruct Hb as (e & <- & He).
  destruct (A a (or_introl eq_refl)). destruct (A e (or_intror He)). apply (proj1 (Forall_forall _ _) F e He); congruence.
Qed.
Lemma SS_map : forall X Y (R : X -> X -> Prop) (S : Y -> Y -> Prop) (f : X -> Y) l, StronglySorted R l -> (forall a b, In a l -> In b l -> R a b -> S (f a) (f b)) -> StronglySorted S (map f l).
Proof.
  intros X Y R S f l H. induction H as [|a l H IH F]; intros C; cbn; constructor; [apply IH; intros; apply C; auto; now right|]. apply Forall_forall. intros b Hb. apply in_map_iff in Hb. destruct Hb as (x & <- & Hx). apply C; [now left|now right|]. apply (proj1 (Forall_forall _ _) F x Hx).
Qed.
Lemma row_ordered : forall fb Hi Wi tin tout rc t r, fb_ordered fb -> psi_row fb Hi Wi tin tout rc t = Some r -> StronglySorted (ent_le Wi) r /\ (forall e, In e r -> row e = t).
Proof.
  intros fb Hi Wi tin tout rc t r O E. unfold psi_row in E. apply bindo_some in E. destruct E as (s & Hs & E). injection E as <-. destruct (O _ _ _ _ _ _ Hs) as [A B]. split.
  - assert (Q : StronglySorted (fun a b : idx3 * R => idx_le (fst a) (fst b)) s). { clear Hs B. induction s as [|a s IH]; [constructor|]. cbn in A. inversion A as [|? ? A1 A2]; subst. constructor; [auto|]. apply Forall_forall. intros b Hb. apply (proj1 (Forall_forall _ _) A2). now apply in_map. }
    eapply SS_map; [exact Q|]. intros [[[k i] j] v] [[[k' i'] j'] v'] Ha Hb L Hk Hr. cbn [ker row col] in *. assert (J : j < Wi) by (apply (B (k, i, j)); apply in_map_iff; eexists; split; [|exact Ha]; reflexivity). assert (J' : j' < Wi) by (apply (B (k', i', j')); apply in_map_iff; eexists; split; [|exact Hb]; reflexivity).
    rewrite (proj1 (row_div Wi i j J)), (proj1 (row_div Wi i' j' J')). now apply L.
  - intros e He. apply in_map_iff in He. destruct He as ([[[k i] j] v] & <- & _). reflexivity.
Qed.
Lemma rows_ordered : forall fb Hi Wi tin tout rc n a rows, fb_ordered fb -> mapM (psi_row fb Hi Wi tin tout rc) (seq a n) = Some rows -> StronglySorted (ent_le Wi) (concat rows) /\ (forall e, In e (concat rows) -> a <= row e).
Proof.
  intros fb Hi Wi tin tout rc n. induction n as [|n IH]; intros a rows O E; cbn [seq mapM] in E; [injection E as <-; split; [constructor|intros e []]|].
  apply bindo_some in E. destruct E as (r & Hr & E). apply bindo_some in E. destruct E as (rows' & E' & E). injection E as <-. destruct (row_ordered _ _ _ _ _ _ _ _ O Hr) as [A B]. destruct (IH _ _ O E') as [C D]. cbn [concat]. split.
  - apply SS_app; auto. intros x y Hx Hy _ Hr'. rewrite (B x Hx) in Hr'. specialize (D y Hy). lia.
  - intros e He. apply in_app_or in He. destruct He as [He|He]; [rewrite (B e He); lia|specialize (D e He); lia].
Qed.
Theorem psi_lats_sorted : forall gl Hi Wi Ho Wo fb gi go c tr mode merge es roff, fb_ordered fb -> precompute_psi gl Hi Wi Ho Wo fb gi go c tr mode merge = Some (es, roff) -> lats_sorted Wi es.
Proof.
  intros gl Hi Wi Ho Wo fb gi go c tr mode merge es roff O E. unfold precompute_psi in E. apply bindo_some in E. destruct E as (qi & _ & E). apply bindo_some in E. destruct E as (qo & _ & E). apply bindo_some in E. destruct E as (rows & Er & E).
  apply bindo_some in E. destruct E as (u & _ & E). apply bindo_some in E. destruct E as (m & _ & E). apply bindo_some in E. destruct E as (vs & _ & E). injection E as <- _.
  apply ordered_lats. destruct (rows_ordered _ _ _ _ _ _ _ _ _ O Er) as [A _]. revert vs. induction A as [|a l A IH F]; intros vs; [destruct vs; constructor|]. destruct vs as [|v vs]; [constructor|]. cbn [List.combine map fst snd]. constructor; [apply IH|].
  apply Forall_forall. intros b Hb. apply in_map_iff in Hb. destruct Hb as ([e v'] & <- & Hb). cbn [fst snd]. apply in_combine_l in Hb. apply (proj1 (Forall_forall _ _) F e Hb).
Qed.
Theorem conv_lats_sorted : forall jn jz ks b fb gl Hi Wi Ho Wo gi go cut mode es, get_filter_basis jn jz ks b = Some fb -> conv_psi gl Hi Wi Ho Wo fb gi go cut mode = Some es -> lats_sorted Wi es.
Proof.
  intros jn jz ks b fb gl Hi Wi Ho Wo gi go cut mode es Eb E. unfold conv_psi in E. apply bindo_some in E. destruct E as (u & _ & E). apply bindo_some in E. destruct E as (c & _ & E). apply bindo_some in E. destruct E as (u' & _ & E). apply bindo_some in E. destruct E as ((es0, roff) & E & X). injection X as <-.
  eapply psi_lats_sorted; [eapply library_order; eauto|eauto].
Qed.
Theorem tconv_lats_sorted : forall jn jz ks b fb gl Hi Wi Ho Wo gi go cut mode es, get_filter_basis jn jz ks b = Some fb -> tconv_psi gl Hi Wi Ho Wo fb gi go cut mode = Some es -> lats_sorted Wo es.
Proof.
  intros jn jz ks b fb gl Hi Wi Ho Wo gi go cut mode es Eb E. unfold tconv_psi in E. apply bindo_some in E. destruct E as (u & _ & E). apply bindo_some in E. destruct E as (c & _ & E). apply bindo_some in E. destruct E as (u' & _ & E). apply bindo_some in E. destruct E as ((es0, roff) & E & X). injection X as <-.
  eapply psi_lats_sorted; [eapply library_order; eauto|eauto].
Qed.

(** ** Slices, the CPU, limits *)
Lemma sorted_app_filter : forall X (f : X -> nat) p l, Sorted le (map f l) -> Sorted le (map f (filter p l)).
Proof.
  intros X f p l H. apply StronglySorted_Sorted. apply Sorted_StronglySorted in H; [|intros a b c; apply Nat.le_trans].
  induction l as [|a l IH]; [constructor|]. cbn [map] in H. inversion H as [|? ? H1 H2]; subst. cbn [filter]. destruct (p a); [|auto]. cbn [map]. constructor; [auto|].
  apply Forall_forall. intros b Hb. apply in_map_iff in Hb. destruct Hb as (x & <- & Hx). apply filter_In in Hx. apply (proj1 (Forall_forall _ _) H2). now apply in_map, Hx.
Qed.
Theorem slice_lats_sorted : forall h w P p es, 1 <= w -> lats_sorted w es ->
  lats_sorted w (map (fun e => mkE (ker e) (row e) ((col e / w - chunk_lo h P p) * w + col e mod w) (pv e)) (lat_slice h w P p es)).
Proof.
  intros h w P p es Hw LS k t. set (lo := chunk_lo h P p). set (g := fun e => mkE (ker e) (row e) ((col e / w - lo) * w + col e mod w) (pv e)).
  assert (Q : at_key k t (map g (lat_slice h w P p es)) = map g (at_key k t (lat_slice h w P p es))).
  { unfold at_key. induction (lat_slice h w P p es) as [|e l IH]; [reflexivity|]. cbn [map filter]. cbn [g ker row]. destruct (_ && _); cbn [map]; now rewrite IH. }
  rewrite Q. rewrite map_map. assert (D : forall e, col (g e) / w = col e / w - lo).
  { intros e. cbn [g col]. apply row_div. apply Nat.mod_upper_bound. lia. }
  rewrite (map_ext _ (fun e => col e / w - lo)) by (intros; apply D).
  assert (S : Sorted le (map (fun e => col e / w) (at_key k t (lat_slice h w P p es)))).
  { unfold at_key, lat_slice. rewrite filter_comm. apply sorted_app_filter. apply LS. }
  revert S. generalize (at_key k t (lat_slice h w P p es)). intros l S. induction l as [|e l IH]; [constructor|]. cbn [map] in *. inversion S as [|? ? S1 S2]; subst. constructor; [auto|]. destruct l; constructor. inversion S2; subst. lia.
Qed.
Theorem cuda_fwd_cpu : forall dev junk junk' K Ho Wo es roff es' (x : tensor R) B C Hi Wi k y,
  1 <= K -> psi_wf K Ho (Hi * Wi) es -> rows_sorted es -> kernels_separated K es -> es <> [] -> lats_sorted Wi es ->
  preprocess_psi junk K Ho es = Some (roff, es') -> shp x = [B; C; Hi; Wi] ->
  disco_cuda_fwd dev K Ho Wo roff es' x = Some k -> disco_cpu_fwd junk' K Ho Wo roff es' x = Some y -> computes k [B; C; K; Ho; Wo] y.
Proof.
  intros dev junk junk' K Ho Wo es roff es' x B C Hi Wi k y HK Wf RS SP NE LS PP Sx L Ey.
  assert (Q := cuda_fwd_spec dev junk K Ho Wo es roff es' x B C Hi Wi k HK Wf RS SP NE LS PP Sx L).
  assert (HWi : 1 <= Wi). { destruct es as [|e' es0]; [congruence|]. destruct (Wf e' (or_introl eq_refl)) as (_ & _ & X). destruct Wi; lia. }
  assert (M : 1 <= Wo /\ Wi mod Wo = 0). { destruct (shape4 _ _ _ _ _ Sx) as (N4 & D0 & D1 & D2 & D3). unfold disco_cuda_fwd in L. rewrite N4, D3 in L. cbn [Nat.eqb guard bindo] in L. destruct (Nat.leb_spec 1 Wo); [|discriminate]. destruct (Nat.eqb_spec (Wi mod Wo) 0); [auto|discriminate]. }
  destruct (cpu_fwd_spec junk junk' K Ho Wo es roff es' x B C Hi Wi) as (y' & E' & T); try tauto. rewrite Ey in E'. injection E' as <-.
  intros rg sh. destruct (Q rg sh) as (n & Hn). exists n. intros j u Hp. destruct (Hn j u Hp) as [A1 A2]. split; [exact A1|]. intros St. destruct (A2 St) as [A3 A4]. split; [exact A3|]. eapply teq_trans; [exact A4|]. now apply teq_sym.
Qed.
Theorem cuda_bwd_cpu : forall dev junk K Ho Wo es roff es' (y : tensor R) B C Hi Wi k x,
  1 <= K -> psi_wf K Hi (Ho * Wo) es -> rows_sorted es -> kernels_separated K es -> es <> [] -> lats_sorted Wo es ->
  preprocess_psi junk K Hi es = Some (roff, es') -> shp y = [B; C; K; Hi; Wi] ->
  disco_cuda_bwd dev K Ho Wo roff es' y = Some k -> disco_cpu_bwd K Ho Wo roff es' y = Some x -> computes k [B; C; Ho; Wo] x.
Proof.
  intros dev junk K Ho Wo es roff es' y B C Hi Wi k x HK Wf RS SP NE LS PP Sy L Ex.
  assert (Q := cuda_bwd_spec dev junk K Ho Wo es roff es' y B C Hi Wi k HK Wf RS SP NE LS PP Sy L).
  assert (HWo : 1 <= Wo). { destruct es as [|e' es0]; [congruence|]. destruct (Wf e' (or_introl eq_refl)) as (_ & _ & X). destruct Wo; lia. }
  assert (M : 1 <= Wi /\ Wo mod Wi = 0). { destruct (shape5 _ _ _ _ _ _ Sy) as (N5 & D0 & D1 & D2 & D3 & D4). unfold disco_cuda_bwd in L. rewrite N5, D4 in L. cbn [Nat.eqb guard bindo] in L. destruct (Nat.leb_spec 1 Wi); [|discriminate]. destruct (Nat.eqb_spec (Wo mod Wi) 0); [auto|discriminate]. }
  destruct (cpu_bwd_spec junk Ho Wo es roff es' y B C K Hi Wi) as (x' & E' & T); try tauto. rewrite Ex in E'. injection E' as <-.
  intros rg sh. destruct (Q rg sh) as (n & Hn). exists n. intros j u Hp. destruct (Hn j u Hp) as [A1 A2]. split; [exact A1|]. intros St. destruct (A2 St) as [A3 A4]. split; [exact A3|]. eapply teq_trans; [exact A4|]. now apply teq_sym.
Qed.
Lemma round_up_ge : forall n W, 1 <= n -> W <= round_up n W.
Proof. intros n W Hn. unfold round_up. pose proof (Nat.div_mod (W + n - 1) n ltac:(lia)). pose proof (Nat.mod_upper_bound (W + n - 1) n ltac:(lia)). lia. Qed.
Lemma lanes_pos : forall W, 1 <= lanes W.
Proof. intros. unfold lanes. repeat match goal with |- context [if ?c then _ else _] => destruct c end; lia. Qed.
Theorem cuda_fine : forall dev K Ho Wo roff es (x y : tensor R) B C Hi Wi, 1 <= Wi -> 1 <= Wo ->
  (d_shared dev < 2 * Wi -> shp x = [B; C; Hi; Wi] -> disco_cuda_fwd dev K Ho Wo roff es x = None) /\ (d_shared dev < 2 * Wo -> shp y = [B; C; K; Hi; Wi] -> disco_cuda_bwd dev K Ho Wo roff es y = None).
Proof.
  intros dev K Ho Wo roff es x y B C Hi Wi HWi HWo. split; intros H S.
  - destruct (disco_cuda_fwd dev K Ho Wo roff es x) eqn:E; [|reflexivity]. destruct (proj1 (cuda_fwd_launches dev K Ho Wo roff es x B C Hi Wi S HWo)) as (_ & _ & _ & _ & X); [eauto|]. exfalso. revert X. generalize (Wi / Wo * (round_up (lanes Wo) Wo - Wo)). intros; lia.
  - destruct (disco_cuda_bwd dev K Ho Wo roff es y) eqn:E; [|reflexivity]. destruct (proj1 (cuda_bwd_launches dev K Ho Wo roff es y B C Hi Wi S HWi HWo)) as (HM & _ & _ & _ & X); [eauto|]. exfalso.
    pose proof (mod0_mul Wo Wi HWi HM) as EW. pose proof (round_up_ge (lanes Wo) Wi (lanes_pos Wo)) as H1. pose proof (Nat.le_max_r (lanes Wo * least_share Wo) (round_up (lanes Wo) Wi)) as H2.
    set (M := Nat.max (lanes Wo * least_share Wo) (round_up (lanes Wo) Wi)) in *. set (ps := Wo / Wi) in *. assert (H3 : ps * Wi <= ps * M) by (apply Nat.mul_le_mono_l; lia). clearbody M ps. nia.
Qed.
