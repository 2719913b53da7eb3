(** Gradients of the DISCO layers. *)
From Coq Require Import List Arith Lia Bool Reals Lra Permutation Sorted.
From Verif Require Import TensorModel TensorProofs BigSum DistSpectralProofs SHTSpec DiscoModel DiscoGradModel DiscoSpec DiscoSortProofs DiscoRunProofs DiscoKernelProofs DiscoTensorProofs DiscoLayerProofs.
Import ListNotations.
Local Open Scope R_scope.

Lemma weight_adjoint_group : forall Og Cg K Ho Wo (Y : nat -> nat -> nat -> nat -> R) (g : nat -> nat -> nat -> R) (W : nat -> nat -> nat -> R),
  rsum Og (fun o => rsum Ho (fun t => rsum Wo (fun q => rsum Cg (fun c => rsum K (fun k => Y c k t q * W o c k)) * g o t q))) =
  rsum Cg (fun c => rsum K (fun k => rsum Ho (fun t => rsum Wo (fun q => Y c k t q * rsum Og (fun o => g o t q * W o c k))))).
Proof.
  intros.
  rewrite (rsum_ext Og _ (fun o => rsum Ho (fun t => rsum Wo (fun q => rsum Cg (fun c => rsum K (fun k => Y c k t q * (g o t q * W o c k))))))).
  2:{ intros o _. apply rsum_ext; intros t _; apply rsum_ext; intros q _. rewrite <- (bsum_scal_r RT). apply rsum_ext; intros c _.
      rewrite <- (bsum_scal_r RT). apply rsum_ext; intros k _. ring. }
  rewrite rsum_swap.
  rewrite (rsum_ext Ho _ (fun t => rsum Cg (fun c => rsum K (fun k => rsum Wo (fun q => Y c k t q * rsum Og (fun o => g o t q * W o c k)))))).
  2:{ intros t _. rewrite rsum_swap.
      rewrite (rsum_ext Wo _ (fun q => rsum Cg (fun c => rsum K (fun k => Y c k t q * rsum Og (fun o => g o t q * W o c k))))).
      - rewrite rsum_swap. apply rsum_ext; intros c _. apply rsum_swap.
      - intros q _. rewrite rsum_swap. apply rsum_ext; intros c _. rewrite rsum_swap. apply rsum_ext; intros k _. apply (bsum_scal_l RT). }
  rewrite rsum_swap. apply rsum_ext; intros c _. apply rsum_swap.
Qed.

Lemma weight_adjoint : forall G Og Cg K Ho Wo (Y : nat -> nat -> nat -> nat -> R) (g : nat -> nat -> nat -> R) (W : nat -> nat -> nat -> R),
  rsum (G * Og) (fun o => rsum Ho (fun t => rsum Wo (fun q => rsum Cg (fun c => rsum K (fun k => Y (o / Og * Cg + c)%nat k t q * W o c k)) * g o t q))) =
  rsum (G * Cg) (fun c => rsum K (fun k => rsum Ho (fun t => rsum Wo (fun q => Y c k t q * rsum Og (fun o => g (c / Cg * Og + o)%nat t q * W (c / Cg * Og + o)%nat (c mod Cg)%nat k))))).
Proof.
  intros. rewrite !(bsum_mul_range RT). apply rsum_ext; intros a _.
  transitivity (rsum Og (fun o => rsum Ho (fun t => rsum Wo (fun q => rsum Cg (fun c => rsum K (fun k => Y (a * Cg + c)%nat k t q * W (a * Og + o)%nat c k)) * g (a * Og + o)%nat t q)))).
  - apply rsum_ext; intros o Ho'. destruct (bc_div Og a o Ho') as [-> _]. reflexivity.
  - rewrite (weight_adjoint_group Og Cg K Ho Wo (fun c => Y (a * Cg + c)%nat) (fun o => g (a * Og + o)%nat) (fun o => W (a * Og + o)%nat)).
    apply rsum_ext; intros c Hc. destruct (bc_div Cg a c Hc) as [-> ->]. reflexivity.
Qed.

(** value of the input gradient *)
Definition dgrad_value (K Og Cg wi wo : nat) (es : list entry) (weight g : tensor R) (b c h j : nat) : R :=
  disco_adjoint_sum wi (wi / wo) wo es (fun k t q => rsum Og (fun o => val g [b; c / Cg * Og + o; t; q]%nat * val weight [c / Cg * Og + o; c mod Cg; k]%nat)) h j.
Definition dgrad_spec (K Og Cg hi wi wo : nat) (es : list entry) (weight g : tensor R) : tensor R :=
  mkT [dimsz g 0; dimsz g 1 / Og * Cg; hi; wi]%nat (fun i => dgrad_value K Og Cg wi wo es weight g (nth 0 i 0) (nth 1 i 0) (nth 2 i 0) (nth 3 i 0))%nat.

Lemma weight_dims : forall (weight : tensor R) a b c, shp weight = [a; b; c] ->
  ndim weight = 3%nat /\ dimsz weight 0 = a /\ dimsz weight 1 = b /\ dimsz weight 2 = c.
Proof. intros. unfold ndim, dimsz. rewrite H. auto. Qed.

Section Layer.
Variables (junk : nat -> entry) (hi wi ho wo G Og Cg K : nat) (weight : tensor R) (bias : option (tensor R)) (es : list entry) (d : disco_layer).
Hypothesis L : layer_ok K hi wi ho wo G Og Cg weight bias es.
Hypothesis I : conv_s2_init junk hi wi ho wo G K weight bias es = Some d.

Definition dgrad_at (B : nat) (g : tensor R) : tensor R :=
  mkT [B; G * Cg; hi; wi]%nat (fun i => dgrad_value K Og Cg wi wo es weight g (nth 0 i 0) (nth 1 i 0) (nth 2 i 0) (nth 3 i 0))%nat.

Lemma weight_first_spec : forall g B, shp g = [B; G * Og; ho; wo]%nat ->
  exists v, weight_first_dgrad d g = Some v /\ teq v (dgrad_at B g).
Proof.
  intros g B Sg. destruct L. destruct (conv_init_inv _ _ _ _ _ _ _ _ _ _ _ I) as (roff & es' & PP & ->).
  destruct (shape4 _ _ _ _ _ Sg) as (N4 & D0 & D1 & D2 & D3). destruct (weight_dims _ _ _ _ lo_weight) as (N3 & W0 & W1 & W2).
  unfold weight_first_dgrad, grad_expand. cbn [d_K d_nlat_in d_nlon_in d_roff d_es d_groups d_weight].
  rewrite N4, N3, W0, W1, W2, D0, D1, D2, D3, div_mul_l by auto. cbn [Nat.eqb andb guard bindo]. rewrite !Nat.eqb_refl.
  destruct (Nat.leb_spec 1 G); [|lia]. cbn [andb guard bindo].
  set (e := mkT _ _).
  destruct (cpu_bwd_spec junk hi wi es roff es' e B (G * Cg) K ho wo) as (v & E & T); auto.
  exists v. split; [exact E|]. eapply teq_trans; [exact T|]. split; [reflexivity|].
  intros i V. cbn [shp tensor_disco_adjoint] in V. destruct (valid4 _ _ _ _ _ V) as (b & c & h & j & -> & _). reflexivity.
Qed.

(** the per-kernel split *)
Definition sel (k : nat) (rs : list (list entry)) : list (list entry) :=
  filter (fun r => match r with e :: _ => (ker e =? k)%nat | [] => false end) rs.
Definition selz (k : nat) (rs : list (list entry)) : list (list entry) := map (map zero_ker) (sel k rs).

Lemma starts_snoc : forall A (rs : list (list A)) o r, starts o (rs ++ [r]) = starts o rs ++ [o + length (concat rs) + length r]%nat.
Proof.
  intros A rs. induction rs; intros; simpl; [f_equal; f_equal; lia|]. rewrite IHrs. simpl. rewrite app_length. f_equal. f_equal. f_equal. lia.
Qed.
Lemma starts_last : forall A (rs : list (list A)) o x, last (starts o rs) x = (o + length (concat rs))%nat.
Proof.
  intros A rs o x. destruct rs as [|r rs] using rev_ind; [simpl; lia|].
  rewrite starts_snoc, last_last, concat_app, app_length. simpl. rewrite app_nil_r. lia.
Qed.
Lemma firstn_S_nth : forall A (l : list A) n x, (n < length l)%nat -> firstn (S n) l = firstn n l ++ [nth n l x].
Proof. induction l; intros; simpl in *; [lia|]. destruct n; simpl; [reflexivity|]. f_equal. apply IHl. lia. Qed.
Lemma sel_app : forall k a b, sel k (a ++ b) = sel k a ++ sel k b.
Proof. intros. apply filter_app. Qed.

Lemma split_kernel_spec : forall rs k, (forall r, In r rs -> r <> []) ->
  split_kernel (starts 0 rs) (concat rs) k = (starts 0 (selz k rs), concat (selz k rs)).
Proof.
  intros rs k NE. unfold split_kernel. rewrite starts_length. simpl Nat.sub. rewrite Nat.sub_0_r.
  assert (H : forall n, (n <= length rs)%nat ->
    fold_left (split_row (starts 0 rs) (concat rs) k) (seq 0 n) ([0%nat], []) = (starts 0 (selz k (firstn n rs)), concat (selz k (firstn n rs)))).
  { induction n; intros Hn; [reflexivity|].
    rewrite seq_S, fold_left_app, IHn by lia. cbn [fold_left Nat.add]. unfold split_row.
    rewrite slice_starts by lia.
    assert (Nn : nth n rs [] <> []) by (apply NE, nth_In; lia).
    pose proof (head_starts _ rs n ltac:(lia) NE) as HS.
    rewrite (firstn_S_nth _ rs n []) by lia. unfold selz. rewrite sel_app, map_app.
    assert (LT : (nth (n + 1) (starts 0 rs) 0 - nth n (starts 0 rs) 0 = length (nth n rs []))%nat).
    { rewrite !starts_nth_bound by lia. rewrite Nat.add_1_r, (firstn_S_nth _ rs n []) by lia. rewrite concat_app, app_length. simpl. rewrite app_nil_r. lia. }
    destruct (nth n rs []) as [|e0 r] eqn:En; [congruence|].
    destruct (Nat.eqb_spec (nth n (starts 0 rs) 0%nat) (nth (n + 1) (starts 0 rs) 0%nat)) as [X|X]; [simpl in LT; lia|].
    assert (EA : e_at (concat rs) (nth n (starts 0 rs) 0%nat) = e0).
    { unfold e_at. apply nth_error_nth with (d := mkE 0 0 0 0) in HS. exact HS. }
    rewrite EA. assert (ES : sel k [e0 :: r] = if (ker e0 =? k)%nat then [e0 :: r] else []) by reflexivity. rewrite ES. clear ES. destruct (ker e0 =? k)%nat.
    - rewrite LT. cbn [map]. rewrite starts_snoc, concat_app, starts_last. cbn [concat Nat.add length]. rewrite app_nil_r.
      rewrite map_length. reflexivity.
    - cbn [map]. rewrite !app_nil_r. reflexivity. }
  rewrite H by lia. rewrite firstn_all. reflexivity.
Qed.

Lemma build_split_spec : forall rs n, (forall r, In r rs -> r <> []) ->
  build_split_csr (starts 0 rs) (concat rs) n =
  let ls := map (fun k => starts 0 (selz k rs)) (seq 0 n) in let xs := map (fun k => concat (selz k rs)) (seq 0 n) in
  mkSplit (concat ls) (starts 0 ls) (starts 0 xs) (concat xs).
Proof.
  intros rs n NE. unfold build_split_csr. induction n; [reflexivity|].
  rewrite seq_S, fold_left_app, IHn. cbn [fold_left Nat.add]. unfold split_step. rewrite split_kernel_spec by auto.
  cbn zeta. rewrite !map_app. cbn [map sc_roff sc_rowoff sc_nnzoff sc_es]. rewrite !starts_snoc, !concat_app, !starts_last.
  cbn [concat]. rewrite !app_nil_r. reflexivity.
Qed.

Lemma sel_sum : forall k rs (F : entry -> R), (forall r, In r rs -> same_key r) ->
  rlsum F (concat (selz k rs)) = rlsum (fun e => if (ker e =? k)%nat then F (zero_ker e) else 0) (concat rs).
Proof.
  intros k rs F SK. induction rs as [|r rs IH]; [reflexivity|].
  assert (IH' := IH (fun r' Hr' => SK r' (or_intror Hr'))). clear IH.
  cbn [concat]. rewrite (lsum_app RT). rewrite <- IH'.
  unfold selz, sel. cbn [filter]. destruct r as [|e0 r]; [cbn; rewrite Rplus_0_l; reflexivity|].
  assert (Q : forall e, In e (e0 :: r) -> ker e = ker e0).
  { intros e He. specialize (SK _ (or_introl eq_refl) e e0 He (or_introl eq_refl)). unfold key in SK. congruence. }
  destruct (ker e0 =? k)%nat eqn:E.
  - cbn [map concat]. rewrite (lsum_app RT). f_equal. change (zero_ker e0 :: map zero_ker r) with (map zero_ker (e0 :: r)).
    rewrite lsum_map. apply lsum_ext. intros e He. rewrite (Q e He), E. reflexivity.
  - assert (Z : rlsum (fun e => if (ker e =? k)%nat then F (zero_ker e) else 0) (e0 :: r) = 0).
    { transitivity (rlsum (fun _ : entry => 0) (e0 :: r)); [|apply (lsum_zero RT)]. apply lsum_ext. intros e He. rewrite (Q e He), E. reflexivity. }
    rewrite Z, Rplus_0_l. reflexivity.
Qed.

Lemma selz_ok : forall k rs, runs_ok rs -> runs_ok (selz k rs).
Proof.
  intros k rs [NE SK]. split; intros r Hr; apply in_map_iff in Hr; destruct Hr as (r0 & <- & Hr); apply filter_In in Hr; destruct Hr as [Hr _].
  - specialize (NE _ Hr). destruct r0; [congruence|discriminate].
  - intros e e' He He'. apply in_map_iff in He. apply in_map_iff in He'. destruct He as (a & <- & Ha). destruct He' as (b & <- & Hb).
    specialize (SK _ Hr a b Ha Hb). unfold key in *. cbn. congruence.
Qed.
Lemma selz_in : forall k rs e, In e (concat (selz k rs)) -> exists e0, In e0 (concat rs) /\ e = zero_ker e0.
Proof.
  intros k rs e He. apply in_concat in He. destruct He as (r & Hr & He). apply in_map_iff in Hr. destruct Hr as (r0 & <- & Hr).
  apply in_map_iff in He. destruct He as (e0 & <- & He). exists e0. split; [|reflexivity].
  apply filter_In in Hr. apply in_concat. exists r0. tauto.
Qed.

Lemma spatial_first_spec : forall g B, shp g = [B; G * Og; ho; wo]%nat ->
  exists v, spatial_first_dgrad d g = Some v /\ teq v (dgrad_at B g).
Proof.
  intros g B Sg. destruct L. destruct (conv_init_inv _ _ _ _ _ _ _ _ _ _ _ I) as (roff & es' & PP & ->).
  destruct (preprocess_runs _ _ _ _ _ _ _ lo_K lo_wf lo_rows lo_sep lo_ne PP) as (rs & -> & -> & RO & ND & PM).
  destruct (shape4 _ _ _ _ _ Sg) as (N4 & D0 & D1 & D2 & D3). destruct (weight_dims _ _ _ _ lo_weight) as (N3 & W0 & W1 & W2).
  unfold spatial_first_dgrad. cbn [d_K d_nlat_in d_nlon_in d_roff d_es d_groups d_weight].
  rewrite N4, N3, W0, W1, D0, D1, D2, D3, div_mul_l by auto. cbn [Nat.eqb andb guard bindo]. rewrite !Nat.eqb_refl.
  destruct (Nat.leb_spec 1 G); [|lia]. cbn [andb guard bindo].
  set (small := mkT _ _). assert (Ss : shp small = [B; G * Og; 1; ho; wo]%nat) by reflexivity.
  rewrite build_split_spec by apply RO. cbn zeta.
  set (ls := map _ (seq 0 K)). set (xs := map _ (seq 0 K)).
  assert (P : forall k, (k < K)%nat -> exists p, spatial_part (mkSplit (concat ls) (starts 0 ls) (starts 0 xs) (concat xs)) hi wi small k = Some p /\
     forall b o h j, (b < B)%nat -> (o < G * Og)%nat -> (h < hi)%nat -> (j < wi)%nat -> val p [b; o; h; j] =
       rlsum (fun e => if (ker e =? k)%nat then if (col e / wi =? h)%nat then pv e * rsum wo (fun q => if ((col e mod wi + wi / wo * q) mod wi =? j)%nat then val g [b; o; row e; q] else 0) else 0 else 0) es).
  { intros k Hk. unfold spatial_part. cbn [sc_roff sc_rowoff sc_nnzoff sc_es].
    rewrite !slice_starts by (unfold ls, xs; rewrite map_length, seq_length; auto).
    assert (El : nth k ls [] = starts 0 (selz k rs)).
    { unfold ls. rewrite (nth_indep _ [] (starts 0 (selz 0 rs))) by (rewrite map_length, seq_length; auto).
      rewrite (map_nth (fun k => starts 0 (selz k rs))), seq_nth by auto. reflexivity. }
    assert (Ex : nth k xs [] = concat (selz k rs)).
    { unfold xs. rewrite (nth_indep _ [] (concat (selz 0 rs))) by (rewrite map_length, seq_length; auto).
      rewrite (map_nth (fun k => concat (selz k rs))), seq_nth by auto. reflexivity. }
    rewrite El, Ex, starts_length.
    assert (SUM : forall b o h j, disco_adjoint_sum wi (wi / wo) wo (concat (selz k rs)) (fun _ t q => val g [b; o; t; q]) h j =
        rlsum (fun e => if (ker e =? k)%nat then if (col e / wi =? h)%nat then pv e * rsum wo (fun q => if ((col e mod wi + wi / wo * q) mod wi =? j)%nat then val g [b; o; row e; q] else 0) else 0 else 0) es).
    { intros. unfold disco_adjoint_sum. rewrite sel_sum by apply RO. apply (lsum_perm RT). exact PM. }
    destruct (Nat.leb_spec (S (length (selz k rs))) 1) as [Z|Z].
    - destruct (selz k rs) eqn:Es; [|simpl in Z; lia]. eexists. split; [reflexivity|].
      intros b o h j _ _ _ _. rewrite <- SUM. reflexivity.
    - destruct (cpu_bwd_runs hi wi (selz k rs) small B (G * Og) 1 ho wo) as (p & E & T); auto using selz_ok.
      + intros e He. destruct (selz_in _ _ _ He) as (e0 & He0 & ->). apply (Permutation_in _ PM) in He0. destruct (lo_wf e0 He0) as (?&?&?).
        cbn. auto.
      + exists p. split; [exact E|]. intros b o h j Hb Hoo Hh Hj. destruct T as [TS TV]. rewrite TV.
        * unfold tensor_disco_adjoint. cbn [val nth]. unfold dimsz. rewrite Ss. cbn [nth]. rewrite <- SUM. reflexivity.
        * rewrite TS. unfold tensor_disco_adjoint, dimsz. rewrite Ss. cbn [shp nth]. apply valid4_intro; auto. }
  destruct (mapM_Forall2 _ _ (spatial_part (mkSplit (concat ls) (starts 0 ls) (starts 0 xs) (concat xs)) hi wi small) (seq 0 K)) as (parts & EM & FA).
  { intros k Hk. apply in_seq in Hk. destruct (P k ltac:(lia)) as (p & E & _). eauto. }
  rewrite EM. cbn [bindo]. eexists. split; [reflexivity|]. split; [reflexivity|].
  intros i V. cbn [shp] in V. destruct (valid4 _ _ _ _ _ V) as (b & c & h & j & -> & Hb & Hc & Hh & Hj). cbn [val nth dgrad_at].
  assert (VP : forall k o, (k < K)%nat -> (o < G * Og)%nat -> val (nth k parts (const_t 0 [])) [b; o; h; j] =
       rlsum (fun e => if (ker e =? k)%nat then if (col e / wi =? h)%nat then pv e * rsum wo (fun q => if ((col e mod wi + wi / wo * q) mod wi =? j)%nat then val g [b; o; row e; q] else 0) else 0 else 0) es).
  { intros k o Hk Hoo. destruct (P k Hk) as (p & E & VV). rewrite <- VV by auto. f_equal. f_equal.
    assert (Q : nth_error parts k = Some p).
    { assert (G1 : forall (l : list nat) ps n, Forall2 (fun a b => spatial_part (mkSplit (concat ls) (starts 0 ls) (starts 0 xs) (concat xs)) hi wi small a = Some b) l ps ->
         forall a, nth_error l n = Some a -> exists b, nth_error ps n = Some b /\ spatial_part (mkSplit (concat ls) (starts 0 ls) (starts 0 xs) (concat xs)) hi wi small a = Some b).
      { clear. induction l; intros ps n F; inversion F; subst; intros; [destruct n; discriminate|]. destruct n; simpl in *; [injection H as <-; eauto|]. eapply IHl; eauto. }
      destruct (G1 _ _ k FA k) as (p' & E1 & E2).
      - rewrite (nth_error_nth' _ 0%nat) by (rewrite seq_length; auto). rewrite seq_nth by auto. reflexivity.
      - congruence. }
    apply nth_error_nth. exact Q. }
  assert (Cc : (c / Cg < G)%nat).
  { destruct (Nat.eq_dec Cg 0); [subst; lia|]. apply Nat.div_lt_upper_bound; nia. }
  rewrite (rsum_ext Og _ (fun o => rsum K (fun k => rlsum (fun e => if (k =? ker e)%nat then (if (col e / wi =? h)%nat then pv e * rsum wo (fun q => if ((col e mod wi + wi / wo * q) mod wi =? j)%nat then val g [b; c / Cg * Og + o; row e; q]%nat else 0) else 0) * val weight [c / Cg * Og + o; c mod Cg; k]%nat else 0) es))).
  2:{ intros o Ho'. apply rsum_ext. intros k Hk. rewrite VP by (auto; nia). rewrite <- (lsum_scal_r RT). apply lsum_ext. intros e _.
      rewrite (Nat.eqb_sym k). destruct (ker e =? k)%nat; ring. }
  rewrite (rsum_ext Og _ (fun o => rlsum (fun e => (if (col e / wi =? h)%nat then pv e * rsum wo (fun q => if ((col e mod wi + wi / wo * q) mod wi =? j)%nat then val g [b; c / Cg * Og + o; row e; q]%nat else 0) else 0) * val weight [c / Cg * Og + o; c mod Cg; ker e]%nat) es)).
  2:{ intros o Ho'. rewrite <- (lsum_bsum_swap RT). apply lsum_ext. intros e He.
      apply (bsum_delta_f RT K (ker e) (fun k => (if (col e / wi =? h)%nat then _ else 0) * val weight [c / Cg * Og + o; c mod Cg; k]%nat)). apply (lo_wf e He). }
  rewrite <- (lsum_bsum_swap RT). unfold dgrad_value, disco_adjoint_sum. apply lsum_ext. intros e He.
  destruct (col e / wi =? h)%nat; [|apply (bsum_zero' RT); intros; ring].
  rewrite (rsum_ext Og _ (fun o => pv e * rsum wo (fun q => if ((col e mod wi + wi / wo * q) mod wi =? j)%nat then val g [b; c / Cg * Og + o; row e; q]%nat * val weight [c / Cg * Og + o; c mod Cg; ker e]%nat else 0))).
  2:{ intros o _. rewrite Rmult_assoc, <- (bsum_scal_r RT). f_equal. apply rsum_ext. intros q _. destruct (_ =? j)%nat; ring. }
  rewrite (bsum_scal_l RT). f_equal. rewrite rsum_swap. apply rsum_ext. intros q _. apply rsum_if.
Qed.

Lemma conv_dgrad_spec : forall g B, shp g = [B; G * Og; ho; wo]%nat ->
  exists v, conv_s2_dgrad d g = Some v /\ teq v (dgrad_at B g).
Proof. intros. unfold conv_s2_dgrad. destruct (use_spatial_first _ _ _); [apply spatial_first_spec|apply weight_first_spec]; auto. Qed.

Lemma conv_diff : forall B x y, shp x = [B; G * Cg; hi; wi]%nat -> shp y = [B; G * Og; ho; wo]%nat ->
  inner4 (conv_spec K Og Cg ho wo es weight bias x) y =
  inner4 x (dgrad_at B y) + rsum B (fun b => rsum (G * Og) (fun o => rsum ho (fun t => rsum wo (fun q => bias_at bias o * val y [b; o; t; q])))).
Proof.
  intros B x g Sx Sg. destruct L.
  destruct (shape4 _ _ _ _ _ Sx) as (_ & D0 & D1 & D2 & D3). destruct (weight_dims _ _ _ _ lo_weight) as (N3 & W0 & W1 & W2).
  unfold inner4, conv_spec, dimsz. cbn [shp nth val]. unfold dimsz. rewrite Sx, lo_weight. cbn [nth]. rewrite <- (bsum_plus RT). apply rsum_ext. intros b Hb.
  unfold conv_value.
  rewrite (rsum_ext (G * Og) _ (fun o => rsum ho (fun t => rsum wo (fun q => rsum Cg (fun c => rsum K (fun k => disco_sum wi (wi / wo) es (fun h w => val x [b; o / Og * Cg + c; h; w]%nat) k t q * val weight [o; c; k])) * val g [b; o; t; q]))
      + rsum ho (fun t => rsum wo (fun q => bias_at bias o * val g [b; o; t; q])))).
  2:{ intros o _. rewrite <- (bsum_plus RT). apply rsum_ext. intros t _. rewrite <- (bsum_plus RT). apply rsum_ext. intros q _. ring. }
  rewrite (bsum_plus RT). f_equal.
  rewrite (weight_adjoint G Og Cg K ho wo (fun c k t q => disco_sum wi (wi / wo) es (fun h w => val x [b; c; h; w]) k t q) (fun o t q => val g [b; o; t; q]) (fun o c k => val weight [o; c; k])).
  apply rsum_ext. intros c Hc. cbn [dgrad_at val nth]. unfold dgrad_value.
  apply (adjoint_plane K ho hi wi (wi / wo) wo es (fun h w => val x [b; c; h; w])); auto.
Qed.
End Layer.

Lemma inner4_teq_l : forall x x' y : tensor R, teq x x' -> ndim x = 4%nat -> inner4 x y = inner4 x' y.
Proof.
  intros x x' y [S V] N. unfold inner4, dimsz. rewrite <- S. unfold ndim in N.
  destruct (shp x) as [|a [|b [|c [|e [|]]]]] eqn:E; try discriminate. cbn [nth].
  repeat (apply rsum_ext; intros). f_equal. apply V. apply valid4_intro; auto.
Qed.
Lemma inner4_teq_r : forall x y y' : tensor R, teq y y' -> shp x = shp y -> ndim x = 4%nat -> inner4 x y = inner4 x y'.
Proof.
  intros x y y' [S V] Sxy N. unfold inner4, dimsz. unfold ndim in N.
  destruct (shp x) as [|a [|b [|c [|e [|]]]]] eqn:E; try discriminate. cbn [nth].
  repeat (apply rsum_ext; intros). f_equal. apply V. rewrite <- Sxy. apply valid4_intro; auto.
Qed.

(** The input gradient is exact: changing the input changes <output, g> by
    <change, gradient>. *)
Lemma conv_input_gradient : forall junk junk' hi wi ho wo G Og Cg K weight bias es d (x x' g : tensor R) B,
  layer_ok K hi wi ho wo G Og Cg weight bias es -> conv_s2_init junk hi wi ho wo G K weight bias es = Some d ->
  shp x = [B; G * Cg; hi; wi]%nat -> shp x' = [B; G * Cg; hi; wi]%nat -> shp g = [B; G * Og; ho; wo]%nat ->
  exists z z' v, conv_s2_opt junk' d x = Some z /\ conv_s2_opt junk' d x' = Some z' /\ conv_s2_dgrad d g = Some v /\
    shp v = shp x /\ inner4 z' g - inner4 z g = inner4 x' v - inner4 x v.
Proof.
  intros junk junk' hi wi ho wo G Og Cg K weight bias es d x x' g B L I Sx Sx' Sg.
  destruct (conv_opt_spec junk junk' hi wi ho wo G Og Cg K weight bias es d x B L I Sx) as (z & Ez & Tz).
  destruct (conv_opt_spec junk junk' hi wi ho wo G Og Cg K weight bias es d x' B L I Sx') as (z' & Ez' & Tz').
  destruct (conv_dgrad_spec junk hi wi ho wo G Og Cg K weight bias es d L I g B Sg) as (v & Ev & Tv).
  exists z, z', v. split; [exact Ez|]. split; [exact Ez'|]. split; [exact Ev|].
  assert (Sv : shp v = [B; G * Cg; hi; wi]%nat) by (destruct Tv as [S _]; rewrite S; reflexivity).
  split; [congruence|].
  assert (Nz : ndim z = 4%nat) by (destruct Tz as [S _]; unfold ndim; rewrite S; reflexivity).
  assert (Nz' : ndim z' = 4%nat) by (destruct Tz' as [S _]; unfold ndim; rewrite S; reflexivity).
  rewrite (inner4_teq_l _ _ _ Tz Nz), (inner4_teq_l _ _ _ Tz' Nz').
  rewrite !(conv_diff hi wi ho wo G Og Cg K weight bias es L B) by auto.
  rewrite (inner4_teq_r x v _ Tv), (inner4_teq_r x' v _ Tv) by (try congruence; unfold ndim; rewrite ?Sx, ?Sx'; reflexivity). ring.
Qed.

(** ** Weight gradient *)
Lemma conv_wgrad_value : forall junk junk' hi wi ho wo G Og Cg K weight bias es d (x g : tensor R) B,
  layer_ok K hi wi ho wo G Og Cg weight bias es -> conv_s2_init junk hi wi ho wo G K weight bias es = Some d ->
  shp x = [B; G * Cg; hi; wi]%nat -> shp g = [B; G * Og; ho; wo]%nat ->
  exists V, conv_s2_wgrad junk' d x g = Some V /\ shp V = [G * Og; Cg; K]%nat /\
    forall o c k, (o < G * Og)%nat -> (c < Cg)%nat -> (k < K)%nat -> val V [o; c; k] =
      rsum B (fun b => rsum ho (fun t => rsum wo (fun q => val g [b; o; t; q] * disco_sum wi (wi / wo) es (fun h w => val x [b; o / Og * Cg + c; h; w]%nat) k t q))).
Proof.
  intros junk junk' hi wi ho wo G Og Cg K weight bias es d x g B L I Sx Sg. destruct L.
  destruct (conv_init_inv _ _ _ _ _ _ _ _ _ _ _ I) as (roff & es' & PP & ->).
  destruct (cpu_fwd_spec junk junk' K ho wo es roff es' x B (G * Cg) hi wi) as (y & E & T); auto.
  unfold conv_s2_wgrad. cbn [d_K d_nlat_out d_nlon_out d_roff d_es d_groups d_weight d_bias]. rewrite E. cbn [bindo].
  destruct (shape4 _ _ _ _ _ Sx) as (_ & D0 & D1 & D2 & D3). destruct (shape4 _ _ _ _ _ Sg) as (N4 & E0 & E1 & E2 & E3).
  destruct (weight_dims _ _ _ _ lo_weight) as (N3 & W0 & W1 & W2).
  assert (Sy : shp y = [B; G * Cg; K; ho; wo]%nat) by (destruct T as [S _]; rewrite S; unfold tensor_disco; cbn [shp]; rewrite D0, D1; reflexivity).
  destruct (shape5 _ _ _ _ _ _ Sy) as (_ & F0 & F1 & F2 & F3 & F4).
  rewrite N4, W0, W1, F0, F1, F3, F4, E0, E2, E3, Sg, div_mul_l by auto.
  assert (SE : shape_eqb [B; G * Og; ho; wo]%nat [B; G * Og; ho; wo]%nat = true) by (apply shape_eqb_true; reflexivity).
  rewrite SE, !Nat.eqb_refl. destruct (Nat.leb_spec 1 G); [|lia]. cbn [Nat.eqb andb guard bindo].
  eexists. split; [reflexivity|]. split; [reflexivity|].
  intros o c k Ho Hc Hk. cbn [val nth]. apply rsum_ext; intros b Hb. apply rsum_ext; intros t Ht. apply rsum_ext; intros q Hq. f_equal.
  destruct T as [_ TV]. rewrite TV by (rewrite Sy; apply valid5_intro; auto; eapply group_idx; eauto).
  unfold tensor_disco. cbn [val nth]. rewrite D3. reflexivity.
Qed.

Lemma conv_weight_gradient : forall junk junk' hi wi ho wo G Og Cg K weight weight' bias es d d' (x g : tensor R) B,
  layer_ok K hi wi ho wo G Og Cg weight bias es -> layer_ok K hi wi ho wo G Og Cg weight' bias es ->
  conv_s2_init junk hi wi ho wo G K weight bias es = Some d -> conv_s2_init junk hi wi ho wo G K weight' bias es = Some d' ->
  shp x = [B; G * Cg; hi; wi]%nat -> shp g = [B; G * Og; ho; wo]%nat ->
  exists z z' V, conv_s2_opt junk' d x = Some z /\ conv_s2_opt junk' d' x = Some z' /\ conv_s2_wgrad junk' d x g = Some V /\
    shp V = shp weight /\ inner4 z' g - inner4 z g = inner3 weight' V - inner3 weight V.
Proof.
  intros junk junk' hi wi ho wo G Og Cg K weight weight' bias es d d' x g B L L' I I' Sx Sg.
  destruct (conv_opt_spec junk junk' hi wi ho wo G Og Cg K weight bias es d x B L I Sx) as (z & Ez & Tz).
  destruct (conv_opt_spec junk junk' hi wi ho wo G Og Cg K weight' bias es d' x B L' I' Sx) as (z' & Ez' & Tz').
  destruct (conv_wgrad_value junk junk' hi wi ho wo G Og Cg K weight bias es d x g B L I Sx Sg) as (V & EV & SV & VV).
  exists z, z', V. split; [exact Ez|]. split; [exact Ez'|]. split; [exact EV|].
  assert (Sw := lo_weight _ _ _ _ _ _ _ _ _ _ _ L). assert (Sw' := lo_weight _ _ _ _ _ _ _ _ _ _ _ L').
  split; [congruence|].
  assert (Nz : ndim z = 4%nat) by (destruct Tz as [S _]; unfold ndim; rewrite S; reflexivity).
  assert (Nz' : ndim z' = 4%nat) by (destruct Tz' as [S _]; unfold ndim; rewrite S; reflexivity).
  rewrite (inner4_teq_l _ _ _ Tz Nz), (inner4_teq_l _ _ _ Tz' Nz').
  destruct (shape4 _ _ _ _ _ Sx) as (_ & D0 & D1 & D2 & D3).
  assert (X : forall W, shp W = [G * Og; Cg; K]%nat -> inner4 (conv_spec K Og Cg ho wo es W bias x) g =
     inner3 W V + rsum B (fun b => rsum (G * Og) (fun o => rsum ho (fun t => rsum wo (fun q => bias_at bias o * val g [b; o; t; q]))))).
  { intros W SW. destruct (weight_dims _ _ _ _ SW) as (_ & W0 & W1 & W2).
    unfold inner4, conv_spec, dimsz. cbn [shp nth val]. unfold dimsz. rewrite Sx, SW. cbn [nth]. unfold conv_value.
    rewrite (rsum_ext B _ (fun b => rsum (G * Og) (fun o => rsum ho (fun t => rsum wo (fun q => rsum Cg (fun c => rsum K (fun k => val W [o; c; k] * (val g [b; o; t; q] * disco_sum wi (wi / wo) es (fun h w => val x [b; o / Og * Cg + c; h; w]%nat) k t q))))))
       + rsum (G * Og) (fun o => rsum ho (fun t => rsum wo (fun q => bias_at bias o * val g [b; o; t; q]))))).
    2:{ intros b _. rewrite <- (bsum_plus RT). apply rsum_ext; intros o _. rewrite <- (bsum_plus RT). apply rsum_ext; intros t _. rewrite <- (bsum_plus RT). apply rsum_ext; intros q _.
        rewrite Rmult_plus_distr_r. f_equal. rewrite <- (bsum_scal_r RT). apply rsum_ext; intros c _. rewrite <- (bsum_scal_r RT). apply rsum_ext; intros k _. ring. }
    rewrite (bsum_plus RT). f_equal. unfold inner3. rewrite W0, W1, W2. rewrite rsum_swap. apply rsum_ext; intros o Ho.
    transitivity (rsum Cg (fun c => rsum K (fun k => rsum B (fun b => rsum ho (fun t => rsum wo (fun q => val W [o; c; k] * (val g [b; o; t; q] * disco_sum wi (wi / wo) es (fun h w => val x [b; o / Og * Cg + c; h; w]%nat) k t q))))))).
    - rewrite (rsum_ext B _ (fun b => rsum Cg (fun c => rsum K (fun k => rsum ho (fun t => rsum wo (fun q => val W [o; c; k] * (val g [b; o; t; q] * disco_sum wi (wi / wo) es (fun h w => val x [b; o / Og * Cg + c; h; w]%nat) k t q))))))).
      + rewrite rsum_swap. apply rsum_ext; intros c _. apply rsum_swap.
      + intros b _.
        rewrite (rsum_ext ho _ (fun t => rsum Cg (fun c => rsum K (fun k => rsum wo (fun q => val W [o; c; k] * (val g [b; o; t; q] * disco_sum wi (wi / wo) es (fun h w => val x [b; o / Og * Cg + c; h; w]%nat) k t q)))))).
        * rewrite rsum_swap. apply rsum_ext; intros c _. apply rsum_swap.
        * intros t _. rewrite rsum_swap. apply rsum_ext; intros c _. apply rsum_swap.
    - apply rsum_ext; intros c Hc. apply rsum_ext; intros k Hk. rewrite VV by auto.
      rewrite <- (bsum_scal_l RT). apply rsum_ext; intros b _. rewrite <- (bsum_scal_l RT). apply rsum_ext; intros t _. apply (bsum_scal_l RT). }
  rewrite !X by auto. ring.
Qed.
