(** The reordered schedule of the distributed DISCO convolution: partial channel sums on
    the ranks, reduced over both axes. *)
From Coq Require Import List Arith Lia Bool Reals Lra.
From Verif Require Import TensorModel TensorProofs BigSum PrimModel PrimSpec PrimProofs PrimProofs2 PrimAutogradModel PrimPropProofs DistSHTModel DistSHTProofs DistSHTProofs2 DistMiscProofs DistSpectralProofs
  DiscoModel DiscoSpec DiscoTensorProofs DiscoLayerProofs DiscoRunProofs DistDiscoModel DistDiscoSpec DistDiscoProofs DistDiscoProofs2.
Import ListNotations.
Local Open Scope nat_scope.

Definition inb (lo hi i : nat) : bool := (lo <=? i) && (i <? hi).
Lemma inb_true : forall lo hi i, lo <= i < hi -> inb lo hi i = true.
Proof. intros. unfold inb. apply andb_true_iff. rewrite Nat.leb_le, Nat.ltb_lt. auto. Qed.
Lemma inb_false : forall lo hi i, ~ (lo <= i < hi) -> inb lo hi i = false.
Proof. intros. unfold inb. apply andb_false_iff. rewrite Nat.leb_gt, Nat.ltb_ge. lia. Qed.
Lemma rsum_mask : forall n lo len (f : nat -> R), lo + len <= n -> rsum n (fun i => if inb lo (lo + len) i then f i else 0%R) = rsum len (fun i => f (i + lo)).
Proof.
  intros n lo len f H. replace n with (lo + (len + (n - lo - len))) by lia. rewrite (bsum_split RT lo), (bsum_split RT len).
  rewrite (bsum_zero' RT lo), (bsum_zero' RT (n - lo - len)).
  - rewrite Rplus_0_l, Rplus_0_r. apply rsum_ext. intros i Hi. rewrite inb_true by lia. f_equal. lia.
  - intros i Hi. rewrite inb_false by lia. reflexivity.
  - intros i Hi. rewrite inb_false by lia. reflexivity.
Qed.
Lemma disco_sum_zero : forall w ps es f k t q, (forall h j, f h j = 0%R) -> disco_sum w ps es f k t q = 0%R.
Proof.
  intros. unfold disco_sum. transitivity (rlsum (fun _ : entry => 0%R) es); [|apply (lsum_zero RT)]. apply lsum_ext. intros e _. destruct (_ && _); [|reflexivity]. rewrite H. ring.
Qed.
Lemma contract_value : forall g Og Cg K B n m (w y : tensor R), 1 <= g -> shp w = [g * Og; Cg; K] -> shp y = [B; g * Cg; K; n; m] ->
  weight_contract g w y = Some (mkT [B; g * Og; n; m] (fun i => rsum Cg (fun c => rsum K (fun k => (val y [nth 0 i 0; nth 1 i 0 / Og * Cg + c; k; nth 2 i 0; nth 3 i 0]%nat * val w [nth 1 i 0; c; k]%nat)%R)))).
Proof.
  intros g Og Cg K B n m w y Hg Sw Sy. unfold weight_contract, ndim, dimsz. rewrite Sw, Sy. cbn [length nth Nat.eqb andb guard bindo]. rewrite div_mul_l, !Nat.eqb_refl by auto.
  destruct (Nat.leb_spec 1 g); [|lia]. reflexivity.
Qed.

Section Reordered.
Context (P A hi wi ho wo G Og Cg K B : nat) (weight : tensor R) (bias : option (tensor R)) (es : list entry).
Context (HP : 1 <= P) (HA : 1 <= A) (HPi : P <= hi) (HAi : A <= wi) (HPo : P <= ho) (HAo : A <= wo) (HAC : A <= G * Cg).
Context (HG : 1 <= G) (Hwi : 1 <= wi) (Hwo : 1 <= wo) (Sw : shp weight = [G * Og; Cg; K]) (Bo : bias_ok bias (G * Og)) (Hes : forall e, In e es -> col e < hi * wi).
Context (X : tensor R) (SX : shp X = [B; G * Cg; hi; wi]).
Let les (p : nat) : list entry := map (local_entry (chunk_lo hi P p) wi) (lat_slice hi wi P p es).
Let clo (a : nat) := chunk_lo (G * Cg) A a.
Let chi (a : nat) := chunk_lo (G * Cg) A (S a).
Let D (l : list entry) (b c k t q : nat) : R := disco_sum wi (wi / wo) l (fun h w => val X [b; c; h; w]) k t q.

(** what rank (p, a) contributes *)
Definition contrib (p a : nat) : tensor R := mkT [B; G * Og; ho; wo] (fun i => rsum Cg (fun c => rsum K (fun k =>
  Rmult (if inb (clo a) (chi a) (nth 1 i 0 / Og * Cg + c) then D (lat_slice hi wi P p es) (nth 0 i 0) (nth 1 i 0 / Og * Cg + c) k (nth 2 i 0) (nth 3 i 0) else 0%R) (val weight [nth 1 i 0; c; k])))).

Lemma chi_len : forall a, a < A -> clo a + chunk_len (G * Cg) A a = chi a /\ chi a <= G * Cg /\ clo a < chi a.
Proof. intros a Ha. pose proof (chunk_bound (G * Cg) A a HA Ha). pose proof (chunk_len_pos (G * Cg) A a HA HAC Ha). unfold clo, chi. unfold chunk_len in *. lia. Qed.

Lemma local_D : forall p a t b c k t0 q, p < P -> a < A -> teq t (shard 1 A a (shard 2 P p X)) -> b < B -> c < chunk_len (G * Cg) A a ->
  disco_sum wi (wi / wo) (les p) (fun h w => val t [b; c; h; w]) k t0 q = D (lat_slice hi wi P p es) b (c + clo a) k t0 q.
Proof.
  intros p a t b c k t0 q Hp Ha [TS TV] Hb Hc.
  assert (S2 : shp (shard 2 P p X) = [B; G * Cg; chunk_len hi P p; wi]) by (rewrite (shard4 X B (G * Cg) hi wi); auto).
  assert (S1 : shp (shard 1 A a (shard 2 P p X)) = [B; chunk_len (G * Cg) A a; chunk_len hi P p; wi]) by (rewrite (shard4 _ _ _ _ _ _ _ _ S2); auto).
  transitivity (disco_sum wi (wi / wo) (les p) (fun h w => (fun h w => val X [b; c + clo a; h; w]) (h + chunk_lo hi P p) w) k t0 q).
  - apply (disco_sum_ext _ _ _ _ _ _ _ _ (chunk_len hi P p)); auto.
    + intros e He. unfold les in He. apply in_map_iff in He. destruct He as (e0 & <- & He). apply in_slice in He. destruct He as (He & L). cbn [col local_entry]. unfold chunk_len. pose proof (Nat.mod_upper_bound (col e0) wi ltac:(lia)). nia.
    + intros h w Hh Hw. rewrite TV by (rewrite TS, S1; apply valid4_intro; auto). rewrite shard_val. cbn [upd nth]. rewrite shard_val. cbn [upd nth]. unfold dimsz. rewrite S2, SX. reflexivity.
  - unfold les, D. apply (local_disco wi (wi / wo) (chunk_lo hi P p) (lat_slice hi wi P p es) (fun h w => val X [b; c + clo a; h; w])); auto. intros e He. apply in_slice in He. tauto.
Qed.

Lemma reordered_one : forall junk d p a t, rank_ok P A hi wi ho wo G K B weight bias es junk true d -> p < P -> a < A -> teq t (shard 1 A a (shard 2 P p X)) ->
  returns (do o <- d p a; reordered_local junk A a o t) (contrib p a).
Proof.
  intros junk d p a t RK Hp Ha Tt. destruct (RK p a Hp Ha) as (o & E & _ & Eg & Ew & _ & C). rewrite E. cbn [bindo].
  destruct (chi_len a Ha) as (C1 & C2 & C3). set (len := chunk_len (G * Cg) A a) in *.
  assert (HCg : 1 <= Cg) by nia.
  assert (S2 : shp (shard 2 P p X) = [B; G * Cg; chunk_len hi P p; wi]) by (rewrite (shard4 X B (G * Cg) hi wi); auto).
  assert (St : shp t = [B; len; chunk_len hi P p; wi]) by (rewrite (teq_shp _ _ _ Tt), (shard4 _ _ _ _ _ _ _ _ S2); auto).
  unfold reordered_local. cbv zeta. rewrite Ew, Eg.
  assert (W0 : dimsz weight 0 = G * Og) by (unfold dimsz; rewrite Sw; auto). assert (W1 : dimsz weight 1 = Cg) by (unfold dimsz; rewrite Sw; auto).
  assert (L1 : dimsz t 1 = len) by (unfold dimsz; rewrite St; auto). rewrite W0, W1, L1, div_mul_l by auto.
  assert (CS : (if 1 <? A then do s <- compute_split_shapes (G * Cg) A; Some (sum_list (firstn a s)) else Some 0) = Some (clo a)).
  { destruct (Nat.ltb_spec 1 A); [rewrite css_some by auto; cbn [bindo]; rewrite chunk_lo_sum by lia; reflexivity|]. assert (a = 0) by lia. subst a. unfold clo, chunk_lo. cbn. reflexivity. }
  rewrite CS. cbn [bindo]. rewrite C1. destruct (Nat.leb_spec (chi a) (G * Cg)); [|lia]. cbn [guard bindo].
  unfold local_contraction in C. destruct (Nat.eqb_spec G 1) as [G1|G1].
  - (* one group *)
    destruct (C len t St) as (y & Ey & Ty). rewrite Ey. cbn [bindo].
    assert (Sy : shp y = [B; 1 * len; K; ho; wo]) by (rewrite (teq_shp _ _ _ Ty); unfold tensor_disco, dimsz; cbn [shp]; rewrite St, Nat.mul_1_l; reflexivity).
    rewrite (contract_value 1 Og len K B ho wo _ y); auto; [|unfold narrow; cbn [shp]; rewrite Sw, G1; cbn [upd]; reflexivity].
    apply returns_Some. split; [cbn [shp contrib]; rewrite G1; reflexivity|]. intros i Vi. cbn [shp] in Vi. destruct (valid4 _ _ _ _ _ Vi) as (b & o' & t0 & q & -> & Hb & Ho' & Ht & Hq).
    cbn [val nth contrib narrow]. rewrite (Nat.div_small o' Og) by lia. cbn [Nat.mul].
    transitivity (rsum Cg (fun c => if inb (clo a) (clo a + len) c then rsum K (fun k => (D (lat_slice hi wi P p es) b c k t0 q * val weight [o'; c; k])%R) else 0%R)).
    + rewrite rsum_mask by (rewrite G1 in *; lia). apply rsum_ext. intros c Hc. apply rsum_ext. intros k Hk. cbn [upd nth]. f_equal.
      rewrite (proj2 Ty) by (rewrite Sy, Nat.mul_1_l; apply valid5_intro; auto). unfold tensor_disco. cbn [val nth]. unfold dimsz. rewrite St. cbn [nth].
      apply (local_D p a t); auto.
    + rewrite C1. apply rsum_ext. intros c Hc. cbn [Nat.add]. destruct (inb (clo a) (chi a) c); [reflexivity|]. symmetry. apply (bsum_zero' RT). intros. ring.
  - (* several groups *)
    set (glo := clo a / Cg). set (ghi := (chi a + Cg - 1) / Cg).
    assert (Gl : glo * Cg <= clo a < glo * Cg + Cg) by (unfold glo; pose proof (Nat.div_mod_eq (clo a) Cg); pose proof (Nat.mod_upper_bound (clo a) Cg ltac:(lia)); nia).
    assert (Gh : chi a <= ghi * Cg < chi a + Cg) by (unfold ghi; pose proof (Nat.div_mod_eq (chi a + Cg - 1) Cg); pose proof (Nat.mod_upper_bound (chi a + Cg - 1) Cg ltac:(lia)); nia).
    assert (GG : glo < ghi) by nia. assert (GhG : ghi <= G) by nia. clearbody glo ghi.
    set (ng := ghi - glo). assert (Hng : 1 <= ng) by (unfold ng; lia).
    set (xp := if ng * Cg =? len then t else _).
    assert (XP : shp xp = [B; ng * Cg; chunk_len hi P p; wi] /\ forall b c h w, c < ng * Cg ->
      val xp [b; c; h; w] = if inb (clo a) (chi a) (glo * Cg + c) then val t [b; glo * Cg + c - clo a; h; w] else 0%R).
    { unfold xp. destruct (Nat.eqb_spec (ng * Cg) len) as [EL|NL].
      - assert (glo * Cg = clo a) by (unfold ng in EL; nia). split; [now rewrite St, EL|]. intros b c h w Hc. rewrite inb_true by lia. f_equal. f_equal. f_equal. lia.
      - cbn [shp val]. rewrite St. cbn [upd]. split; [reflexivity|]. intros b c h w Hc. cbn [nth upd].
        unfold inb. replace (clo a - glo * Cg <=? c) with (clo a <=? glo * Cg + c) by (destruct (Nat.leb_spec (clo a) (glo * Cg + c)), (Nat.leb_spec (clo a - glo * Cg) c); auto; lia).
        replace (c <? clo a - glo * Cg + len) with (glo * Cg + c <? chi a) by (destruct (Nat.ltb_spec (glo * Cg + c) (chi a)), (Nat.ltb_spec c (clo a - glo * Cg + len)); auto; lia).
        destruct ((clo a <=? glo * Cg + c) && (glo * Cg + c <? chi a)) eqn:Q; [|reflexivity]. apply andb_true_iff in Q. rewrite Nat.leb_le, Nat.ltb_lt in Q.
        replace (c - (clo a - glo * Cg)) with (glo * Cg + c - clo a) by lia. reflexivity. }
    clearbody xp. destruct XP as (Sxp & Vxp).
    destruct (C (ng * Cg) xp Sxp) as (y & Ey & Ty). rewrite Ey. cbn [bindo].
    assert (Sy : shp y = [B; ng * Cg; K; ho; wo]) by (rewrite (teq_shp _ _ _ Ty); unfold tensor_disco, dimsz; cbn [shp]; rewrite Sxp; reflexivity).
    rewrite (contract_value ng Og Cg K B ho wo _ y); auto; [|unfold narrow; cbn [shp]; rewrite Sw; cbn [upd]; reflexivity].
    cbn [bindo]. apply returns_Some. split; [reflexivity|]. intros i Vi. cbn [shp upd] in Vi. destruct (valid4 _ _ _ _ _ Vi) as (b & o' & t0 & q & -> & Hb & Ho' & Ht & Hq).
    cbn [val nth contrib narrow upd]. assert (HOg : 1 <= Og) by nia.
    destruct (_ && _) eqn:Q.
    + apply andb_true_iff in Q. rewrite Nat.leb_le, Nat.ltb_lt in Q. set (o1 := o' - glo * Og). assert (Eo : o' = o1 + glo * Og) by (unfold o1; lia). assert (Ho1 : o1 < ng * Og) by lia.
      assert (Dv : o' / Og = o1 / Og + glo) by (rewrite Eo, Nat.div_add by lia; reflexivity).
      assert (Do : o1 / Og < ng) by (apply Nat.div_lt_upper_bound; [lia|]; now rewrite Nat.mul_comm).
      apply rsum_ext. intros c Hc. apply rsum_ext. intros k Hk. rewrite <- Eo. f_equal.
      rewrite (proj2 Ty) by (rewrite Sy; apply valid5_intro; auto; nia). unfold tensor_disco. cbn [val nth]. unfold dimsz. rewrite Sxp. cbn [nth].
      set (cc := o1 / Og * Cg + c). assert (Hcc : cc < ng * Cg) by (unfold cc; nia). replace (o' / Og * Cg + c) with (glo * Cg + cc) by (unfold cc; rewrite Dv; ring).
      destruct (inb (clo a) (chi a) (glo * Cg + cc)) eqn:Q2.
      * assert (R2 : clo a <= glo * Cg + cc < chi a) by (unfold inb in Q2; apply andb_true_iff in Q2; rewrite Nat.leb_le, Nat.ltb_lt in Q2; auto).
        transitivity (disco_sum wi (wi / wo) (les p) (fun h w => val t [b; glo * Cg + cc - clo a; h; w]) k t0 q).
        -- unfold disco_sum. apply lsum_ext. intros e _. destruct (_ && _); [|reflexivity]. f_equal. rewrite Vxp, Q2 by auto. reflexivity.
        -- rewrite (local_D p a t) by (auto; fold len; lia). f_equal; lia.
      * apply disco_sum_zero. intros. now rewrite Vxp, Q2.
    + symmetry. apply (bsum_zero' RT). intros c Hc. apply (bsum_zero' RT). intros k Hk. rewrite inb_false; [ring|].
      apply andb_false_iff in Q. rewrite Nat.leb_gt, Nat.ltb_ge in Q. destruct Q as [Q|Q].
      * assert (o' / Og < glo) by (apply Nat.div_lt_upper_bound; [lia|]; nia). nia.
      * assert (ghi <= o' / Og) by (apply Nat.div_le_lower_bound; [lia|]; unfold ng in Q; nia). nia.
Qed.

(** summed over the polar ranks, then over the azimuth ranks *)
Definition colsum (a : nat) : tensor R := mkT [B; G * Og; ho; wo] (fun i => rsum Cg (fun c => rsum K (fun k =>
  Rmult (if inb (clo a) (chi a) (nth 1 i 0 / Og * Cg + c) then D es (nth 0 i 0) (nth 1 i 0 / Og * Cg + c) k (nth 2 i 0) (nth 3 i 0) else 0%R) (val weight [nth 1 i 0; c; k])))).
Definition nobias : tensor R := conv_spec K Og Cg ho wo es weight None X.
Lemma nobias_shp : shp nobias = [B; G * Og; ho; wo].
Proof. unfold nobias, conv_spec, dimsz. cbn [shp]. rewrite SX, Sw. reflexivity. Qed.
Lemma polar_total : forall a, teq (mkT (shp (contrib 0 a)) (fun i => rsum P (fun p => val (contrib p a) i))) (colsum a).
Proof.
  intros a. split; [reflexivity|]. intros i _. unfold contrib, colsum. cbn [val]. rewrite rsum_swap. apply rsum_ext. intros c Hc. rewrite rsum_swap. apply rsum_ext. intros k Hk.
  rewrite (bsum_scal_r RT). f_equal. destruct (inb _ _ _); [|apply (bsum_zero RT)]. apply (sum_slices hi wi P es); auto.
Qed.
Lemma azimuth_total : forall i, valid [B; G * Og; ho; wo] i -> rsum A (fun a => val (colsum a) i) = val nobias i.
Proof.
  intros i Vi. destruct (valid4 _ _ _ _ _ Vi) as (b & o & t & q & -> & Hb & Ho' & Ht & Hq). unfold colsum, nobias, conv_spec, conv_value. cbn [val nth bias_at]. rewrite Rplus_0_r.
  rewrite rsum_swap. apply rsum_ext. intros c Hc. rewrite rsum_swap. apply rsum_ext. intros k Hk. rewrite (bsum_scal_r RT). f_equal.
  transitivity (D es b (o / Og * Cg + c) k t q); [|unfold D, dimsz; rewrite SX; reflexivity].
  apply (rsum_chunks_one (G * Cg) A (o / Og * Cg + c)); auto. eapply group_idx; eauto.
Qed.
Lemma bias_shard : forall p a z, p < P -> a < A -> teq z (shard 2 P p (shard 3 A a nobias)) ->
  returns (add_chan_bias bias z) (shard 2 P p (shard 3 A a (conv_spec K Og Cg ho wo es weight bias X))).
Proof.
  intros p a z Hp Ha [TS TV].
  assert (S3 : shp (shard 3 A a nobias) = [B; G * Og; ho; chunk_len wo A a]) by (rewrite (shard4 _ _ _ _ _ _ _ _ nobias_shp); auto).
  assert (S2 : shp (shard 2 P p (shard 3 A a nobias)) = [B; G * Og; chunk_len ho P p; chunk_len wo A a]) by (rewrite (shard4 _ _ _ _ _ _ _ _ S3); auto).
  assert (Sz : shp z = [B; G * Og; chunk_len ho P p; chunk_len wo A a]) by congruence.
  assert (V : forall b o t q, val (shard 2 P p (shard 3 A a (conv_spec K Og Cg ho wo es weight bias X))) [b; o; t; q] = (val (shard 2 P p (shard 3 A a nobias)) [b; o; t; q] + bias_at bias o)%R).
  { intros. rewrite !shard_val. cbn [upd nth]. unfold nobias, conv_spec, conv_value. cbn [val nth bias_at]. unfold dimsz. cbn [shp nth shard narrow]. rewrite Rplus_0_r. reflexivity. }
  assert (SS : shp (shard 2 P p (shard 3 A a (conv_spec K Og Cg ho wo es weight bias X))) = [B; G * Og; chunk_len ho P p; chunk_len wo A a]) by (rewrite <- S2; reflexivity).
  destruct bias as [bt|]; cbn [add_chan_bias].
  - cbn in Bo. unfold dimsz. rewrite Sz, Bo. cbn [nth]. rewrite (proj2 (shape_eqb_true _ _) eq_refl). cbn [guard bindo]. apply returns_Some. split; [cbn [shp]; now rewrite SS|].
    intros i Vi. cbn [shp] in Vi. assert (Vi' := Vi). destruct (valid4 _ _ _ _ _ Vi) as (b & o & t & q & -> & _). cbn [val nth]. rewrite V, TV by (rewrite Sz; auto). reflexivity.
  - apply returns_Some. split; [now rewrite SS|]. intros i Vi. assert (Vi' := Vi). rewrite Sz in Vi. destruct (valid4 _ _ _ _ _ Vi) as (b & o & t & q & -> & _). rewrite V, TV by auto. cbn [bias_at]. ring.
Qed.

Context (x : pfam (tensor R)) (Hx : holds2 P A x (fun p a => shard 2 P p (shard 3 A a X))).
Theorem reordered_ok : forall junk debug d, rank_ok P A hi wi ho wo G K B weight bias es junk true d ->
  holds2 P A (dist_conv_reordered junk debug P A d x) (fun p a => shard 2 P p (shard 3 A a (conv_spec K Og Cg ho wo es weight bias X))).
Proof.
  intros junk debug d RK. assert (H1 : holds2 P A (az_transpose debug A 1 3 (pmap (fun o => compute_split_shapes (d_nlon_in o) A) d) x) (fun p a => shard 1 A a (shard 2 P p X))) by (exact (x1_ok P A hi wi ho wo G Cg K B weight bias es HP HA HPi HAi HPo HAo HAC HG Hwi Hwo X SX x Hx debug d junk true RK)).
  unfold dist_conv_reordered. set (x1 := az_transpose debug A 1 3 _ x) in *.
  set (x2 := (fun p a => do o <- d p a; do t <- x1 p a; reordered_local junk A a o t) : pfam (tensor R)).
  assert (H2 : holds2 P A x2 contrib).
  { intros p a Hp Ha. destruct (H1 p a Hp Ha) as (t & Et & Tt). unfold x2. rewrite Et. cbn [bindo]. apply reordered_one; auto. }
  clearbody x1 x2.
  assert (H3 : holds2 P A (po_reduce_scatter P 2 x2) (fun p a => shard 2 P p (colsum a))).
  { intros p a Hp Ha. unfold po_reduce_scatter. eapply returns_teq; [apply (rs_sum P 2 (fun p => x2 p a) (fun p => contrib p a))|].
    - exact HP.
    - cbn; lia.
    - cbn; auto.
    - reflexivity.
    - intros r Hr. apply H2; auto.
    - exact Hp.
    - apply shard_proper; auto. apply polar_total. }
  set (x3 := po_reduce_scatter P 2 x2) in *. clearbody x3.
  assert (H4 : holds2 P A (if 1 <? A then az_reduce_scatter A 3 x3 else x3) (fun p a => shard 2 P p (shard 3 A a nobias))).
  { destruct (Nat.ltb_spec 1 A) as [L|L].
    - intros p a Hp Ha. unfold az_reduce_scatter. assert (S0 : forall r, shp (shard 2 P p (colsum r)) = [B; G * Og; chunk_len ho P p; wo]) by reflexivity.
      eapply returns_teq; [apply (rs_sum A 3 (fun a => x3 p a) (fun a => shard 2 P p (colsum a)))|].
      + exact HA.
      + cbn; lia.
      + unfold dimsz. now rewrite S0.
      + intros r Hr. now rewrite !S0.
      + intros r Hr. apply H3; auto.
      + exact Ha.
      + apply teq_trans with (shard 3 A a (shard 2 P p nobias)); [|apply shard_comm; auto]. apply shard_proper; auto.
        assert (SN : shp (shard 2 P p nobias) = [B; G * Og; chunk_len ho P p; wo]) by (rewrite (shard4 _ _ _ _ _ _ _ _ nobias_shp); auto).
        split; [cbn [shp]; rewrite S0, SN; reflexivity|]. intros i Vi. cbn [shp] in Vi. rewrite S0 in Vi. cbn [val]. destruct (valid4 _ _ _ _ _ Vi) as (b & o & t & q & -> & Hb & Ho' & Ht & Hq).
        rewrite shard_val. unfold dimsz. rewrite nobias_shp. cbn [upd nth]. rewrite <- azimuth_total; [reflexivity|]. apply valid4_intro; auto. pose proof (chunk_bound ho P p HP Hp). lia.
    - assert (A1 : A = 1) by lia. intros p a Hp Ha. assert (a = 0) by lia. subst a. eapply returns_teq; [apply H3; auto|]. apply shard_proper; auto.
      apply teq_sym. apply teq_trans with nobias.
      + pose proof A1 as A1'. clear - A1' Sw SX. revert A1'. generalize A. intros A0 ->. apply shard_one. unfold ndim. rewrite nobias_shp. cbn. lia.
      + split; [exact nobias_shp|]. intros i Vi. rewrite nobias_shp in Vi. rewrite <- (azimuth_total i Vi). rewrite A1. cbn [bsum_]. ring. }
  set (x4 := if 1 <? A then _ else _) in *. clearbody x4.
  intros p a Hp Ha. destruct (RK p a Hp Ha) as (o & E & _ & _ & _ & Eb & _). destruct (H4 p a Hp Ha) as (z & Ez & Tz). unfold pzip. rewrite E, Ez. cbn [bindo]. rewrite Eb. apply bias_shard; auto.
Qed.
End Reordered.

(** The reordered schedule returns the shards of the serial layer's output. *)
Theorem dist_conv_reordered_serial : forall junk junk' junk'' debug P A hi wi ho wo G Og Cg K B weight bias es s (X : tensor R) x,
  layer_ok K hi wi ho wo G Og Cg weight bias es -> conv_s2_init junk hi wi ho wo G K weight bias es = Some s ->
  slices_filled hi wi P es -> slices_separated K hi wi P es ->
  1 <= P <= hi -> P <= ho -> 1 <= A <= wi -> A <= wo -> A <= G * Cg ->
  shp X = [B; G * Cg; hi; wi] -> holds2 P A x (fun p a => shard 2 P p (shard 3 A a X)) ->
  exists Y, conv_s2_opt junk'' s X = Some Y /\
    holds2 P A (dist_conv_reordered junk' debug P A (dist_conv_init junk true P A hi wi ho wo G K weight bias es) x) (fun p a => shard 2 P p (shard 3 A a Y)).
Proof.
  intros junk junk' junk'' debug P A hi wi ho wo G Og Cg K B weight bias es s X x L I F S HP HPo HA HAo HAC SX Hx.
  destruct (conv_opt_spec junk junk'' hi wi ho wo G Og Cg K weight bias es s X B L I SX) as (Y & EY & TY). exists Y. split; auto.
  destruct L. eapply holds2_teq; [eapply (reordered_ok P A hi wi ho wo G Og Cg K B weight bias es); eauto; try lia|].
  - eapply wf_col; eauto.
  - eapply rank_works; eauto; [econstructor; eauto|discriminate].
  - intros p a Hp Ha. cbn beta. apply shard_proper; try lia. apply shard_proper; try lia. apply teq_sym; auto.
Qed.
