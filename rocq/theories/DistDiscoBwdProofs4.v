(** Gradients of the distributed transposed DISCO convolution, and of its serial layer. *)
From Coq Require Import List Arith Lia Bool Reals Lra.
From Verif Require Import TensorModel TensorProofs BigSum PrimModel PrimSpec PrimProofs PrimProofs2 PrimAutogradModel AdjointProofs PrimPropProofs DistSHTModel DistSHTProofs DistSHTProofs2 DistMiscProofs DistSpectralProofs
  DiscoModel DiscoSpec DiscoTensorProofs DiscoLayerProofs DiscoTransposeProofs DiscoRunProofs DiscoGradModel DiscoGradProofs DistDiscoModel DistDiscoSpec DistDiscoProofs DistDiscoProofs2 DistDiscoProofs3 DistDiscoProofs4 DistDiscoBwdModel DistDiscoBwdSpec DistDiscoBwdProofs DistDiscoBwdProofs2.
Import ListNotations.
Local Open Scope nat_scope.

Lemma cdiv : forall G Cg c, c < G * Cg -> 1 <= Cg /\ c / Cg < G.
Proof. intros G Cg c Hc. split; [destruct (Nat.eq_dec Cg 0) as [E0|E0]; [rewrite E0 in Hc; lia|lia]|apply Nat.div_lt_upper_bound; lia]. Qed.

Section TBwd.
Context (P A hi wi ho wo G Og Cg K B : nat) (weight : tensor R) (bias : option (tensor R)) (es : list entry).
Context (HP : 1 <= P) (HA : 1 <= A) (HPi : P <= hi) (HAi : A <= wi) (HPo : P <= ho) (HAo : A <= wo) (HAC : A <= G * Og).
Context (HG : 1 <= G) (Hwi : 1 <= wi) (Hwo : 1 <= wo) (Sw : shp weight = [G * Og; Cg; K]) (Wf : psi_wf K hi (ho * wo) es).
Context (X : tensor R) (SX : shp X = [B; G * Cg; hi; wi]).
Context (x : pfam (tensor R)) (Hx : holds2 P A x (fun p a => shard 2 P p (shard 3 A a X))).
Context (Y : tensor R) (SY : shp Y = [B; G * Og; ho; wo]) (g : pfam (tensor R)) (Hg : holds2 P A g (fun p a => shard 2 P p (shard 3 A a Y))).
Context (junk : nat -> R) (debug : bool) (d : pfam disco_layer) (RK : trank_ok P A hi wi ho wo G K B weight bias es true d).
Let les (p : nat) : list entry := map (local_entry (chunk_lo ho P p) wo) (lat_slice ho wo P p es).
(** the contraction of every rank, run by the backward pass, is right *)
Definition trank_bwd_ok : Prop := forall p a, p < P -> a < A -> exists o, d p a = Some o /\ d_K o = K /\
  forall C t, shp t = [B; C; chunk_len ho P p; wo] -> exists y, disco_cpu_fwd junk (d_K o) hi wi (d_roff o) (d_es o) t = Some y /\ teq y (tensor_disco K hi wi (les p) t).
Context (RB : trank_bwd_ok).
Let E := expanded hi wi G Og Cg K B weight X.
Let Z := adjointed hi wi ho wo G Og Cg K B weight es X.
Lemma t_col : forall e, In e es -> col e < ho * wo.
Proof. intros e He. apply (Wf e He). Qed.

(** *** forward values *)
Lemma tconv_x0_ok : holds2 P A (tconv_x0 d x) (fun p a => shard 4 A a (shard 3 P p E)).
Proof.
  intros p a Hp Ha. destruct (RK p a Hp Ha) as (o & Eo & _ & _ & Eg & Ew & _). destruct (Hx p a Hp Ha) as (t & Et & Tt). unfold tconv_x0, pzip. rewrite Eo, Et. cbn [bindo]. rewrite Eg, Ew.
  eapply returns_teq; [eapply (expand_shard P A hi wi G Og Cg K B weight); eauto|]. apply shard_comm; auto.
Qed.
Lemma tconv_x1_ok : holds2 P A (tconv_x1 debug A d x) (fun p a => shard 1 A a (shard 3 P p E)).
Proof.
  apply az_transpose_ok; auto; [|apply tconv_x0_ok]. intros p Hp. change (ndim (shard 3 P p E)) with 5. change (dimsz (shard 3 P p E) 1) with (G * Og). change (dimsz (shard 3 P p E) 4) with wi.
  split; [lia|]. split; [lia|]. split; [auto|]. intros a Ha _. destruct (RK p a Hp Ha) as (o & Eo & _ & El & _). exists (bal wi A). unfold pmap. rewrite Eo. cbn [bindo]. rewrite El, css_some by auto. auto.
Qed.
Lemma tconv_x2_ok : holds2 P A (tconv_x2 debug P A d x) (fun p a => shard 1 A a E).
Proof.
  intros p a Hp Ha. destruct (RK p a Hp Ha) as (o & Eo & Eh & _). unfold tconv_x2. rewrite Eo. cbn [bindo]. rewrite Eh, css_some by auto. cbn [bindo]. unfold gfc_fwd.
  apply (gather_by R debug P 3 (bal hi P) true (shard 1 A a E) (fun p => tconv_x1 debug A d x p a)); auto.
  - cbn; lia.
  - apply bal_length; auto.
  - rewrite bal_sum; auto.
  - intros r Hr. eapply returns_teq; [apply tconv_x1_ok; auto|]. eapply teq_trans; [apply shard_comm; auto|]. rewrite (shard_bal _ 3 P r (shard 1 A a E)) by auto. apply teq_refl.
Qed.
Lemma tconv_x3_ok : holds2 P A (tconv_x3 debug P A d x) (fun p a => shard 1 A a (shard 2 P p Z)).
Proof.
  intros p a Hp Ha. destruct (RK p a Hp Ha) as (o & Eo & _ & _ & _ & _ & _ & C). destruct (tconv_x2_ok p a Hp Ha) as (t & Et & Tt). unfold tconv_x3, pzip. rewrite Eo, Et. cbn [bindo].
  destruct (C (chunk_len (G * Og) A a) t) as (y & Ey & Ty); [rewrite (teq_shp _ _ _ Tt); reflexivity|]. exists y. split; auto. eapply teq_trans; [exact Ty|].
  eapply (adjoint_shard P A hi wi ho wo G Og Cg K B weight es); eauto.
Qed.

(** *** backward *)
Let W := whole hi wi K es Y.
Let Prt := part P ho wo hi wi G Og K B es Y.
Lemma W_shp : shp W = [B; G * Og; K; hi; wi].
Proof. eapply (whole_shp ho wo hi wi G Og K B es); eauto. Qed.
Lemma t_g0_ok : holds2 P A (dist_tconv_g0 junk debug P A d x g) (fun p a => shard 4 A a (shard 3 P p W)).
Proof.
  unfold dist_tconv_g0. cbv zeta.
  assert (S2 : forall p, shp (shard 2 P p Y) = [B; G * Og; chunk_len ho P p; wo]) by (intros; rewrite (shard4 Y B (G * Og) ho wo); auto).
  assert (H3 : holds2 P A (az_transpose_bwd debug A 3 1 (tconv_x3 debug P A d x) g) (fun p a => shard 1 A a (shard 2 P p Y))).
  { apply az_transpose_bwd_ok; auto.
    - intros p Hp. unfold ndim, dimsz. rewrite S2. cbn [length nth]. split; [lia|]. split; [lia|]. split; [auto|]. split; [auto|]. intros a Ha.
      destruct (holds2_dim _ _ _ _ 3 tconv_x3_ok p a Hp Ha) as (t & Et & Dt). exists t. split; auto.
    - eapply holds2_teq; [exact Hg|]. intros p a Hp Ha. apply shard_comm; auto. }
  set (g3 := az_transpose_bwd debug A 3 1 _ g) in *. clearbody g3.
  set (g2 := (fun p a => do o <- d p a; do t <- tconv_x2 debug P A d x p a; do u <- g3 p a; transpose_contraction_bwd junk (d_K o) (d_roff o) (d_es o) (dimsz t 3) (dimsz t 4) u) : pfam (tensor R)).
  assert (H2 : holds2 P A g2 (fun p a => shard 1 A a (Prt p))).
  { intros p a Hp Ha. destruct (RB p a Hp Ha) as (o & Eo & Ek & C). destruct (tconv_x2_ok p a Hp Ha) as (t & Et & Tt). destruct (H3 p a Hp Ha) as (u & Eu & Tu).
    unfold g2. rewrite Eo, Et, Eu. cbn [bindo]. unfold transpose_contraction_bwd.
    assert (St : shp t = [B; chunk_len (G * Og) A a; K; hi; wi]) by (rewrite (teq_shp _ _ _ Tt); reflexivity).
    assert (Su : shp u = [B; chunk_len (G * Og) A a; chunk_len ho P p; wo]) by (rewrite (teq_shp _ _ _ Tu), (shard4 _ _ _ _ _ _ _ _ (S2 p)); auto).
    unfold dimsz. rewrite St. cbn [nth]. destruct (C _ u Su) as (y & Ey & Ty). exists y. split; auto. eapply teq_trans; [exact Ty|].
    eapply teq_trans; [|eapply (part_local P A ho wo hi wi G Og K B es); eauto]. eapply (tensor_disco_proper P ho wo hi wi K B es); eauto. eapply (les_col P A ho wo hi wi G Og es); eauto. }
  assert (H1 : holds2 P A (fun p a => gfc_bwd P 3 (fun p => g2 p a) p) (fun p a => shard 1 A a (shard 3 P p W))).
  { intros p a Hp Ha. unfold gfc_bwd. assert (S0 : forall r, shp (shard 1 A a (Prt r)) = [B; chunk_len (G * Og) A a; K; hi; wi]) by reflexivity.
    eapply returns_teq; [apply (rs_sum P 3 (fun p => g2 p a) (fun p => shard 1 A a (Prt p)))|].
    - exact HP.
    - cbn; lia.
    - unfold dimsz. now rewrite S0.
    - intros r Hr. now rewrite !S0.
    - intros r Hr. apply H2; auto.
    - exact Hp.
    - apply teq_trans with (shard 3 P p (shard 1 A a W)); [|apply shard_comm; auto]. apply shard_proper; auto; try (cbn; lia). eapply (parts_whole P A ho wo hi wi G Og K B es); eauto using t_col. }
  apply (az_transpose_bwd_ok debug P A 1 4 (tconv_x0 d x) (fun p a => gfc_bwd P 3 (fun p => g2 p a) p) (fun p => shard 3 P p W)); auto. intros p Hp. unfold ndim, dimsz. rewrite (shard5 _ _ _ _ _ _ _ _ _ W_shp). cbn [length nth upd]. split; [lia|]. split; [lia|]. split; [auto|]. split; [auto|].
  intros a Ha. destruct (holds2_dim _ _ _ _ 1 tconv_x0_ok p a Hp Ha) as (t & Et & Dt). exists t. split; auto.
Qed.

(** the serial gradients *)
Definition tdgrad : tensor R := mkT [B; G * Cg; hi; wi] (fun i => rsum Og (fun o => rsum K (fun k =>
  Rmult (disco_sum wo (wo / wi) es (fun h w => val Y [nth 0 i 0; nth 1 i 0 / Cg * Og + o; h; w]) k (nth 2 i 0) (nth 3 i 0)) (val weight [nth 1 i 0 / Cg * Og + o; nth 1 i 0 mod Cg; k])))).
Definition twgrad : tensor R := mkT [G * Og; Cg; K] (fun i => rsum B (fun b => rsum hi (fun h => rsum wi (fun w =>
  Rmult (val X [b; nth 0 i 0 / Og * Cg + nth 1 i 0; h; w]) (disco_sum wo (wo / wi) es (fun h' w' => val Y [b; nth 0 i 0; h'; w']) (nth 2 i 0) h w))))).
Definition twpart (p a : nat) : tensor R := mkT [G * Og; Cg; K] (fun i => rsum B (fun b => rsum (chunk_len hi P p) (fun h => rsum (chunk_len wi A a) (fun w =>
  Rmult (val X [b; nth 0 i 0 / Og * Cg + nth 1 i 0; h + chunk_lo hi P p; w + chunk_lo wi A a])
    (disco_sum wo (wo / wi) es (fun h' w' => val Y [b; nth 0 i 0; h'; w']) (nth 2 i 0) (h + chunk_lo hi P p) (w + chunk_lo wi A a)))))).
Lemma W_val : forall b o k h w, val W [b; o; k; h; w] = disco_sum wo (wo / wi) es (fun h' w' => val Y [b; o; h'; w']) k h w.
Proof. intros. unfold W, whole, tensor_disco. cbn [val nth]. unfold dimsz. rewrite SY. reflexivity. Qed.
Lemma W34_val : forall p a e b o k h w, p < P -> a < A -> teq e (shard 4 A a (shard 3 P p W)) -> b < B -> o < G * Og -> k < K -> h < chunk_len hi P p -> w < chunk_len wi A a ->
  shp e = [B; G * Og; K; chunk_len hi P p; chunk_len wi A a] /\ val e [b; o; k; h; w] = disco_sum wo (wo / wi) es (fun h' w' => val Y [b; o; h'; w']) k (h + chunk_lo hi P p) (w + chunk_lo wi A a).
Proof.
  intros p a e b o k h w Hp Ha Te Hb Ho Hk Hh Hw. assert (W3 : shp (shard 3 P p W) = [B; G * Og; K; chunk_len hi P p; wi]) by (rewrite (shard5 _ _ _ _ _ _ _ _ _ W_shp); auto).
  assert (Se : shp e = [B; G * Og; K; chunk_len hi P p; chunk_len wi A a]) by (rewrite (teq_shp _ _ _ Te), (shard5 _ _ _ _ _ _ _ _ _ W3); auto). split; auto.
  rewrite (proj2 Te) by (rewrite Se; apply valid5_intro; auto). rewrite !shard_val. cbn [upd nth]. unfold dimsz. rewrite W3, W_shp. cbn [nth]. apply W_val.
Qed.
Theorem t_dgrad_ok : holds2 P A (dist_tconv_dgrad junk debug P A d x g) (fun p a => shard 2 P p (shard 3 A a tdgrad)).
Proof.
  intros p a Hp Ha. destruct (RK p a Hp Ha) as (o & Eo & _ & _ & Eg & Ew & _). destruct (t_g0_ok p a Hp Ha) as (e & Ee & Te). unfold dist_tconv_dgrad, pzip. rewrite Eo, Ee. cbn [bindo]. rewrite Eg, Ew.
  assert (W3 : shp (shard 3 P p W) = [B; G * Og; K; chunk_len hi P p; wi]) by (rewrite (shard5 _ _ _ _ _ _ _ _ _ W_shp); auto).
  assert (Se : shp e = [B; G * Og; K; chunk_len hi P p; chunk_len wi A a]) by (rewrite (teq_shp _ _ _ Te), (shard5 _ _ _ _ _ _ _ _ _ W3); auto).
  unfold expand_dgrad, ndim, dimsz. rewrite Se, Sw. cbn [length nth]. rewrite div_mul_l, !Nat.eqb_refl by auto. destruct (Nat.leb_spec 1 G); [|lia]. cbn [andb Nat.eqb guard bindo]. apply returns_Some. split; [reflexivity|].
  intros i Vi. cbn [shp] in Vi. destruct (valid4 _ _ _ _ _ Vi) as (b & c & h & w & -> & Hb & Hc & Hh & Hw). cbn [val nth]. rewrite !shard_val. cbn [upd nth]. unfold dimsz, shard, narrow. cbn [shp upd nth tdgrad val].
  destruct (cdiv G Cg c Hc) as [C1 C2]. apply rsum_ext; intros o1 Ho1. apply rsum_ext; intros k Hk. f_equal. apply (W34_val p a e); auto. nia.
Qed.
Theorem t_wgrad_ok : holds2 P A (dist_tconv_wgrad junk debug P A d x g) twpart.
Proof.
  intros p a Hp Ha. destruct (RK p a Hp Ha) as (o & Eo & _ & _ & Eg & Ew & _). destruct (t_g0_ok p a Hp Ha) as (e & Ee & Te). destruct (Hx p a Hp Ha) as (t & Et & Tt).
  unfold dist_tconv_wgrad. rewrite Eo, Ee, Et. cbn [bindo]. rewrite Eg, Ew.
  assert (W3 : shp (shard 3 P p W) = [B; G * Og; K; chunk_len hi P p; wi]) by (rewrite (shard5 _ _ _ _ _ _ _ _ _ W_shp); auto).
  assert (Se : shp e = [B; G * Og; K; chunk_len hi P p; chunk_len wi A a]) by (rewrite (teq_shp _ _ _ Te), (shard5 _ _ _ _ _ _ _ _ _ W3); auto).
  assert (S3 : shp (shard 3 A a X) = [B; G * Cg; hi; chunk_len wi A a]) by (rewrite (shard4 X B (G * Cg) hi wi); auto).
  assert (St : shp t = [B; G * Cg; chunk_len hi P p; chunk_len wi A a]) by (rewrite (teq_shp _ _ _ Tt), (shard4 _ _ _ _ _ _ _ _ S3); auto).
  unfold expand_wgrad, ndim, dimsz. rewrite Se, St, Sw. cbn [length nth]. rewrite div_mul_l, !Nat.eqb_refl by auto. rewrite (proj2 (shape_eqb_true _ _) eq_refl). destruct (Nat.leb_spec 1 G); [|lia]. cbn [andb Nat.eqb guard bindo].
  apply returns_Some. split; [reflexivity|]. intros i Vi. cbn [shp] in Vi. apply vld3 in Vi. destruct Vi as (o1 & c & k & -> & Ho & Hc & Hk). cbn [val nth twpart].
  apply rsum_ext; intros b Hb. apply rsum_ext; intros h Hh. apply rsum_ext; intros w Hw. f_equal; [|apply (W34_val p a e); auto].
  rewrite (proj2 Tt) by (rewrite St; apply valid4_intro; auto; eapply group_idx; eauto). rewrite !shard_val. cbn [upd nth]. unfold dimsz. rewrite S3, SX. reflexivity.
Qed.
Lemma twpart_total : forall i, rsum P (fun p => rsum A (fun a => val (twpart p a) i)) = val twgrad i.
Proof.
  intros i. cbn [val twpart twgrad]. set (f := fun b h w => Rmult (val X [b; nth 0 i 0 / Og * Cg + nth 1 i 0; h; w]) (disco_sum wo (wo / wi) es (fun h' w' => val Y [b; nth 0 i 0; h'; w']) (nth 2 i 0) h w)).
  change (rsum P (fun p => rsum A (fun a => rsum B (fun b => rsum (chunk_len hi P p) (fun t => rsum (chunk_len wi A a) (fun q => f b (t + chunk_lo hi P p) (q + chunk_lo wi A a)))))) = rsum B (fun b => rsum hi (fun t => rsum wi (fun q => f b t q)))).
  rewrite (rsum_ext P _ (fun p => rsum B (fun b => rsum A (fun a => rsum (chunk_len hi P p) (fun t => rsum (chunk_len wi A a) (fun q => f b (t + chunk_lo hi P p) (q + chunk_lo wi A a))))))) by (intros; apply rsum_swap).
  rewrite rsum_swap. apply rsum_ext. intros b Hb. apply (sum_grid P A hi wi (f b)); lia.
Qed.
End TBwd.

(** *** the serial transposed layer *)
Section Serial.
Context (junk : nat -> entry) (junk' : nat -> R) (hi wi ho wo G Og Cg K B : nat) (weight : tensor R) (bias : option (tensor R)) (es : list entry) (s : disco_layer).
Context (L : layer_ok K ho wo hi wi G Og Cg weight bias es) (I : conv_transpose_s2_init junk hi wi ho wo G K weight bias es = Some s).
Lemma t_serial_e : forall Y, shp Y = [B; G * Og; ho; wo] ->
  exists e, transpose_contraction_bwd junk' (d_K s) (d_roff s) (d_es s) (d_nlat_in s) (d_nlon_in s) Y = Some e /\ shp e = [B; G * Og; K; hi; wi] /\
    forall b o k h w, b < B -> o < G * Og -> k < K -> h < hi -> w < wi -> val e [b; o; k; h; w] = disco_sum wo (wo / wi) es (fun h' w' => val Y [b; o; h'; w']) k h w.
Proof.
  intros Y SY. unfold conv_transpose_s2_init in I. destruct (guard _); [cbn [bindo] in I|discriminate]. destruct (preprocess_psi junk K hi es) as [[roff es']|] eqn:PP; [|discriminate]. cbn [bindo fst snd] in I. injection I as <-.
  cbn [d_K d_roff d_es d_nlat_in d_nlon_in]. unfold transpose_contraction_bwd. destruct L.
  destruct (cpu_fwd_spec junk junk' K hi wi es roff es' Y B (G * Og) ho wo) as (y & Ey & Ty); auto.
  assert (Sy : shp y = [B; G * Og; K; hi; wi]) by (rewrite (teq_shp _ _ _ Ty); unfold tensor_disco, dimsz; cbn [shp]; rewrite SY; reflexivity).
  exists y. split; auto. split; auto. intros. rewrite (proj2 Ty) by (rewrite Sy; apply valid5_intro; auto). unfold tensor_disco. cbn [val nth]. unfold dimsz. rewrite SY. reflexivity.
Qed.
Lemma t_serial_fields : d_groups s = G /\ d_weight s = weight.
Proof. unfold conv_transpose_s2_init in I. destruct (guard _); [cbn [bindo] in I|discriminate]. destruct (preprocess_psi junk K hi es) as [[roff es']|]; [|discriminate]. cbn [bindo fst snd] in I. injection I as <-. auto. Qed.
Lemma t_serial_dgrad : forall Y, shp Y = [B; G * Og; ho; wo] -> exists V, conv_transpose_s2_dgrad junk' s Y = Some V /\ teq V (tdgrad hi wi wo G Og Cg K B weight es Y).
Proof.
  intros Y SY. destruct (t_serial_e Y SY) as (e & Ee & Se & Ve). destruct t_serial_fields as [Fg Fw]. unfold conv_transpose_s2_dgrad. rewrite Ee. cbn [bindo]. rewrite Fg, Fw. destruct L.
  unfold expand_dgrad, ndim, dimsz. rewrite Se, lo_weight. cbn [length nth]. rewrite div_mul_l, !Nat.eqb_refl by auto. destruct (Nat.leb_spec 1 G); [|lia]. cbn [andb Nat.eqb guard bindo]. eexists. split; [reflexivity|]. split; [reflexivity|].
  intros i Vi. cbn [shp] in Vi. destruct (valid4 _ _ _ _ _ Vi) as (b & c & h & w & -> & Hb & Hc & Hh & Hw). cbn [val nth tdgrad].
  destruct (cdiv G Cg c Hc) as [C1 C2]. apply rsum_ext; intros o1 Ho1. apply rsum_ext; intros k Hk. f_equal. apply Ve; auto. nia.
Qed.
Lemma t_serial_wgrad : forall X Y, shp X = [B; G * Cg; hi; wi] -> shp Y = [B; G * Og; ho; wo] -> exists V, conv_transpose_s2_wgrad junk' s X Y = Some V /\ teq V (twgrad hi wi wo G Og Cg K B es X Y).
Proof.
  intros X Y SX SY. destruct (t_serial_e Y SY) as (e & Ee & Se & Ve). destruct t_serial_fields as [Fg Fw]. unfold conv_transpose_s2_wgrad. rewrite Ee. cbn [bindo]. rewrite Fg, Fw. destruct L.
  unfold expand_wgrad, ndim, dimsz. rewrite Se, SX, lo_weight. cbn [length nth]. rewrite div_mul_l, !Nat.eqb_refl by auto. rewrite (proj2 (shape_eqb_true _ _) eq_refl). destruct (Nat.leb_spec 1 G); [|lia]. cbn [andb Nat.eqb guard bindo].
  eexists. split; [reflexivity|]. split; [reflexivity|]. intros i Vi. cbn [shp] in Vi. apply vld3 in Vi. destruct Vi as (o1 & c & k & -> & Ho & Hc & Hk). cbn [val nth twgrad].
  apply rsum_ext; intros b Hb. apply rsum_ext; intros h Hh. apply rsum_ext; intros w Hw. f_equal. apply Ve; auto.
Qed.
End Serial.

Lemma trank_bwd_works : forall junk junk' P A hi wi ho wo G Og Cg K B weight bias es,
  layer_ok K ho wo hi wi G Og Cg weight bias es -> slices_filled ho wo P es -> slices_separated K ho wo P es ->
  1 <= P <= hi -> P <= ho -> 1 <= A <= wi -> A <= wo ->
  trank_bwd_ok P A hi wi ho wo K B es junk' (dist_tconv_init junk true P A hi wi ho wo G K weight bias es).
Proof.
  intros junk junk' P A hi wi ho wo G Og Cg K B weight bias es L F S HP HPo HA HAo p a Hp Ha. destruct L.
  unfold dist_tconv_init. rewrite !css_some by lia. cbn [bindo]. rewrite chunk_len_nth by lia. rewrite (split_psi_spec P p ho wo es) by (auto; lia). cbn [bindo].
  set (les := map (local_entry (chunk_lo ho P p) wo) (lat_slice ho wo P p es)).
  assert (W : psi_wf K hi (chunk_len ho P p * wo) les) by (apply slice_wf; auto).
  assert (N : les <> []). { intros E. pose proof (F p Hp) as L. unfold les in E. apply map_eq_nil in E. rewrite E in L. cbn in L. lia. }
  destruct (preprocess_psi junk K hi les) as [[roff es']|] eqn:PP; [|rewrite (preprocess_spec junk K hi (chunk_len ho P p * wo) les) in PP by (auto; apply slice_sorted; auto); discriminate].
  cbn [bindo fst snd]. eexists. split; [reflexivity|]. cbn [d_K d_roff d_es]. split; [reflexivity|]. intros C t St.
  eapply (cpu_fwd_spec junk junk' K hi wi les roff es' t B C); eauto.
  - apply slice_sorted; auto.
  - apply slice_separated. apply S; auto.
Qed.

Theorem dist_tconv_bwd_serial : forall junk junk' junk'' debug P A hi wi ho wo G Og Cg K B weight bias es s (X Y : tensor R) x g,
  layer_ok K ho wo hi wi G Og Cg weight bias es -> conv_transpose_s2_init junk hi wi ho wo G K weight bias es = Some s ->
  slices_filled ho wo P es -> slices_separated K ho wo P es ->
  1 <= P <= hi -> P <= ho -> 1 <= A <= wi -> A <= wo -> A <= G * Og ->
  shp X = [B; G * Cg; hi; wi] -> shp Y = [B; G * Og; ho; wo] ->
  holds2 P A x (fun p a => shard 2 P p (shard 3 A a X)) -> holds2 P A g (fun p a => shard 2 P p (shard 3 A a Y)) ->
  let d := dist_tconv_init junk true P A hi wi ho wo G K weight bias es in
  exists V W, conv_transpose_s2_dgrad junk'' s Y = Some V /\ conv_transpose_s2_wgrad junk'' s X Y = Some W /\
    holds2 P A (dist_tconv_dgrad junk' debug P A d x g) (fun p a => shard 2 P p (shard 3 A a V)) /\
    grid_total P A (dist_tconv_wgrad junk' debug P A d x g) W /\ grid_total P A (dist_bias_grad g) (bias_grad Y).
Proof.
  intros junk junk' junk'' debug P A hi wi ho wo G Og Cg K B weight bias es s X Y x g L I F S HP HPo HA HAo HAC SX SY Hx Hg d.
  destruct (t_serial_dgrad junk junk'' hi wi ho wo G Og Cg K B weight bias es s L I Y SY) as (V & EV & TV).
  destruct (t_serial_wgrad junk junk'' hi wi ho wo G Og Cg K B weight bias es s L I X Y SX SY) as (W & EW & TW).
  exists V, W. split; auto. split; auto.
  assert (RK : trank_ok P A hi wi ho wo G K B weight bias es true d) by (unfold d; eapply trank_works; eauto).
  assert (RB : trank_bwd_ok P A hi wi ho wo K B es junk' d) by (unfold d; eapply trank_bwd_works; eauto).
  clearbody d. destruct L. split; [|split].
  - eapply holds2_teq; [eapply (t_dgrad_ok P A hi wi ho wo G Og Cg K B weight bias es); eauto; lia|].
    intros p a Hp Ha. cbn beta. apply shard_proper; try lia. apply shard_proper; try lia. apply teq_sym; auto.
  - eapply (grid_total_of P A _ (twpart P A hi wi wo G Og Cg K B es X Y)).
    + eapply (t_wgrad_ok P A hi wi ho wo G Og Cg K B weight bias es); eauto; lia.
    + intros. rewrite (teq_shp _ _ _ TW). reflexivity.
    + intros i Vi. rewrite (proj2 TW) by auto. eapply twpart_total; eauto; lia.
  - eapply (bias_grad_total P A B (G * Og) ho wo); eauto; lia.
Qed.
