(** Gradients of the distributed DISCO convolution, reordered schedule. *)
From Coq Require Import List Arith Lia Bool Reals Lra.
From Verif Require Import TensorModel TensorProofs BigSum PrimModel PrimSpec PrimProofs PrimProofs2 PrimAutogradModel AdjointProofs PrimPropProofs DistSHTModel DistSHTProofs DistSHTProofs2 DistMiscProofs DistSpectralProofs
  DiscoModel DiscoSpec DiscoTensorProofs DiscoLayerProofs DiscoTransposeProofs DiscoRunProofs DiscoGradModel DiscoGradProofs DistDiscoModel DistDiscoSpec DistDiscoProofs DistDiscoProofs2 DistDiscoProofs3 DistDiscoProofs4 DistDiscoBwdModel DistDiscoBwdSpec DistDiscoBwdProofs DistDiscoBwdProofs2.
Import ListNotations.
Local Open Scope nat_scope.

Section ReBwd.
Context (P A hi wi ho wo G Og Cg K B : nat) (weight : tensor R) (bias : option (tensor R)) (es : list entry).
Context (L : layer_ok K hi wi ho wo G Og Cg weight bias es) (F : slices_filled hi wi P es) (S : slices_separated K hi wi P es).
Context (HP : 1 <= P <= hi) (HPo : P <= ho) (HA : 1 <= A <= wi) (HAo : A <= wo) (HAC : A <= G * Cg).
Context (X : tensor R) (SX : shp X = [B; G * Cg; hi; wi]).
Context (x : pfam (tensor R)) (Hx : holds2 P A x (fun p a => shard 2 P p (shard 3 A a X))).
Context (Y : tensor R) (SY : shp Y = [B; G * Og; ho; wo]) (g : pfam (tensor R)) (Hg : holds2 P A g (fun p a => shard 2 P p (shard 3 A a Y))).
Context (junk0 : nat -> entry) (junk : nat -> R) (debug : bool).
Let d := dist_conv_init junk0 true P A hi wi ho wo G K weight bias es.
Let les (p : nat) : list entry := map (local_entry (chunk_lo hi P p) wi) (lat_slice hi wi P p es).
Let clo (a : nat) := chunk_lo (G * Cg) A a.
Let chi (a : nat) := chunk_lo (G * Cg) A (Datatypes.S a).
Let D (l : list entry) (b c k t q : nat) : R := disco_sum wi (wi / wo) l (fun h w => val X [b; c; h; w]) k t q.

Lemma re_HG : 1 <= G. Proof. destruct L; auto. Qed.
Lemma re_wi : 1 <= wi. Proof. destruct L; auto. Qed.
Lemma re_wo : 1 <= wo. Proof. destruct L; auto. Qed.
Lemma re_Sw : shp weight = [G * Og; Cg; K]. Proof. destruct L; auto. Qed.
Lemma re_col : forall e, In e es -> col e < hi * wi. Proof. destruct L. intros e He. apply lo_wf; auto. Qed.
Lemma re_rank : rank_ok P A hi wi ho wo G K B weight bias es junk true d.
Proof. unfold d. eapply rank_works; eauto. discriminate. Qed.
Lemma re_Cg : 1 <= Cg. Proof. pose proof HAC. case_eq Cg; [intros E; rewrite E in *; lia|intros; lia]. Qed.

Lemma re_x1 : holds2 P A (conv_x1 debug A d x) (fun p a => shard 1 A a (shard 2 P p X)).
Proof. apply (conv_x1_ok P A hi wi ho wo G Cg K B weight bias es) with (junk := junk); auto using re_HG, re_wi, re_wo, re_rank; lia. Qed.
Lemma re_x2 : holds2 P A (reordered_x2 junk debug A d x) (contrib P A hi wi ho wo G Og Cg K B weight es X).
Proof.
  intros p a Hp Ha. destruct (re_x1 p a Hp Ha) as (t & Et & Tt). unfold reordered_x2. rewrite Et. cbn [bindo].
  apply (reordered_one P A hi wi ho wo G Og Cg K B weight bias es); auto using re_HG, re_wi, re_wo, re_rank, re_Sw; try lia. destruct L; auto.
Qed.
Lemma re_g2 : holds2 P A (reordered_g2 junk debug P A d x g) (fun _ _ => Y).
Proof.
  unfold reordered_g2. set (x2 := reordered_x2 junk debug A d x). pose proof re_x2 as H2. fold x2 in H2. clearbody x2.
  assert (SC : forall p a, shp (contrib P A hi wi ho wo G Og Cg K B weight es X p a) = [B; G * Og; ho; wo]) by reflexivity.
  assert (SP : forall p, shp (shard 2 P p Y) = [B; G * Og; chunk_len ho P p; wo]) by (intros; rewrite (shard4 Y B (G * Og) ho wo); auto).
  assert (H3 : holds2 P A (if 1 <? A then az_reduce_scatter_bwd debug A 3 (po_reduce_scatter P 2 x2) g else g) (fun p a => shard 2 P p Y)).
  { destruct (Nat.ltb_spec 1 A) as [LA|LA].
    - apply (az_rs_bwd_ok debug P A 3 _ g (fun p => shard 2 P p Y)); [lia| |].
      + intros p Hp. unfold ndim, dimsz. rewrite SP. cbn [length nth]. split; [lia|]. split; [auto|]. intros a Ha. unfold po_reduce_scatter.
        destruct (rs_sum P 2 (fun p => x2 p a) (fun p => contrib P A hi wi ho wo G Og Cg K B weight es X p a)) with (r := p) as (z & Ez & Tz); [lia|cbn; lia|exact HPo|reflexivity|intros r Hr; apply H2; auto|exact Hp|].
        exists z. split; auto. rewrite (teq_shp _ _ _ Tz). reflexivity.
      + eapply holds2_teq; [exact Hg|]. intros p a Hp Ha. apply shard_comm; auto; lia.
    - assert (A1 : A = 1) by lia. eapply holds2_teq; [exact Hg|]. intros p a Hp Ha. cbn beta. apply shard_proper; try lia. assert (a = 0) by lia. subst a.
      pose proof A1 as A1'. clear - A1' SY. revert A1'. generalize A. intros A0 ->. apply shard_one. unfold ndim. rewrite SY. cbn. lia. }
  set (g3 := if 1 <? A then _ else g) in *. clearbody g3.
  apply (po_rs_bwd_ok debug P A 2 x2 g3 (fun _ => Y)); [lia| |exact H3].
  intros a Ha. unfold ndim, dimsz. rewrite SY. cbn [length nth]. split; [lia|]. split; [auto|]. intros p Hp.
  destruct (H2 p a Hp Ha) as (t & Et & Tt). exists t. split; auto. rewrite (teq_shp _ _ _ Tt), SC. reflexivity.
Qed.

(** the channels of rank [a] *)
Lemma re_chans_ok : forall a, a < A -> clo a + chunk_len (G * Cg) A a = chi a /\ chi a <= G * Cg /\ clo a < chi a.
Proof. intros a Ha. apply (chi_len P A hi wi ho wo G Cg); auto using re_HG, re_wi, re_wo; lia. Qed.
Lemma re_layer_ok : forall p ng Cl wl, p < P -> 1 <= ng -> shp wl = [ng * Og; Cl; K] -> layer_ok K (chunk_len hi P p) wi ho wo ng Og Cl wl None (les p).
Proof.
  intros p ng Cl wl Hp Hn Sl. destruct L. split; auto.
  - apply slice_wf; auto.
  - apply slice_sorted; auto.
  - apply slice_separated. apply S; auto.
  - intros E0. pose proof (F p Hp) as Q. unfold les in E0. apply map_eq_nil in E0. rewrite E0 in Q. cbn in Q. lia.
  - exact I.
Qed.
Lemma re_init : forall p ng Cl wl roff es', p < P -> 1 <= ng -> shp wl = [ng * Og; Cl; K] -> preprocess_psi junk0 K ho (les p) = Some (roff, es') ->
  conv_s2_init junk0 (chunk_len hi P p) wi ho wo ng K wl None (les p) = Some (mkD K (chunk_len hi P p) wi ho wo ng wl None roff es' (les p)).
Proof.
  intros p ng Cl wl roff es' Hp Hn Sl PP. pose proof (re_layer_ok p ng Cl wl Hp Hn Sl) as Lk. destruct (conv_init_ok junk0 _ _ _ _ _ _ _ _ _ _ _ Lk) as (dd & Ed).
  rewrite Ed. destruct (conv_init_inv _ _ _ _ _ _ _ _ _ _ _ Ed) as (r2 & e2 & PP2 & ->). rewrite PP in PP2. injection PP2 as <- <-. reflexivity.
Qed.

(** what [reordered_prepare] returns *)
Lemma prepare_one : forall o t p a, d_weight o = weight -> d_groups o = G -> a < A -> shp t = [B; chunk_len (G * Cg) A a; chunk_len hi P p; wi] -> G = 1 ->
  reordered_prepare A a o t = Some (mkRe 1 (narrow 1 (clo a) (chunk_len (G * Cg) A a) weight) t 0 (chunk_len (G * Cg) A a) 0 (clo a) 0).
Proof.
  intros o t p a Ew Eg Ha St G1. unfold reordered_prepare. cbv zeta. rewrite Ew, Eg. unfold dimsz. rewrite St, re_Sw. cbn [nth].
  destruct (re_chans_ok a Ha) as (C1 & C2 & C3).
  assert (CS : (if 1 <? A then do s <- compute_split_shapes (G * Cg) A; Some (sum_list (firstn a s)) else Some 0) = Some (clo a)).
  { destruct (Nat.ltb_spec 1 A); [rewrite css_some by lia; cbn [bindo]; rewrite chunk_lo_sum by lia; reflexivity|]. assert (a = 0) by lia. subst a. unfold clo, chunk_lo. cbn. reflexivity. }
  rewrite CS. cbn [bindo]. rewrite C1. destruct (Nat.leb_spec (chi a) (G * Cg)); [|lia]. cbn [guard bindo]. destruct (Nat.eqb_spec G 1); [reflexivity|lia].
Qed.
Definition glo a := clo a / Cg.
Definition ngr a := (chi a + Cg - 1) / Cg - glo a.
Lemma grp : forall a, a < A -> glo a * Cg <= clo a < glo a * Cg + Cg /\ chi a <= (glo a + ngr a) * Cg < chi a + Cg /\ 1 <= ngr a /\ glo a + ngr a <= G.
Proof.
  intros a Ha. pose proof re_Cg as HC. destruct (re_chans_ok a Ha) as (C1 & C2 & C3).
  assert (Gl : glo a * Cg <= clo a < glo a * Cg + Cg) by (unfold glo; pose proof (Nat.div_mod_eq (clo a) Cg); pose proof (Nat.mod_upper_bound (clo a) Cg ltac:(lia)); nia).
  set (ghi := (chi a + Cg - 1) / Cg).
  assert (Gh : chi a <= ghi * Cg < chi a + Cg) by (unfold ghi; pose proof (Nat.div_mod_eq (chi a + Cg - 1) Cg); pose proof (Nat.mod_upper_bound (chi a + Cg - 1) Cg ltac:(lia)); nia).
  assert (GG : glo a < ghi) by nia. assert (GhG : ghi <= G) by nia. unfold ngr. fold ghi. replace (glo a + (ghi - glo a)) with ghi by lia. split; auto. split; auto. lia.
Qed.
Lemma prepare_many : forall o t p a, d_weight o = weight -> d_groups o = G -> a < A -> shp t = [B; chunk_len (G * Cg) A a; chunk_len hi P p; wi] -> G <> 1 ->
  exists xp, reordered_prepare A a o t = Some (mkRe (ngr a) (narrow 0 (glo a * Og) (ngr a * Og) weight) xp (clo a - glo a * Cg) (chunk_len (G * Cg) A a) (glo a * Og) (clo a) (glo a)) /\
    shp xp = [B; ngr a * Cg; chunk_len hi P p; wi] /\ forall b c h w, c < ngr a * Cg ->
      val xp [b; c; h; w] = if inb (clo a) (chi a) (glo a * Cg + c) then val t [b; glo a * Cg + c - clo a; h; w] else 0%R.
Proof.
  intros o t p a Ew Eg Ha St G1. unfold reordered_prepare. cbv zeta. rewrite Ew, Eg. unfold dimsz. rewrite St, re_Sw. cbn [nth].
  destruct (re_chans_ok a Ha) as (C1 & C2 & C3). destruct (grp a Ha) as (Gl & Gh & Hn & HGn). rewrite div_mul_l by apply re_HG.
  assert (CS : (if 1 <? A then do s <- compute_split_shapes (G * Cg) A; Some (sum_list (firstn a s)) else Some 0) = Some (clo a)).
  { destruct (Nat.ltb_spec 1 A); [rewrite css_some by lia; cbn [bindo]; rewrite chunk_lo_sum by lia; reflexivity|]. assert (a = 0) by lia. subst a. unfold clo, chunk_lo. cbn. reflexivity. }
  rewrite CS. cbn [bindo]. rewrite C1. destruct (Nat.leb_spec (chi a) (G * Cg)); [|lia]. cbn [guard bindo]. destruct (Nat.eqb_spec G 1); [lia|].
  change (clo a / Cg) with (glo a). change ((chi a + Cg - 1) / Cg - glo a) with (ngr a). eexists. split; [reflexivity|].
  set (len := chunk_len (G * Cg) A a) in *. destruct (Nat.eqb_spec (ngr a * Cg) len) as [EL|NL].
  - assert (glo a * Cg = clo a) by nia. split; [now rewrite St, EL|]. intros b c h w Hc. rewrite inb_true by lia. f_equal. f_equal. f_equal. lia.
  - cbn [shp val upd]. split; [reflexivity|]. intros b c h w Hc. cbn [nth upd].
    unfold inb. replace (clo a - glo a * Cg <=? c) with (clo a <=? glo a * Cg + c) by (destruct (Nat.leb_spec (clo a) (glo a * Cg + c)), (Nat.leb_spec (clo a - glo a * Cg) c); auto; lia).
    replace (c <? clo a - glo a * Cg + len) with (glo a * Cg + c <? chi a) by (destruct (Nat.ltb_spec (glo a * Cg + c) (chi a)), (Nat.ltb_spec c (clo a - glo a * Cg + len)); auto; lia).
    destruct ((clo a <=? glo a * Cg + c) && (glo a * Cg + c <? chi a)) eqn:Q; [|reflexivity]. apply andb_true_iff in Q. rewrite Nat.leb_le, Nat.ltb_lt in Q.
    replace (c - (clo a - glo a * Cg)) with (glo a * Cg + c - clo a) by lia. reflexivity.
Qed.

Definition rpart (p a : nat) : tensor R := mkT [G * Og; Cg; K] (fun i =>
  rsum B (fun b => rsum ho (fun t => rsum wo (fun q => Rmult (val Y [b; nth 0 i 0; t; q])
    (if inb (clo a) (chi a) (nth 0 i 0 / Og * Cg + nth 1 i 0) then D (lat_slice hi wi P p es) b (nth 0 i 0 / Og * Cg + nth 1 i 0) (nth 2 i 0) t q else 0%R))))).
Let V := dgrad_at hi wi wo G Og Cg K weight es B Y.
Lemma shard_V : forall p a b c h j, val (shard 1 A a (shard 2 P p V)) [b; c; h; j] = dgrad_value K Og Cg wi wo es weight Y b (c + clo a) (h + chunk_lo hi P p) j.
Proof. intros. rewrite !shard_val. cbn [upd nth]. unfold dimsz, shard, narrow. cbn [shp upd nth]. reflexivity. Qed.
Lemma shard_V_shp : forall p a, shp (shard 1 A a (shard 2 P p V)) = [B; chunk_len (G * Cg) A a; chunk_len hi P p; wi].
Proof. reflexivity. Qed.
Lemma re_X_shp : forall p a t, teq t (shard 1 A a (shard 2 P p X)) -> shp t = [B; chunk_len (G * Cg) A a; chunk_len hi P p; wi].
Proof.
  intros p a t Tt. assert (S2 : shp (shard 2 P p X) = [B; G * Cg; chunk_len hi P p; wi]) by (rewrite (shard4 X B (G * Cg) hi wi); auto).
  rewrite (teq_shp _ _ _ Tt), (shard4 _ _ _ _ _ _ _ _ S2); auto.
Qed.
Lemma re_D : forall p a t b c k t0 q, p < P -> a < A -> teq t (shard 1 A a (shard 2 P p X)) -> b < B -> c < chunk_len (G * Cg) A a ->
  disco_sum wi (wi / wo) (les p) (fun h w => val t [b; c; h; w]) k t0 q = D (lat_slice hi wi P p es) b (c + clo a) k t0 q.
Proof. intros. apply (local_D P A hi wi ho wo G Cg B es); auto using re_HG, re_wi, re_wo; lia. Qed.

Lemma re_local : forall p a t u roff es', p < P -> a < A -> preprocess_psi junk0 K ho (les p) = Some (roff, es') ->
  teq t (shard 1 A a (shard 2 P p X)) -> teq u Y ->
  let o := mkD K (chunk_len hi P p) wi ho wo G weight bias roff es' (les p) in
  exists r v w, reordered_prepare A a o t = Some r /\ conv_s2_dgrad (re_layer o r) (re_out_grad o r u) = Some v /\ teq (re_in_grad o r v) (shard 1 A a (shard 2 P p V)) /\
    conv_s2_wgrad junk (re_layer o r) (re_input r) (re_out_grad o r u) = Some w /\ teq (re_weight_grad o r w) (rpart p a).
Proof.
  intros p a t u roff es' Hp Ha PP Tt Tu o. pose proof (re_X_shp p a t Tt) as St. destruct (re_chans_ok a Ha) as (C1 & C2 & C3). pose proof re_Cg as HC. pose proof re_HG as HG. pose proof re_wi as Hwi.
  assert (Su : shp u = [B; G * Og; ho; wo]) by (rewrite (teq_shp _ _ _ Tu); auto).
  assert (Vu : forall b c t0 q, b < B -> c < G * Og -> t0 < ho -> q < wo -> val u [b; c; t0; q] = val Y [b; c; t0; q]) by (intros; apply (proj2 Tu); rewrite Su; apply valid4_intro; auto).
  assert (Wl : psi_wf K ho (chunk_len hi P p * wi) (les p)) by (destruct L; apply slice_wf; auto).
  destruct (Nat.eq_dec G 1) as [G1|G1].
  - pose proof (prepare_one o t p a eq_refl eq_refl Ha St G1) as PR. set (len := chunk_len (G * Cg) A a) in *. set (wl := narrow 1 (clo a) len weight) in *.
    assert (Sl : shp wl = [1 * Og; len; K]) by (unfold wl, narrow; cbn [shp]; rewrite re_Sw, G1; reflexivity).
    set (r := mkRe 1 wl t 0 len 0 (clo a) 0) in *. assert (OG : re_out_grad o r u = u) by (unfold re_out_grad; cbn [d_groups o]; rewrite G1; reflexivity).
    assert (Su1 : shp u = [B; 1 * Og; ho; wo]) by (rewrite Su, G1; reflexivity). assert (St1 : shp t = [B; 1 * len; chunk_len hi P p; wi]) by (rewrite St, Nat.mul_1_l; reflexivity).
    pose proof (re_layer_ok p 1 len wl Hp ltac:(lia) Sl) as Lk. pose proof (re_init p 1 len wl roff es' Hp ltac:(lia) Sl PP) as Ik. change (mkD K (chunk_len hi P p) wi ho wo 1 wl None roff es' (les p)) with (re_layer o r) in Ik.
    destruct (conv_dgrad_spec junk0 _ _ _ _ _ _ _ _ _ _ _ _ Lk Ik u B Su1) as (v & Ev & Tv).
    destruct (conv_wgrad_value junk0 junk _ _ _ _ _ _ _ _ _ _ _ _ t u B Lk Ik St1 Su1) as (w & Ew & Sw' & Vw).
    exists r, v, w. rewrite OG. split; [exact PR|]. split; [exact Ev|]. split; [|split; [exact Ew|]].
    + unfold re_in_grad. cbn [d_groups o]. rewrite G1. cbn [Nat.eqb]. eapply teq_trans; [exact Tv|]. split; [unfold dgrad_at; cbn [shp]; rewrite Nat.mul_1_l, shard_V_shp; reflexivity|].
      intros i Vi. unfold dgrad_at in Vi. cbn [shp] in Vi. destruct (valid4 _ _ _ _ _ Vi) as (b & c & h & j & -> & Hb & Hc & Hh & Hj). rewrite shard_V. unfold dgrad_at. cbn [val nth]. unfold dgrad_value.
      rewrite Nat.mul_1_l in Hc. unfold les. rewrite (local_adjoint wi (wi / wo) wo hi P p es) by (auto; lia).
      destruct L. eapply adjoint_sum_ext; [exact lo_wf|]. intros k t0 q Hk Ht Hq. apply rsum_ext. intros o0 Ho0. rewrite !Nat.div_small, !Nat.mod_small by (try lia; nia). rewrite Vu by (auto; nia). f_equal.
    + unfold re_weight_grad. cbn [d_groups d_weight o]. rewrite G1. cbn [Nat.eqb]. split; [cbn [shp rpart]; apply re_Sw|]. cbn [shp]. rewrite re_Sw. intros i Vi. apply vld3 in Vi. destruct Vi as (o1 & c & k & -> & Ho & Hc & Hk).
      cbn [val nth rpart r re_chan_start re_chans upd].
      assert (O1 : o1 / Og = 0) by (apply Nat.div_small; nia). rewrite O1. cbn [Nat.mul Nat.add]. rewrite C1. fold (inb (clo a) (chi a) c).
      destruct (inb (clo a) (chi a) c) eqn:Q.
      * unfold inb in Q. apply andb_true_iff in Q. rewrite Nat.leb_le, Nat.ltb_lt in Q. rewrite Vw by (try lia; nia). rewrite O1. cbn [Nat.mul Nat.add].
        apply rsum_ext; intros b Hb. apply rsum_ext; intros t0 Ht. apply rsum_ext; intros q Hq. rewrite Vu by auto. f_equal. rewrite (re_D p a) by (auto; lia). f_equal. lia.
      * symmetry. apply (bsum_zero' RT); intros b Hb. apply (bsum_zero' RT); intros t0 Ht. apply (bsum_zero' RT); intros q Hq. ring.
  - destruct (prepare_many o t p a eq_refl eq_refl Ha St G1) as (xp & PR & Sx & Vx). destruct (grp a Ha) as (Gl & Gh & Hn & HGn). set (len := chunk_len (G * Cg) A a) in *. set (ng := ngr a) in *. set (gl := glo a) in *.
    set (wl := narrow 0 (gl * Og) (ng * Og) weight) in *. assert (Sl : shp wl = [ng * Og; Cg; K]) by (unfold wl, narrow; cbn [shp]; rewrite re_Sw; reflexivity).
    set (r := mkRe ng wl xp (clo a - gl * Cg) len (gl * Og) (clo a) gl) in *.
    assert (DO : dimsz weight 0 / G = Og) by (unfold dimsz; rewrite re_Sw; cbn [nth]; apply div_mul_l; auto).
    assert (NG : (G =? 1) = false) by (apply Nat.eqb_neq; auto).
    assert (OG : re_out_grad o r u = narrow 1 (gl * Og) (ng * Og) u) by (unfold re_out_grad; cbn [d_groups d_weight o re_out_off re_groups r]; rewrite NG, DO; reflexivity).
    set (gu := narrow 1 (gl * Og) (ng * Og) u) in *. assert (Sg : shp gu = [B; ng * Og; ho; wo]) by (unfold gu, narrow; cbn [shp]; rewrite Su; reflexivity).
    assert (OGG : gl * Og + ng * Og <= G * Og) by nia.
    assert (Vg : forall b c t0 q, b < B -> c < ng * Og -> t0 < ho -> q < wo -> val gu [b; c; t0; q] = val Y [b; gl * Og + c; t0; q]).
    { intros. unfold gu, narrow. cbn [val upd nth]. rewrite (Nat.add_comm (gl * Og)). apply Vu; auto. lia. }
    pose proof (re_layer_ok p ng Cg wl Hp Hn Sl) as Lk. pose proof (re_init p ng Cg wl roff es' Hp Hn Sl PP) as Ik. change (mkD K (chunk_len hi P p) wi ho wo ng wl None roff es' (les p)) with (re_layer o r) in Ik.
    destruct (conv_dgrad_spec junk0 _ _ _ _ _ _ _ _ _ _ _ _ Lk Ik gu B Sg) as (v & Ev & Tv).
    destruct (conv_wgrad_value junk0 junk _ _ _ _ _ _ _ _ _ _ _ _ xp gu B Lk Ik Sx Sg) as (w & Ew & Sw' & Vw).
    exists r, v, w. rewrite OG. split; [exact PR|]. split; [exact Ev|]. split; [|split; [exact Ew|]].
    + assert (Sv : shp v = [B; ng * Cg; chunk_len hi P p; wi]) by (rewrite (teq_shp _ _ _ Tv); reflexivity).
      assert (VV : forall b c h j, b < B -> gl * Cg + c < G * Cg -> c < ng * Cg -> h < chunk_len hi P p -> j < wi ->
        val v [b; c; h; j] = dgrad_value K Og Cg wi wo es weight Y b (gl * Cg + c) (h + chunk_lo hi P p) j).
      { intros b c h j Hb Hc0 Hc Hh Hj. rewrite (proj2 Tv) by (rewrite Sv; apply valid4_intro; auto). unfold dgrad_at. cbn [val nth]. unfold dgrad_value. unfold les. rewrite (local_adjoint wi (wi / wo) wo hi P p es) by (auto; lia).
        rewrite Nat.div_add_l by lia. rewrite (Nat.add_comm (gl * Cg) c), Nat.mod_add by lia. assert (c / Cg < ng) by (apply Nat.div_lt_upper_bound; lia).
        destruct L. eapply adjoint_sum_ext; [exact lo_wf|]. intros k t0 q Hk Ht Hq. apply rsum_ext. intros o0 Ho0. rewrite Vg by (auto; nia). f_equal.
        - f_equal. f_equal. f_equal. lia.
        - unfold wl, narrow. cbn [val upd nth]. f_equal. f_equal. lia. }
      unfold re_in_grad. cbn [d_groups d_weight o re_groups re_chans re_pad r]. rewrite NG. unfold dimsz. rewrite re_Sw. cbn [nth].
      destruct (Nat.eqb_spec (ng * Cg) len) as [EL|NL].
      * assert (GC : gl * Cg = clo a) by nia. split; [rewrite Sv, EL, shard_V_shp; reflexivity|]. intros i Vi. rewrite Sv in Vi. destruct (valid4 _ _ _ _ _ Vi) as (b & c & h & j & -> & Hb & Hc & Hh & Hj).
        rewrite shard_V, VV by (auto; lia). f_equal. lia.
      * assert (NS : shp (narrow 1 (clo a - gl * Cg) len v) = [B; len; chunk_len hi P p; wi]) by (unfold narrow; cbn [shp]; rewrite Sv; reflexivity).
        split; [rewrite NS, shard_V_shp; reflexivity|]. intros i Vi. rewrite NS in Vi. destruct (valid4 _ _ _ _ _ Vi) as (b & c & h & j & -> & Hb & Hc & Hh & Hj).
        rewrite shard_V. unfold narrow. cbn [val upd nth]. rewrite VV by (auto; lia). f_equal. lia.
    + unfold re_weight_grad. cbn [d_groups d_weight o re_out_off re_groups r]. rewrite NG, DO. cbv zeta. split; [cbn [shp rpart]; apply re_Sw|]. cbn [shp]. rewrite re_Sw. intros i Vi. apply vld3 in Vi. destruct Vi as (o1 & c & k & -> & Ho & Hc & Hk).
      cbn [val nth rpart upd]. assert (HOg : 1 <= Og) by nia.
      destruct (Nat.leb_spec (gl * Og) o1) as [L1|L1]; [destruct (Nat.ltb_spec o1 (gl * Og + ng * Og)) as [L2|L2]|]; cbn [andb].
      * rewrite Vw by (auto; lia). assert (DV : o1 / Og = (o1 - gl * Og) / Og + gl) by (rewrite <- Nat.div_add by lia; f_equal; lia).
        assert (DU : (o1 - gl * Og) / Og < ng) by (apply Nat.div_lt_upper_bound; nia).
        assert (IX : o1 / Og * Cg + c = gl * Cg + ((o1 - gl * Og) / Og * Cg + c)) by (rewrite DV; ring). rewrite IX.
        set (c' := (o1 - gl * Og) / Og * Cg + c) in *. assert (Hc' : c' < ng * Cg) by (unfold c'; nia).
        apply rsum_ext; intros b Hb. apply rsum_ext; intros t0 Ht. apply rsum_ext; intros q Hq. rewrite Vg by (auto; lia). replace (gl * Og + (o1 - gl * Og)) with o1 by lia. f_equal.
        destruct (inb (clo a) (chi a) (gl * Cg + c')) eqn:Q.
        -- pose proof Q as Q'. unfold inb in Q'. apply andb_true_iff in Q'. rewrite Nat.leb_le, Nat.ltb_lt in Q'.
           transitivity (disco_sum wi (wi / wo) (les p) (fun h w0 => val t [b; gl * Cg + c' - clo a; h; w0]) k t0 q).
           ++ apply (disco_sum_ext _ _ _ _ _ _ _ _ (chunk_len hi P p)); auto; [intros e He; apply (Wl e He)|]. intros h j _ _. rewrite Vx, Q by auto. reflexivity.
           ++ rewrite (re_D p a) by (auto; lia). f_equal. lia.
        -- apply disco_sum_zero. intros h j. rewrite Vx, Q by auto. reflexivity.
      * symmetry. apply (bsum_zero' RT); intros b Hb. apply (bsum_zero' RT); intros t0 Ht. apply (bsum_zero' RT); intros q Hq. rewrite inb_false; [ring|].
        assert (gl + ng <= o1 / Og) by (apply Nat.div_le_lower_bound; lia). nia.
      * symmetry. apply (bsum_zero' RT); intros b Hb. apply (bsum_zero' RT); intros t0 Ht. apply (bsum_zero' RT); intros q Hq. rewrite inb_false; [ring|].
        assert (o1 / Og < gl) by (apply Nat.div_lt_upper_bound; lia). nia.
Qed.

Theorem reordered_dgrad_ok : holds2 P A (dist_conv_reordered_dgrad junk debug P A d x g) (fun p a => shard 2 P p (shard 3 A a V)).
Proof.
  unfold dist_conv_reordered_dgrad. cbv zeta. set (g1 := (fun p a => do o <- d p a; _) : pfam (tensor R)).
  assert (H1 : holds2 P A g1 (fun p a => shard 1 A a (shard 2 P p V))).
  { intros p a Hp Ha. destruct (re_x1 p a Hp Ha) as (t & Et & Tt). destruct (re_g2 p a Hp Ha) as (u & Eu & Tu). unfold g1.
    destruct (rank_init junk0 true P A hi wi ho wo G Og Cg K weight bias es p a) as (roff & es' & E & PP); auto.
    fold d in E. rewrite E, Et, Eu. cbn [bindo]. fold (les p). destruct (re_local p a t u roff es' Hp Ha (PP eq_refl) Tt Tu) as (r & v & w & PR & Ev & Tv & _). rewrite PR. cbn [bindo]. rewrite Ev. cbn [bindo]. apply returns_Some. exact Tv. }
  clearbody g1.
  assert (H0 : holds2 P A (az_transpose_bwd debug A 1 3 x g1) (fun p a => shard 3 A a (shard 2 P p V))).
  { apply az_transpose_bwd_ok; auto; [lia|]. intros p Hp. change (ndim (shard 2 P p V)) with 4. change (dimsz (shard 2 P p V) 3) with wi. change (dimsz (shard 2 P p V) 1) with (G * Cg).
    split; [lia|]. split; [lia|]. split; [auto|]. split; [lia|]. intros a Ha. destruct (holds2_dim _ _ _ _ 1 Hx p a Hp Ha) as (t & Et & Dt). exists t. split; auto. rewrite Dt.
    unfold shard, narrow, dimsz. cbn [shp]. rewrite SX. reflexivity. }
  eapply holds2_teq; [exact H0|]. intros p a Hp Ha. apply shard_comm; auto; lia.
Qed.
Theorem reordered_wgrad_ok : holds2 P A (dist_conv_reordered_wgrad junk debug P A d x g) rpart.
Proof.
  intros p a Hp Ha. destruct (re_x1 p a Hp Ha) as (t & Et & Tt). destruct (re_g2 p a Hp Ha) as (u & Eu & Tu). unfold dist_conv_reordered_wgrad.
  destruct (rank_init junk0 true P A hi wi ho wo G Og Cg K weight bias es p a) as (roff & es' & E & PP); auto.
  fold d in E. rewrite E, Et, Eu. cbn [bindo]. fold (les p). destruct (re_local p a t u roff es' Hp Ha (PP eq_refl) Tt Tu) as (r & v & w & PR & _ & _ & Ew & Tw). rewrite PR. cbn [bindo]. rewrite Ew. cbn [bindo]. apply returns_Some. exact Tw.
Qed.
Theorem rpart_total : forall o c k, o < G * Og -> c < Cg -> rsum P (fun p => rsum A (fun a => val (rpart p a) [o; c; k])) =
  rsum B (fun b => rsum ho (fun t => rsum wo (fun q => Rmult (val Y [b; o; t; q]) (D es b (o / Og * Cg + c) k t q)))).
Proof.
  intros o c k Ho Hc. unfold rpart. cbn [val nth].
  rewrite (rsum_ext P _ (fun p => rsum B (fun b => rsum ho (fun t => rsum wo (fun q => Rmult (val Y [b; o; t; q]) (D (lat_slice hi wi P p es) b (o / Og * Cg + c) k t q)))))).
  2:{ intros p Hp. rewrite rsum_swap. apply rsum_ext; intros b Hb. rewrite rsum_swap. apply rsum_ext; intros t Ht. rewrite rsum_swap. apply rsum_ext; intros q Hq. rewrite (bsum_scal_l RT). f_equal.
      apply (rsum_chunks_one (G * Cg) A (o / Og * Cg + c)); [lia|]. eapply group_idx; eauto. }
  rewrite rsum_swap. apply rsum_ext; intros b Hb. rewrite rsum_swap. apply rsum_ext; intros t Ht. rewrite rsum_swap. apply rsum_ext; intros q Hq. rewrite (bsum_scal_l RT). f_equal.
  apply (sum_slices hi wi P es); auto using re_wi, re_col. lia.
Qed.
End ReBwd.

Theorem dist_conv_reordered_bwd_serial : forall junk junk' junk'' debug P A hi wi ho wo G Og Cg K B weight bias es s (X Y : tensor R) x g,
  layer_ok K hi wi ho wo G Og Cg weight bias es -> conv_s2_init junk hi wi ho wo G K weight bias es = Some s ->
  slices_filled hi wi P es -> slices_separated K hi wi P es ->
  1 <= P <= hi -> P <= ho -> 1 <= A <= wi -> A <= wo -> A <= G * Cg ->
  shp X = [B; G * Cg; hi; wi] -> shp Y = [B; G * Og; ho; wo] ->
  holds2 P A x (fun p a => shard 2 P p (shard 3 A a X)) -> holds2 P A g (fun p a => shard 2 P p (shard 3 A a Y)) ->
  let d := dist_conv_init junk true P A hi wi ho wo G K weight bias es in
  exists V W, conv_s2_dgrad s Y = Some V /\ conv_s2_wgrad junk'' s X Y = Some W /\
    holds2 P A (dist_conv_reordered_dgrad junk' debug P A d x g) (fun p a => shard 2 P p (shard 3 A a V)) /\
    grid_total P A (dist_conv_reordered_wgrad junk' debug P A d x g) W.
Proof.
  intros junk junk' junk'' debug P A hi wi ho wo G Og Cg K B weight bias es s X Y x g L I F S HP HPo HA HAo HAC SX SY Hx Hg d.
  destruct (conv_dgrad_spec junk hi wi ho wo G Og Cg K weight bias es s L I Y B SY) as (V & EV & TV).
  destruct (conv_wgrad_value junk junk'' hi wi ho wo G Og Cg K weight bias es s X Y B L I SX SY) as (W & EW & SW & VW).
  exists V, W. split; auto. split; auto. split.
  - eapply holds2_teq; [eapply (reordered_dgrad_ok P A hi wi ho wo G Og Cg K B weight bias es); eauto|].
    intros p a Hp Ha. cbn beta. apply shard_proper; try lia. apply shard_proper; try lia. apply teq_sym; auto.
  - eapply (grid_total_of P A _ (rpart P A hi wi ho wo G Og Cg K B es X Y)).
    + eapply (reordered_wgrad_ok P A hi wi ho wo G Og Cg K B weight bias es); eauto.
    + intros. rewrite SW. reflexivity.
    + intros i Vi. rewrite SW in Vi. apply vld3 in Vi. destruct Vi as (o & c & k & -> & Ho & Hc & Hk). rewrite VW by auto.
      eapply (rpart_total P A hi wi ho wo G Og Cg K B weight bias es); eauto.
Qed.
