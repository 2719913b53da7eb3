(** Distributed spectral convolution = shards of the serial one. *)
From Coq Require Import List Arith Lia Bool Reals ZArith Lra.
From Coquelicot Require Import Coquelicot.
From Verif Require Import TensorModel TensorProofs BigSum FFTModel TruncModel LegendreModel QuadModel SHTModel
  PrimModel PrimSpec PrimProofs PrimProofs2 PrimAutogradModel AdjointProofs PrimPropProofs ResampleModel SpectralConvModel
  DistSHTModel DistSHTProofs DistSHTProofs2 DistSHTProofs3 DistMiscModel DistMiscProofs.
Import ListNotations.
Local Open Scope nat_scope.

Lemma valid4 : forall a b c d i, valid [a; b; c; d] i ->
  exists p q r s, i = [p; q; r; s] /\ p < a /\ q < b /\ r < c /\ s < d.
Proof.
  intros a b c d i [L H]. destruct i as [|p [|q [|r [|s [|]]]]]; simpl in L; try lia.
  exists p, q, r, s. split; auto.
  pose proof (H 0 ltac:(simpl; lia)). pose proof (H 1 ltac:(simpl; lia)). pose proof (H 2 ltac:(simpl; lia)). pose proof (H 3 ltac:(simpl; lia)).
  simpl in *. auto.
Qed.
Lemma valid4_intro : forall a b c d p q r s, p < a -> q < b -> r < c -> s < d -> valid [a; b; c; d] [p; q; r; s].
Proof. intros. split; auto. intros [|[|[|[|]]]] Hd; simpl in *; lia. Qed.

(** The (2,3)-shard of a rank-4 tensor, explicitly. *)
Lemma shard23 : forall B (X : tensor B) b c L M P A p a, shp X = [b; c; L; M] ->
  teq (shard 2 P p (shard 3 A a X))
      (mkT [b; c; chunk_len L P p; chunk_len M A a]
        (fun i => val X [nth 0 i 0; nth 1 i 0; nth 2 i 0 + chunk_lo L P p; nth 3 i 0 + chunk_lo M A a])).
Proof.
  intros B X b c L M P A p a E. split.
  - unfold shard, narrow, dimsz; cbn [shp]. now rewrite E.
  - intros i Hi. unfold shard, narrow, dimsz in *; cbn [shp val] in *. rewrite E in *. cbn [upd nth] in *.
    destruct (valid4 _ _ _ _ _ Hi) as (i0 & i1 & i2 & i3 & -> & _). reflexivity.
Qed.
Lemma shard_w3 : forall B (w : tensor B) g ci co L P p, shp w = [g; ci; co; L] ->
  teq (shard 3 P p w) (mkT [g; ci; co; chunk_len L P p]
        (fun i => val w [nth 0 i 0; nth 1 i 0; nth 2 i 0; nth 3 i 0 + chunk_lo L P p])).
Proof.
  intros B X b c L M P p E. split.
  - unfold shard, narrow, dimsz; cbn [shp]. now rewrite E.
  - intros i Hi. unfold shard, narrow, dimsz in *; cbn [shp val] in *. rewrite E in *. cbn [upd nth] in *.
    destruct (valid4 _ _ _ _ _ Hi) as (i0 & i1 & i2 & i3 & -> & _). reflexivity.
Qed.

Lemma contract_serial : forall groups ci co b L M (w y : tensor C),
  groups <> 0 -> shp y = [b; groups * ci; L; M] -> shp w = [groups; ci; co; L] ->
  contract_lwise groups (groups * co) w y = Some (mkT [b; groups * co; L; M]
     (fun i => csum ci (fun c => Cmult (val y [nth 0 i 0; (nth 1 i 0 / co) * ci + c; nth 2 i 0; nth 3 i 0])
                                       (val w [nth 1 i 0 / co; c; nth 1 i 0 mod co; nth 2 i 0])))).
Proof.
  intros groups ci co b L M w y Hg Sy Sw. unfold contract_lwise, ndim, dimsz. rewrite Sy, Sw. cbn [length nth].
  replace (groups * ci / groups) with ci by (rewrite Nat.mul_comm, Nat.div_mul; auto).
  rewrite !Nat.eqb_refl. cbn [andb upd]. reflexivity.
Qed.

Lemma contract_shard : forall groups ci co b L M P A p a (w y wl yl : tensor C) z,
  groups <> 0 -> shp y = [b; groups * ci; L; M] -> shp w = [groups; ci; co; L] ->
  contract_lwise groups (groups * co) w y = Some z ->
  1 <= P -> p < P -> 
  teq wl (shard 3 P p w) -> teq yl (shard 2 P p (shard 3 A a y)) ->
  returns (contract_lwise groups (groups * co) wl yl) (shard 2 P p (shard 3 A a z)).
Proof.
  intros groups ci co b L M P A p a w y wl yl z Hg Sy Sw Ez HP Hp Tw Ty.
  rewrite contract_serial with (ci := ci) (b := b) (L := L) (M := M) in Ez by auto. inversion Ez; subst z; clear Ez.
  assert (Tw' := teq_trans _ _ _ _ Tw (shard_w3 _ _ _ _ _ _ P p Sw)).
  assert (Ty' := teq_trans _ _ _ _ Ty (shard23 _ _ _ _ _ _ P A p a Sy)).
  rewrite (contract_serial groups ci co b (chunk_len L P p) (chunk_len M A a)) by (auto; first [apply (teq_shp _ _ _ Ty')|apply (teq_shp _ _ _ Tw')]).
  apply returns_Some. eapply teq_trans; [|apply teq_sym; apply shard23; reflexivity]. split; auto.
  intros i Hi. cbn [shp] in Hi. destruct (valid4 _ _ _ _ _ Hi) as (i0 & i1 & i2 & i3 & -> & V0 & V1 & V2 & V3). cbn [val nth].
  assert (co <> 0) by (intros ->; lia).
  assert (i1 / co < groups) by (apply Nat.div_lt_upper_bound; auto; lia).
  assert (i1 mod co < co) by (apply Nat.mod_upper_bound; auto).
  apply bsum_ext. intros c Hc. f_equal.
  - destruct Ty' as [S V]. rewrite V. reflexivity. rewrite S. apply valid4_intro; auto. nia.
  - destruct Tw' as [S V]. rewrite V. reflexivity. rewrite S. apply valid4_intro; auto.
Qed.

Lemma bias_shard : forall b c L M P A p a (q ql : tensor R) (bias y bl yl z : tensor C),
  shp y = [b; c; L; M] -> shp bias = [1; c; L; M] -> shp q = [b; c] ->
  add_bias q bias y = Some z ->
  teq ql q -> teq bl (shard 2 P p (shard 3 A a bias)) -> teq yl (shard 2 P p (shard 3 A a y)) ->
  returns (add_bias ql bl yl) (shard 2 P p (shard 3 A a z)).
Proof.
  intros b c L M P A p a q ql bias y bl yl z Sy Sb Sq Ez Tq Tb Ty.
  unfold add_bias, ndim, dimsz in Ez. rewrite Sy, Sb, Sq in Ez. cbn [length nth] in Ez.
  rewrite !(proj2 (shape_eqb_true _ _)) in Ez by reflexivity. cbn in Ez. inversion Ez; subst z; clear Ez.
  assert (Tb' := teq_trans _ _ _ _ Tb (shard23 _ _ _ _ _ _ P A p a Sb)).
  assert (Ty' := teq_trans _ _ _ _ Ty (shard23 _ _ _ _ _ _ P A p a Sy)).
  unfold add_bias, ndim, dimsz. rewrite (teq_shp _ _ _ Ty'), (teq_shp _ _ _ Tb'), (teq_shp _ _ _ Tq), Sq. cbn [shp length nth].
  rewrite !(proj2 (shape_eqb_true _ _)) by reflexivity. cbn [andb Nat.eqb].
  apply returns_Some. eapply teq_trans; [|apply teq_sym; apply shard23; reflexivity]. split; auto.
  intros i Hi. cbn [shp] in Hi. destruct (valid4 _ _ _ _ _ Hi) as (i0 & i1 & i2 & i3 & -> & V0 & V1 & V2 & V3). cbn [val nth].
  f_equal; [|f_equal; [f_equal|]].
  - destruct Ty' as [S V]. rewrite V. reflexivity. rewrite S. apply valid4_intro; auto.
  - destruct Tq as [S V]. apply V. rewrite S, Sq. split; auto. intros [|[|]] Hd; simpl in *; lia.
  - destruct Tb' as [S V]. rewrite V. reflexivity. rewrite S. apply valid4_intro; auto.
Qed.

Lemma real_sht_init_inv : forall gl h w lm mm g nm cs s, real_sht_init gl h w lm mm g nm cs = Some s ->
  s_nlat s = h /\ s_nlon s = w /\ table_ok s (s_lmax s) (s_nlat s) /\ g <> GTrapezoidal /\
  exists q, sht_rule gl h g = Some q.
Proof.
  intros gl h w lm mm g nm cs s E. unfold real_sht_init in E. destruct (sht_rule gl h g) as [q|] eqn:Q; [|discriminate].
  cbn [bindo] in E. destruct (truncate_sht h w lm mm g) as [[l m]|]; [|discriminate]. cbn [bindo] in E. inversion E; subst.
  repeat split; auto. intros ->; discriminate. eauto.
Qed.
Lemma inverse_sht_init_inv : forall gl h w lm mm g nm cs s, inverse_sht_init gl h w lm mm g nm cs = Some s ->
  s_nlat s = h /\ s_nlon s = w /\ table_ok s (s_nlat s) (s_lmax s) /\ g <> GTrapezoidal.
Proof.
  intros gl h w lm mm g nm cs s E. unfold inverse_sht_init in E. destruct (sht_rule gl h g) as [q|] eqn:Q; [|discriminate].
  cbn [bindo] in E. destruct (truncate_sht h w lm mm g) as [[l m]|]; [|discriminate]. cbn [bindo] in E. inversion E; subst.
  repeat split; auto. intros ->; discriminate.
Qed.

Theorem dist_spectral_conv_ok : forall debug P A gl hi wi ho wo cin cout groups gi go weight bias s lm b X x sh ish wl bl ql,
  sconv_init gl hi wi ho wo cin cout groups gi go weight bias = Some s ->
  sconv_trunc hi wi ho wo gi go = Some lm ->
  1 <= P -> 1 <= A -> P <= hi -> A <= wi -> P <= ho -> A <= wo -> P <= lm -> A <= lm ->
  shp X = [b; cin; hi; wi] ->
  (forall p a, p < P -> a < A -> sh p a = dist_real_sht_init gl P A hi wi (Some lm) (Some lm) gi Ortho true p a) ->
  (forall p a, p < P -> a < A -> ish p a = dist_inverse_sht_init gl P A ho wo (Some lm) (Some lm) go Ortho true p a) ->
  holds2 P A wl (fun p _ => shard 3 P p weight) ->
  match bias, bl with
  | None, None => True
  | Some bt, Some bl => holds2 P A bl (fun p a => shard 2 P p (shard 3 A a bt))
  | _, _ => False
  end ->
  (forall p a, p < P -> a < A -> ql p a = dist_quad_init gl P A hi wi gi false p a) ->
  holds2 P A x (fun p a => shard 2 P p (shard 3 A a X)) ->
  exists Y, spectral_conv s X = Some Y /\ shp Y = [b; cout; ho; wo] /\
    holds2 P A (dist_spectral_conv debug P A sh ish groups cout wl bl ql x) (fun p a => shard 2 P p (shard 3 A a Y)).
Proof.
  intros debug P A gl hi wi ho wo cin cout groups gi go weight bias s lm b X x sh ish wl bl ql Es Et HP HA H1 H2 H3 H4 H5 H6 HX Hsh Hish Hwl Hbl Hql Hx.
  unfold sconv_init in Es. rewrite Et in Es.
  destruct (negb (groups =? 0) && (cin mod groups =? 0) && (cout mod groups =? 0)) eqn:G; [|discriminate].
  cbn [guard bindo] in Es.
  destruct (real_sht_init gl hi wi (Some lm) (Some lm) gi Ortho true) as [s1|] eqn:E1; [|discriminate]. cbn [bindo] in Es.
  destruct (inverse_sht_init gl ho wo (Some lm) (Some lm) go Ortho true) as [s2|] eqn:E2; [|discriminate]. cbn [bindo] in Es.
  destruct (shape_eqb (shp weight) [groups; cin / groups; cout / groups; s_lmax s1]) eqn:Ew; [|discriminate]. cbn [guard bindo] in Es.
  destruct (match bias with None => true | Some b => shape_eqb (shp b) [1; cin; s_lmax s1; s_mmax s1] end) eqn:Eb; [|discriminate]. cbn [guard bindo] in Es.
  destruct (quadrature_s2_rule gl hi gi) as [q|] eqn:Eq; [|discriminate]. cbn [bindo] in Es. inversion Es; subst s; clear Es.
  apply shape_eqb_true in Ew. apply andb_prop in G. destruct G as [G G3]. apply andb_prop in G. destruct G as [G1 G2].
  apply negb_true_iff, Nat.eqb_neq in G1. apply Nat.eqb_eq in G2, G3.
  assert (Ci : cin = groups * (cin / groups)) by (rewrite (Nat.div_mod cin groups) at 1; auto; lia).
  assert (Co : cout = groups * (cout / groups)) by (rewrite (Nat.div_mod cout groups) at 1; auto; lia).
  assert (LM : forall gl h w g nm cs s, real_sht_init gl h w (Some lm) (Some lm) g nm cs = Some s -> s_lmax s = lm /\ s_mmax s = lm).
  { clear - H5 HP. intros gl h w g nm cs s E. unfold real_sht_init in E. destruct (sht_rule gl h g); [|discriminate]. cbn [bindo] in E.
    unfold truncate_sht in E. destruct lm; [lia|]. cbn [or_default bindo] in E. rewrite Nat.min_id in E. inversion E; auto. }
  assert (LM' : forall gl h w g nm cs s, inverse_sht_init gl h w (Some lm) (Some lm) g nm cs = Some s -> s_lmax s = lm /\ s_mmax s = lm).
  { clear - H5 HP. intros gl h w g nm cs s E. unfold inverse_sht_init in E. destruct (sht_rule gl h g); [|discriminate]. cbn [bindo] in E.
    unfold truncate_sht in E. destruct lm; [lia|]. cbn [or_default bindo] in E. rewrite Nat.min_id in E. inversion E; auto. }
  destruct (LM _ _ _ _ _ _ _ E1) as [L1 M1]. destruct (LM' _ _ _ _ _ _ _ E2) as [L2 M2].
  destruct (real_sht_init_inv _ _ _ _ _ _ _ _ _ E1) as (N1 & W1 & T1 & GT1 & _).
  destruct (inverse_sht_init_inv _ _ _ _ _ _ _ _ _ E2) as (N2 & W2 & T2 & GT2).
  unfold spectral_conv. cbn [sc_sht sc_isht sc_in sc_out sc_groups sc_weight sc_bias sc_quad].
  destruct (dist_real_sht_ok P A s1 debug [b; cin] X x sh) as (Y & EY & SY & HY); auto; rewrite ?N1, ?W1, ?L1, ?M1; auto; try discriminate.
  { intros p a Hp Ha. rewrite Hsh by auto. unfold dist_real_sht_init. now rewrite E1. }
  rewrite L1, M1 in SY. cbn [app length Nat.add] in SY, HY. rewrite L1, M1 in *. rewrite EY. cbn [bindo].
  set (y := dist_real_sht debug P A sh x) in *.
  pose (y1 := match bl with
            | None => y
            | Some b => let q := dist_quadrature P A ql x in
                        fun p a => do qv <- q p a; do bv <- b p a; do yv <- y p a; add_bias qv bv yv
            end).
  assert (BB : exists Y1, match bias with None => Some Y | Some b => do q <- integrate_last2 (quad_weight_tensor hi wi (rw q) false) X; add_bias q b Y end = Some Y1
     /\ shp Y1 = [b; cin; lm; lm] /\
     holds2 P A y1 (fun p a => shard 2 P p (shard 3 A a Y1))).
  { unfold y1; clear y1. destruct bias as [bt|], bl as [bl|]; try contradiction.
    - apply shape_eqb_true in Eb.
      destruct (dist_quadrature_ok gl P A hi wi gi false q [b; cin] X x ql) as (Q & EQ & HQ); auto.
      unfold quadrature_s2 in EQ. rewrite Eq in EQ. rewrite EQ. cbn [bindo].
      assert (SQ : shp Q = [b; cin]).
      { unfold integrate_last2, ndim, dimsz in EQ. rewrite HX in EQ. cbn [length nth Nat.sub Nat.add quad_weight_tensor shp] in EQ.
        rewrite (proj2 (shape_eqb_true _ _)) in EQ by reflexivity. inversion EQ. reflexivity. }
      destruct (add_bias Q bt Y) as [Y1|] eqn:EB.
      2:{ exfalso. unfold add_bias, ndim, dimsz in EB. rewrite SY, Eb, SQ in EB. cbn [length nth] in EB.
          rewrite !(proj2 (shape_eqb_true _ _)) in EB by (rewrite ?L1, ?M1; reflexivity). discriminate. }
      exists Y1. split; auto. split.
      { unfold add_bias in EB. destruct (_ && _) in EB; [|discriminate]. inversion EB. exact SY. }
      intros p a Hp Ha. cbv zeta. destruct (HQ p a Hp Ha) as (qv & -> & Tq). destruct (Hbl p a Hp Ha) as (bv & -> & Tb).
      destruct (HY p a Hp Ha) as (yv & -> & Ty). cbn [bindo].
      eapply bias_shard; eauto.
    - exists Y. auto. }
  destruct BB as (Y1 & EY1 & SY1 & HY1). rewrite EY1. cbn [bindo].
  rewrite Ci in SY1. rewrite Co.
  destruct (contract_lwise groups (groups * (cout / groups)) weight Y1) as [Z|] eqn:EZ.
  2:{ exfalso. rewrite (contract_serial groups (cin / groups) (cout / groups) b lm lm) in EZ by auto. discriminate. }
  cbn [bindo].
  assert (SZ : shp Z = [b; cout; lm; lm]).
  { rewrite (contract_serial groups (cin / groups) (cout / groups) b lm lm) in EZ by auto. inversion EZ; cbn [shp]. now rewrite <- Co. }
  destruct (dist_inverse_sht_ok P A s2 debug [b; cout] Z (pzip (fun w t => contract_lwise groups (groups * (cout / groups)) w t) wl y1) ish)
    as (V & EV & SV & HV); auto; rewrite ?N2, ?W2, ?L2, ?M2; auto; try discriminate.
  { intros p a Hp Ha. rewrite Hish by auto. unfold dist_inverse_sht_init. now rewrite E2. }
  { intros p a Hp Ha. unfold pzip. destruct (Hwl p a Hp Ha) as (wv & -> & Tw). cbn [bindo].
    destruct (HY1 p a Hp Ha) as (yv & -> & Ty). cbn [bindo length Nat.add].
    eapply contract_shard; eauto. }
  rewrite N2, W2 in SV. exists V. rewrite <- Co in *. cbn [app] in SV. auto.
Qed.
