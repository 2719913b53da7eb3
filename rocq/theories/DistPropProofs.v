(** The distributed equalities in the form stated by the property theorems. *)
From Coq Require Import List Arith Lia Bool Reals Lra ZArith.
From Coquelicot Require Import Coquelicot.
From Verif Require Import TensorModel TensorProofs BigSum FFTModel TruncModel LegendreModel QuadModel SHTModel PrimModel
  PrimSpec PrimProofs PrimProofs2 ResampleModel SpectralConvModel PrimPropProofs DistSHTModel DistSHTProofs DistSHTProofs3 DistSHTProofs4
  DistMiscModel DistMiscProofs DistResampleProofs DistSpectralProofs.
Import ListNotations.
Local Open Scope nat_scope.

Lemma C11_dist_sht_lemma : forall gl P A nlat nlon lmax mmax g nm cs s debug lead X x,
  1 <= P -> 1 <= A -> real_sht_init gl nlat nlon lmax mmax g nm cs = Some s ->
  P <= nlat -> A <= nlon -> P <= s_lmax s -> A <= s_mmax s ->
  lead <> [] -> shp X = lead ++ [nlat; nlon] ->
  holds2 P A x (fun p a => shard (length lead) P p (shard (length lead + 1) A a X)) ->
  exists Y, real_sht s X = Some Y /\ shp Y = lead ++ [s_lmax s; s_mmax s] /\
    holds2 P A (dist_real_sht debug P A (dist_real_sht_init gl P A nlat nlon lmax mmax g nm cs) x)
      (fun p a => shard (length lead) P p (shard (length lead + 1) A a Y)).
Proof.
  intros gl P A nlat nlon lmax mmax g nm cs s debug lead X x HP HA E H1 H2 H3 H4 Hl HX Hx.
  destruct (real_sht_init_inv _ _ _ _ _ _ _ _ _ E) as (N & W & T & _).
  apply dist_real_sht_ok; rewrite ?N, ?W in *; auto.
  intros p a Hp Ha. unfold dist_real_sht_init. now rewrite E.
Qed.
Lemma C12_dist_inverse_sht_lemma : forall gl P A nlat nlon lmax mmax g nm cs s debug lead X x,
  1 <= P -> 1 <= A -> inverse_sht_init gl nlat nlon lmax mmax g nm cs = Some s ->
  P <= nlat -> A <= nlon -> P <= s_lmax s -> A <= s_mmax s ->
  lead <> [] -> shp X = lead ++ [s_lmax s; s_mmax s] ->
  holds2 P A x (fun p a => shard (length lead) P p (shard (length lead + 1) A a X)) ->
  exists Y, inverse_sht s X = Some Y /\ shp Y = lead ++ [nlat; nlon] /\
    holds2 P A (dist_inverse_sht debug P A (dist_inverse_sht_init gl P A nlat nlon lmax mmax g nm cs) x)
      (fun p a => shard (length lead) P p (shard (length lead + 1) A a Y)).
Proof.
  intros gl P A nlat nlon lmax mmax g nm cs s debug lead X x HP HA E H1 H2 H3 H4 Hl HX Hx.
  destruct (inverse_sht_init_inv _ _ _ _ _ _ _ _ _ E) as (N & W & T & _).
  destruct (dist_inverse_sht_ok P A s debug lead X x (dist_inverse_sht_init gl P A nlat nlon lmax mmax g nm cs)) as (Y & Q);
    rewrite ?N, ?W in *; auto.
  intros p a Hp Ha. unfold dist_inverse_sht_init. now rewrite E.
  exists Y. exact Q.
Qed.
Lemma vector_sht_init_inv : forall gl h w lm mm g nm cs s, vector_sht_init gl h w lm mm g nm cs = Some s ->
  s_nlat s = h /\ s_nlon s = w /\ shp (s_weights s) = [2; s_mmax s; s_lmax s; s_nlat s].
Proof.
  intros gl h w lm mm g nm cs s E. unfold vector_sht_init in E. destruct (sht_rule gl h g) as [q|] eqn:Q; [|discriminate].
  cbn [bindo] in E. destruct (truncate_sht h w lm mm g) as [[l m]|]; [|discriminate]. cbn [bindo] in E. inversion E; subst. auto.
Qed.
Lemma inverse_vector_sht_init_inv : forall gl h w lm mm g nm cs s, inverse_vector_sht_init gl h w lm mm g nm cs = Some s ->
  s_nlat s = h /\ s_nlon s = w /\ shp (s_weights s) = [2; s_mmax s; s_nlat s; s_lmax s].
Proof.
  intros gl h w lm mm g nm cs s E. unfold inverse_vector_sht_init in E. destruct (sht_rule gl h g) as [q|] eqn:Q; [|discriminate].
  cbn [bindo] in E. destruct (truncate_sht h w lm mm g) as [[l m]|]; [|discriminate]. cbn [bindo] in E. inversion E; subst. auto.
Qed.
Lemma C13_dist_vector_sht_lemma : forall gl P A nlat nlon lmax mmax g nm cs s debug lead X x,
  1 <= P -> 1 <= A -> vector_sht_init gl nlat nlon lmax mmax g nm cs = Some s ->
  P <= nlat -> A <= nlon -> P <= s_lmax s -> A <= s_mmax s ->
  lead <> [] -> shp X = lead ++ [2; nlat; nlon] ->
  holds2 P A x (fun p a => shard (length lead + 1) P p (shard (length lead + 2) A a X)) ->
  exists Y, vector_sht s X = Some Y /\ shp Y = lead ++ [2; s_lmax s; s_mmax s] /\
    holds2 P A (dist_vector_sht debug P A (dist_vector_sht_init gl P A nlat nlon lmax mmax g nm cs) x)
      (fun p a => shard (length lead + 1) P p (shard (length lead + 2) A a Y)).
Proof.
  intros gl P A nlat nlon lmax mmax g nm cs s debug lead X x HP HA E H1 H2 H3 H4 Hl HX Hx.
  destruct (vector_sht_init_inv _ _ _ _ _ _ _ _ _ E) as (N & W & T).
  apply dist_vector_sht_ok; rewrite ?N, ?W in *; auto.
  intros p a Hp Ha. unfold dist_vector_sht_init. now rewrite E.
Qed.
Lemma C13_dist_inverse_vector_sht_lemma : forall gl P A nlat nlon lmax mmax g nm cs s debug lead X x,
  1 <= P -> 1 <= A -> inverse_vector_sht_init gl nlat nlon lmax mmax g nm cs = Some s ->
  P <= nlat -> A <= nlon -> P <= s_lmax s -> A <= s_mmax s ->
  lead <> [] -> shp X = lead ++ [2; s_lmax s; s_mmax s] ->
  holds2 P A x (fun p a => shard (length lead + 1) P p (shard (length lead + 2) A a X)) ->
  exists Y, inverse_vector_sht s X = Some Y /\ shp Y = lead ++ [2; nlat; nlon] /\
    holds2 P A (dist_inverse_vector_sht debug P A (dist_inverse_vector_sht_init gl P A nlat nlon lmax mmax g nm cs) x)
      (fun p a => shard (length lead + 1) P p (shard (length lead + 2) A a Y)).
Proof.
  intros gl P A nlat nlon lmax mmax g nm cs s debug lead X x HP HA E H1 H2 H3 H4 Hl HX Hx.
  destruct (inverse_vector_sht_init_inv _ _ _ _ _ _ _ _ _ E) as (N & W & T).
  destruct (dist_inverse_vector_sht_ok P A s debug lead X x (dist_inverse_vector_sht_init gl P A nlat nlon lmax mmax g nm cs)) as (Y & Q);
    rewrite ?N, ?W in *; auto.
  - intros p a Hp Ha. unfold dist_inverse_vector_sht_init. now rewrite E.
  - exists Y. exact Q.
Qed.

Lemma C11_constructor_lemma : forall gl P A nlat nlon lmax mmax g nm cs s p a,
  real_sht_init gl nlat nlon lmax mmax g nm cs = Some s -> p < P -> a < A ->
  (exists o, dist_real_sht_init gl P A nlat nlon lmax mmax g nm cs p a = Some o) <->
  (P <= nlat /\ A <= nlon /\ P <= s_lmax s /\ A <= s_mmax s).
Proof.
  intros gl P A nlat nlon lmax mmax g nm cs s p a E Hp Ha. unfold dist_real_sht_init. rewrite E. cbn [bindo].
  destruct (real_sht_init_inv _ _ _ _ _ _ _ _ _ E) as (N & W & T & _). unfold table_ok in T.
  rewrite <- N, <- W. split.
  - intros (o & Eo). apply dist_init_inv in Eo. tauto.
  - intros (H1 & H2 & H3 & H4). rewrite dist_init_ok; auto; try lia. eauto.
    unfold ndim; rewrite T; simpl; lia. unfold dimsz; now rewrite T.
Qed.
Lemma C12_constructor_lemma : forall gl P A nlat nlon lmax mmax g nm cs s p a,
  inverse_sht_init gl nlat nlon lmax mmax g nm cs = Some s -> p < P -> a < A ->
  (exists o, dist_inverse_sht_init gl P A nlat nlon lmax mmax g nm cs p a = Some o) <->
  (P <= nlat /\ A <= nlon /\ P <= s_lmax s /\ A <= s_mmax s).
Proof.
  intros gl P A nlat nlon lmax mmax g nm cs s p a E Hp Ha. unfold dist_inverse_sht_init. rewrite E. cbn [bindo].
  destruct (inverse_sht_init_inv _ _ _ _ _ _ _ _ _ E) as (N & W & T & _). unfold table_ok in T.
  rewrite <- N, <- W. split.
  - intros (o & Eo). apply dist_init_inv in Eo. tauto.
  - intros (H1 & H2 & H3 & H4). rewrite dist_init_ok; auto; try lia. eauto.
    unfold ndim; rewrite T; simpl; lia. unfold dimsz; now rewrite T.
Qed.

Lemma C14_dist_quadrature_lemma : forall gl P A nlat nlon g normalize lead X x,
  1 <= P -> 1 <= A -> P <= nlat -> A <= nlon -> g <> GTrapezoidal -> quadrature_s2_rule gl nlat g <> None ->
  shp X = lead ++ [nlat; nlon] ->
  holds2 P A x (fun p a => shard (length lead) P p (shard (length lead + 1) A a X)) ->
  exists Y, quadrature_s2 gl nlat nlon g normalize X = Some Y /\
    holds2 P A (dist_quadrature P A (dist_quad_init gl P A nlat nlon g normalize) x) (fun _ _ => Y).
Proof.
  intros gl P A nlat nlon g normalize lead X x HP HA H1 H2 Hg Hq HX Hx.
  destruct (quadrature_s2_rule gl nlat g) as [q|] eqn:E; [|congruence].
  apply (dist_quadrature_ok gl P A nlat nlon g normalize q lead X x); auto.
Qed.
Lemma C14_trapezoidal_lemma : forall gl P A nlat nlon normalize p a, 2 <= nlat ->
  dist_quad_init gl P A nlat nlon GTrapezoidal normalize p a = None /\ quadrature_s2_rule gl nlat GTrapezoidal <> None.
Proof. intros. split; auto. cbn [quadrature_s2_rule]. unfold trapezoidal_weights. cbv zeta.
  destruct (Nat.eqb_spec nlat 0); [lia|]. destruct (Nat.eqb_spec (nlat - 1 + 0) 0); [lia|]. discriminate. Qed.

Lemma C15_dist_resample_lemma : forall gl debug P A hi wi ho wo gi go mode r lead nc X x,
  resample_init gl hi wi ho wo gi go mode = Some r ->
  1 <= P -> 1 <= A -> P <= hi -> A <= wi -> P <= ho -> A <= wo -> P <= nc -> A <= nc ->
  shp X = lead ++ [nc; hi; wi] ->
  holds2 P A x (fun p a => shard (length lead + 1) P p (shard (length lead + 2) A a X)) ->
  exists Y, resample r X = Some Y /\ shp Y = lead ++ [nc; ho; wo] /\
    holds2 P A (dist_resample debug P A r x) (fun p a => shard (length lead + 1) P p (shard (length lead + 2) A a Y)).
Proof.
  intros gl debug P A hi wi ho wo gi go mode r lead nc X x E HP HA H1 H2 H3 H4 H5 H6 HX Hx.
  assert (Hsk : rs_skip r = true -> hi = ho /\ wi = wo).
  { unfold resample_init in E. destruct mode; try discriminate;
    (destruct (precompute_latitudes gl hi gi) as [qi|]; [|discriminate]); (destruct (precompute_latitudes gl ho go) as [qo|]; [|discriminate]);
    cbn [bindo] in E; destruct (_ || _) in E; try discriminate; destruct (_ && _) in E; try discriminate;
    inversion E; cbn; intros K; apply andb_prop in K; destruct K as [K _]; apply andb_prop in K; destruct K as [K1 K2];
    apply Nat.eqb_eq in K1, K2; auto. }
  destruct (resample_init_res_ok _ _ _ _ _ _ _ _ _ E) as (R & N1 & N2 & N3 & N4 & _).
  destruct (dist_resample_ok debug P A r lead nc X x) as (Y & E1 & E2 & E3); rewrite ?N1, ?N2, ?N3, ?N4; auto; try lia.
  exists Y. split; auto. split; auto. rewrite E2, HX, N3, N4. destruct (rs_skip r); auto.
  destruct (Hsk eq_refl) as [-> ->]. auto.
Qed.

Lemma transpose_None : forall B debug n d0 d1 sz (x : fam (tensor B)) r, r < n -> x r = None -> distributed_transpose debug n d0 d1 sz x r = None.
Proof.
  intros B debug n d0 d1 sz x r Hr E. unfold distributed_transpose, transpose_. cbv zeta.
  destruct (n =? 1). now rewrite E. unfold all_to_all.
  destruct (a2a_ok n _ _) eqn:K; auto. exfalso. unfold a2a_ok in K. rewrite forallb_forall in K.
  specialize (K r). rewrite in_seq in K. specialize (K ltac:(lia)). rewrite forallb_forall in K.
  specialize (K r). rewrite in_seq in K. specialize (K ltac:(lia)).
  rewrite E in K. destruct debug; [destruct (transpose_debug_pre n d1 sz x r)|]; discriminate.
Qed.
Lemma C15_few_channels_lemma : forall debug P A r lead nc X x p a,
  rs_skip r = false -> 1 < P -> nc < P -> shp X = lead ++ [nc; rs_nlat_in r; rs_nlon_in r] ->
  holds2 P A x (fun p a => shard (length lead + 1) P p (shard (length lead + 2) A a X)) ->
  p < P -> a < A -> dist_resample debug P A r x p a = None.
Proof.
  intros debug P A r lead nc X x p a Hs HP Hn HX Hx Hp Ha. unfold dist_resample. rewrite Hs.
  destruct (Hx p a Hp Ha) as (t & Et & Tt). rewrite Et. cbn [bindo].
  assert (N : ndim X = length lead + 3) by (unfold ndim; rewrite HX, app_length; auto).
  assert (Nt : ndim t = length lead + 3) by (rewrite (teq_ndim _ _ _ Tt), !ndim_shard; auto).
  assert (D0 : dimsz t (length lead) = nc).
  { rewrite (teq_dimsz _ _ _ _ Tt), !dimsz_shard_other by lia. unfold dimsz; rewrite HX.
    rewrite <- (Nat.add_0_r (length lead)). apply nth_app_r. }
  destruct (guard (3 <=? ndim t)); auto. cbn [bindo].
  repeat (match goal with |- bindo ?e _ = None => destruct e; [cbn [bindo]|reflexivity] end).
  rewrite Nt. replace (length lead + 3 - 3) with (length lead) by lia.
  set (x4 := po_transpose _ _ _ (length lead) _ _).
  assert (X4 : x4 p a = None).
  { unfold x4, po_transpose at 1. destruct (Nat.ltb_spec 1 P); [|lia]. unfold pmap at 1. unfold pmap at 1. rewrite Et. cbn [bindo].
    rewrite D0. rewrite (proj2 (css_none_iff nc P)) by auto. auto. }
  assert (AZ : forall B d0 d1 sz (y : pfam (tensor B)), y p a = None -> az_transpose debug A d0 d1 sz y p a = None).
  { intros B d0 d1 sz y E. unfold az_transpose. destruct (1 <? A); auto. destruct (sz p a); auto. cbn [bindo]. now apply transpose_None. }
  apply AZ. unfold pmap at 1. rewrite AZ; auto.
Qed.
Lemma C16_dist_spectral_conv_lemma : forall debug P A gl hi wi ho wo cin cout groups gi go weight bias s lm b X x wl bl,
  sconv_init gl hi wi ho wo cin cout groups gi go weight bias = Some s ->
  sconv_trunc hi wi ho wo gi go = Some lm ->
  1 <= P -> 1 <= A -> P <= hi -> A <= wi -> P <= ho -> A <= wo -> P <= lm -> A <= lm ->
  shp X = [b; cin; hi; wi] ->
  holds2 P A wl (fun p _ => shard 3 P p weight) ->
  match bias, bl with
  | None, None => True
  | Some bt, Some bl => holds2 P A bl (fun p a => shard 2 P p (shard 3 A a bt))
  | _, _ => False
  end ->
  holds2 P A x (fun p a => shard 2 P p (shard 3 A a X)) ->
  exists Y, spectral_conv s X = Some Y /\ shp Y = [b; cout; ho; wo] /\
    holds2 P A (dist_spectral_conv debug P A
        (dist_real_sht_init gl P A hi wi (Some lm) (Some lm) gi Ortho true)
        (dist_inverse_sht_init gl P A ho wo (Some lm) (Some lm) go Ortho true)
        groups cout wl bl (dist_quad_init gl P A hi wi gi false) x)
      (fun p a => shard 2 P p (shard 3 A a Y)).
Proof. intros. eapply dist_spectral_conv_ok; eauto. Qed.
