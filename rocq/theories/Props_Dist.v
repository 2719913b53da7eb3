(** Property theorems C11-C16: the distributed modules compute the shards of the serial ones. *)
From Coq Require Import List Arith Lia Bool Reals Lra ZArith.
From Coquelicot Require Import Coquelicot.
From Verif Require Import TensorModel TensorProofs BigSum FFTModel TruncModel LegendreModel QuadModel SHTModel PrimModel
  PrimSpec PrimProofs PrimProofs2 ResampleModel SpectralConvModel DistSHTModel DistSHTProofs DistSHTProofs3 DistSHTProofs4
  DistMiscModel DistMiscProofs DistResampleProofs DistSpectralProofs DistPropProofs.
Import ListNotations.
Local Open Scope nat_scope.

(** C11 *)
Theorem C11_dist_sht : forall gl P A nlat nlon lmax mmax g nm cs s debug lead X x,
  1 <= P -> 1 <= A -> real_sht_init gl nlat nlon lmax mmax g nm cs = Some s ->
  P <= nlat -> A <= nlon -> P <= s_lmax s -> A <= s_mmax s ->
  lead <> [] -> shp X = lead ++ [nlat; nlon] ->
  holds2 P A x (fun p a => shard (length lead) P p (shard (length lead + 1) A a X)) ->
  exists Y, real_sht s X = Some Y /\ shp Y = lead ++ [s_lmax s; s_mmax s] /\
    holds2 P A (dist_real_sht debug P A (dist_real_sht_init gl P A nlat nlon lmax mmax g nm cs) x)
      (fun p a => shard (length lead) P p (shard (length lead + 1) A a Y)).
Proof. exact C11_dist_sht_lemma. Qed.
Print Assumptions C11_dist_sht.
(** The constructor accepts a process grid exactly when no axis has more ranks than
    rows, columns, degrees or orders. *)
Theorem C11_constructor_iff : forall gl P A nlat nlon lmax mmax g nm cs s p a,
  real_sht_init gl nlat nlon lmax mmax g nm cs = Some s -> p < P -> a < A ->
  (exists o, dist_real_sht_init gl P A nlat nlon lmax mmax g nm cs p a = Some o) <->
  (P <= nlat /\ A <= nlon /\ P <= s_lmax s /\ A <= s_mmax s).
Proof. exact C11_constructor_lemma. Qed.
Print Assumptions C11_constructor_iff.

Definition exF : tensor R := mkT [3; 5; 8] (fun i => INR (ravel [3; 5; 8] i)).
Example C11_ex : forall gl, exists s Y, real_sht_init gl 5 8 None None GEquiangular Ortho true = Some s /\
  real_sht s exF = Some Y /\
  holds2 3 2 (dist_real_sht true 3 2 (dist_real_sht_init gl 3 2 5 8 None None GEquiangular Ortho true)
                (fun p a => Some (shard 1 3 p (shard 2 2 a exF))))
    (fun p a => shard 1 3 p (shard 2 2 a Y)).
Proof.
  intros gl. destruct (real_sht_init gl 5 8 None None GEquiangular Ortho true) as [s|] eqn:E; [|discriminate].
  assert (L : s_lmax s = 3 /\ s_mmax s = 3) by (inversion E; auto).
  destruct (C11_dist_sht gl 3 2 5 8 None None GEquiangular Ortho true s true [3] exF
     (fun p a => Some (shard 1 3 p (shard 2 2 a exF)))) as (Y & H1 & _ & H2); auto; try lia; try discriminate.
  { intros p a _ _. apply returns_Some, teq_refl. }
  exists s, Y. auto.
Qed.

(** C12 *)
Theorem C12_dist_inverse_sht : forall gl P A nlat nlon lmax mmax g nm cs s debug lead X x,
  1 <= P -> 1 <= A -> inverse_sht_init gl nlat nlon lmax mmax g nm cs = Some s ->
  P <= nlat -> A <= nlon -> P <= s_lmax s -> A <= s_mmax s ->
  lead <> [] -> shp X = lead ++ [s_lmax s; s_mmax s] ->
  holds2 P A x (fun p a => shard (length lead) P p (shard (length lead + 1) A a X)) ->
  exists Y, inverse_sht s X = Some Y /\ shp Y = lead ++ [nlat; nlon] /\
    holds2 P A (dist_inverse_sht debug P A (dist_inverse_sht_init gl P A nlat nlon lmax mmax g nm cs) x)
      (fun p a => shard (length lead) P p (shard (length lead + 1) A a Y)).
Proof. exact C12_dist_inverse_sht_lemma. Qed.
Print Assumptions C12_dist_inverse_sht.
Theorem C12_constructor_iff : forall gl P A nlat nlon lmax mmax g nm cs s p a,
  inverse_sht_init gl nlat nlon lmax mmax g nm cs = Some s -> p < P -> a < A ->
  (exists o, dist_inverse_sht_init gl P A nlat nlon lmax mmax g nm cs p a = Some o) <->
  (P <= nlat /\ A <= nlon /\ P <= s_lmax s /\ A <= s_mmax s).
Proof. exact C12_constructor_lemma. Qed.
Print Assumptions C12_constructor_iff.
Definition exC : tensor C := mkT [4; 3; 3] (fun i => (INR (ravel [4; 3; 3] i), 1%R)).
Example C12_ex : forall gl, exists s Y, inverse_sht_init gl 5 8 None None GEquiangular Ortho true = Some s /\
  inverse_sht s exC = Some Y /\
  holds2 2 3 (dist_inverse_sht false 2 3 (dist_inverse_sht_init gl 2 3 5 8 None None GEquiangular Ortho true)
                (fun p a => Some (shard 1 2 p (shard 2 3 a exC))))
    (fun p a => shard 1 2 p (shard 2 3 a Y)).
Proof.
  intros gl. destruct (inverse_sht_init gl 5 8 None None GEquiangular Ortho true) as [s|] eqn:E; [|discriminate].
  assert (L : s_lmax s = 3 /\ s_mmax s = 3) by (inversion E; auto). destruct L as [L M].
  destruct (C12_dist_inverse_sht gl 2 3 5 8 None None GEquiangular Ortho true s false [4] exC
     (fun p a => Some (shard 1 2 p (shard 2 3 a exC)))) as (Y & H1 & _ & H2); auto; try lia; try discriminate.
  { now rewrite L, M. }
  { intros p a _ _. apply returns_Some, teq_refl. }
  exists s, Y. auto.
Qed.

(** C13 *)
Theorem C13_dist_vector_sht : forall gl P A nlat nlon lmax mmax g nm cs s debug lead X x,
  1 <= P -> 1 <= A -> vector_sht_init gl nlat nlon lmax mmax g nm cs = Some s ->
  P <= nlat -> A <= nlon -> P <= s_lmax s -> A <= s_mmax s ->
  lead <> [] -> shp X = lead ++ [2; nlat; nlon] ->
  holds2 P A x (fun p a => shard (length lead + 1) P p (shard (length lead + 2) A a X)) ->
  exists Y, vector_sht s X = Some Y /\ shp Y = lead ++ [2; s_lmax s; s_mmax s] /\
    holds2 P A (dist_vector_sht debug P A (dist_vector_sht_init gl P A nlat nlon lmax mmax g nm cs) x)
      (fun p a => shard (length lead + 1) P p (shard (length lead + 2) A a Y)).
Proof. exact C13_dist_vector_sht_lemma. Qed.
Print Assumptions C13_dist_vector_sht.
Theorem C13_dist_inverse_vector_sht : forall gl P A nlat nlon lmax mmax g nm cs s debug lead X x,
  1 <= P -> 1 <= A -> inverse_vector_sht_init gl nlat nlon lmax mmax g nm cs = Some s ->
  P <= nlat -> A <= nlon -> P <= s_lmax s -> A <= s_mmax s ->
  lead <> [] -> shp X = lead ++ [2; s_lmax s; s_mmax s] ->
  holds2 P A x (fun p a => shard (length lead + 1) P p (shard (length lead + 2) A a X)) ->
  exists Y, inverse_vector_sht s X = Some Y /\ shp Y = lead ++ [2; nlat; nlon] /\
    holds2 P A (dist_inverse_vector_sht debug P A (dist_inverse_vector_sht_init gl P A nlat nlon lmax mmax g nm cs) x)
      (fun p a => shard (length lead + 1) P p (shard (length lead + 2) A a Y)).
Proof. exact C13_dist_inverse_vector_sht_lemma. Qed.
Print Assumptions C13_dist_inverse_vector_sht.
Definition exV : tensor R := mkT [1; 2; 5; 8] (fun i => INR (ravel [1; 2; 5; 8] i)).
Example C13_ex : forall gl, exists s Y, vector_sht_init gl 5 8 None None GEquiangular FourPi false = Some s /\
  vector_sht s exV = Some Y /\
  holds2 3 3 (dist_vector_sht true 3 3 (dist_vector_sht_init gl 3 3 5 8 None None GEquiangular FourPi false)
                (fun p a => Some (shard 2 3 p (shard 3 3 a exV))))
    (fun p a => shard 2 3 p (shard 3 3 a Y)).
Proof.
  intros gl. destruct (vector_sht_init gl 5 8 None None GEquiangular FourPi false) as [s|] eqn:E; [|discriminate].
  assert (L : s_lmax s = 3 /\ s_mmax s = 3) by (inversion E; auto). destruct L as [L M].
  destruct (C13_dist_vector_sht gl 3 3 5 8 None None GEquiangular FourPi false s true [1] exV
     (fun p a => Some (shard 2 3 p (shard 3 3 a exV)))) as (Y & H1 & _ & H2); auto; try lia; try discriminate.
  { intros p a _ _. apply returns_Some, teq_refl. }
  exists s, Y. auto.
Qed.

(** C14 *)
Theorem C14_dist_quadrature : forall gl P A nlat nlon g normalize lead X x,
  1 <= P -> 1 <= A -> P <= nlat -> A <= nlon -> g <> GTrapezoidal -> quadrature_s2_rule gl nlat g <> None ->
  shp X = lead ++ [nlat; nlon] ->
  holds2 P A x (fun p a => shard (length lead) P p (shard (length lead + 1) A a X)) ->
  exists Y, quadrature_s2 gl nlat nlon g normalize X = Some Y /\
    holds2 P A (dist_quadrature P A (dist_quad_init gl P A nlat nlon g normalize) x) (fun _ _ => Y).
Proof. exact C14_dist_quadrature_lemma. Qed.
Print Assumptions C14_dist_quadrature.
(** The distributed class documents the trapezoidal grid, the serial class
    implements it, the distributed constructor raises. *)
Theorem C14_trapezoidal_refuted : forall gl P A nlat nlon normalize p a, 2 <= nlat ->
  dist_quad_init gl P A nlat nlon GTrapezoidal normalize p a = None /\ quadrature_s2_rule gl nlat GTrapezoidal <> None.
Proof. exact C14_trapezoidal_lemma. Qed.
Print Assumptions C14_trapezoidal_refuted.
Example C14_ex : forall gl, exists Y, quadrature_s2 gl 5 8 GEquiangular true exF = Some Y /\
  holds2 4 3 (dist_quadrature 4 3 (dist_quad_init gl 4 3 5 8 GEquiangular true)
     (fun p a => Some (shard 1 4 p (shard 2 3 a exF)))) (fun _ _ => Y).
Proof.
  intros gl. apply (C14_dist_quadrature gl 4 3 5 8 GEquiangular true [3] exF); auto; try lia; try discriminate.
  intros p a _ _. apply returns_Some, teq_refl.
Qed.

(** C15 *)
Theorem C15_dist_resample : forall gl debug P A hi wi ho wo gi go mode r lead nc X x,
  resample_init gl hi wi ho wo gi go mode = Some r ->
  1 <= P -> 1 <= A -> P <= hi -> A <= wi -> P <= ho -> A <= wo -> P <= nc -> A <= nc ->
  shp X = lead ++ [nc; hi; wi] ->
  holds2 P A x (fun p a => shard (length lead + 1) P p (shard (length lead + 2) A a X)) ->
  exists Y, resample r X = Some Y /\ shp Y = lead ++ [nc; ho; wo] /\
    holds2 P A (dist_resample debug P A r x) (fun p a => shard (length lead + 1) P p (shard (length lead + 2) A a Y)).
Proof. exact C15_dist_resample_lemma. Qed.
Print Assumptions C15_dist_resample.
(** With fewer channels than polar ranks (and something to resample) every rank
    raises, although the serial module works: the class does not pad the channels. *)
Theorem C15_few_channels_refuted : forall debug P A r lead nc X x p a,
  rs_skip r = false -> 1 < P -> nc < P -> shp X = lead ++ [nc; rs_nlat_in r; rs_nlon_in r] ->
  holds2 P A x (fun p a => shard (length lead + 1) P p (shard (length lead + 2) A a X)) ->
  p < P -> a < A -> dist_resample debug P A r x p a = None.
Proof. exact C15_few_channels_lemma. Qed.
Print Assumptions C15_few_channels_refuted.

(** C16 *)
Theorem C16_dist_spectral_conv : forall debug P A gl hi wi ho wo cin cout groups gi go weight bias s lm b X x wl bl,
  sconv_init gl hi wi ho wo cin cout groups gi go weight bias = Some s ->
  sconv_trunc hi wi ho wo gi go = Some lm ->
  1 <= P -> 1 <= A -> P <= hi -> A <= wi -> P <= ho -> A <= wo -> P <= lm -> A <= lm ->
  shp X = [b; cin; hi; wi] ->
  holds2 P A wl (fun p _ => shard 3 P p weight) ->
  match bias, bl with
  | None, None => True
  | Some bt, Some bl => holds2 P A bl (fun p a => shard 2 P p (shard 3 A a bt))
  | _, _ => False
  end ->
  holds2 P A x (fun p a => shard 2 P p (shard 3 A a X)) ->
  exists Y, spectral_conv s X = Some Y /\ shp Y = [b; cout; ho; wo] /\
    holds2 P A (dist_spectral_conv debug P A
        (dist_real_sht_init gl P A hi wi (Some lm) (Some lm) gi Ortho true)
        (dist_inverse_sht_init gl P A ho wo (Some lm) (Some lm) go Ortho true)
        groups cout wl bl (dist_quad_init gl P A hi wi gi false) x)
      (fun p a => shard 2 P p (shard 3 A a Y)).
Proof. exact C16_dist_spectral_conv_lemma. Qed.
Print Assumptions C16_dist_spectral_conv.
Definition exW : tensor C := mkT [2; 1; 3; 3] (fun i => (INR (ravel [2; 1; 3; 3] i), 2%R)).
Definition exB : tensor C := mkT [1; 2; 3; 3] (fun i => (1%R, INR (ravel [1; 2; 3; 3] i))).
Definition exX4 : tensor R := mkT [1; 2; 5; 8] (fun i => INR (ravel [1; 2; 5; 8] i)).
Example C16_ex : forall gl, exists s Y, sconv_init gl 5 8 9 6 2 6 2 GEquiangular GEquiangular exW (Some exB) = Some s /\
  spectral_conv s exX4 = Some Y /\
  holds2 3 2 (dist_spectral_conv true 3 2
        (dist_real_sht_init gl 3 2 5 8 (Some 3) (Some 3) GEquiangular Ortho true)
        (dist_inverse_sht_init gl 3 2 9 6 (Some 3) (Some 3) GEquiangular Ortho true)
        2 6 (fun p _ => Some (shard 3 3 p exW)) (Some (fun p a => Some (shard 2 3 p (shard 3 2 a exB))))
        (dist_quad_init gl 3 2 5 8 GEquiangular false) (fun p a => Some (shard 2 3 p (shard 3 2 a exX4))))
    (fun p a => shard 2 3 p (shard 3 2 a Y)).
Proof.
  intros gl. destruct (sconv_init gl 5 8 9 6 2 6 2 GEquiangular GEquiangular exW (Some exB)) as [s|] eqn:E; [|discriminate].
  destruct (C16_dist_spectral_conv true 3 2 gl 5 8 9 6 2 6 2 GEquiangular GEquiangular exW (Some exB) s 3 1 exX4
     (fun p a => Some (shard 2 3 p (shard 3 2 a exX4))) (fun p _ => Some (shard 3 3 p exW))
     (Some (fun p a => Some (shard 2 3 p (shard 3 2 a exB))))) as (Y & H1 & _ & H2); auto; try lia;
    try (intros p a _ _; apply returns_Some, teq_refl).
  exists s, Y. auto.
Qed.
