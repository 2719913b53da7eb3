(** Property theorems C65: the gradients of the spherical harmonic transforms, serial and
    distributed. *)
From Coq Require Import List Arith Lia Bool Reals Lra.
From Coquelicot Require Import Coquelicot.
From Verif Require Import TensorModel TensorProofs BigSum FFTModel TruncModel LegendreModel QuadModel SHTModel PrimModel
  PrimSpec PrimProofs PrimProofs2 DistSHTModel DistSHTProofs DistSHTProofs3 DistSHTProofs4
  PrimPropProofs DistSpectralProofs DistPropProofs AdjointProofs SHTGradModel SHTGradSpec DistSHTBwdModel DistSHTBwdProofs2.
Import ListNotations.
Local Open Scope nat_scope.

(** [dot] and [cdot] are the real inner products of the loss: the derivative of the loss
    along dy is dot dy g.  A linear map and a gradient D with dot (f x) g = dot x D for
    every x: D is the gradient of the loss with respect to x. *)

Theorem C65_sht_gradient : forall gl nlat nlon lmax mmax g nm cs s lead G,
  real_sht_init gl nlat nlon lmax mmax g nm cs = Some s -> 1 <= nlon -> shp G = lead ++ [s_lmax s; s_mmax s] ->
  exists D, real_sht_bwd s G = Some D /\ shp D = lead ++ [nlat; nlon] /\
    forall X, shp X = lead ++ [nlat; nlon] -> exists Y, real_sht s X = Some Y /\ shp Y = shp G /\ cdot Y G = dot X D.
Proof.
  intros gl nlat nlon lmax mmax g nm cs s lead G E Hn HG. destruct (real_sht_init_inv _ _ _ _ _ _ _ _ _ E) as (N & W & T & _).
  subst nlat nlon. apply real_sht_adjoint; auto.
Qed.
Print Assumptions C65_sht_gradient.
Theorem C65_dist_sht_gradient : forall gl P A nlat nlon lmax mmax g nm cs s debug lead X G x gy,
  1 <= P -> 1 <= A -> real_sht_init gl nlat nlon lmax mmax g nm cs = Some s ->
  P <= nlat -> A <= nlon -> P <= s_lmax s -> A <= s_mmax s ->
  lead <> [] -> shp X = lead ++ [nlat; nlon] -> shp G = lead ++ [s_lmax s; s_mmax s] ->
  holds2 P A x (fun p a => shard (length lead) P p (shard (length lead + 1) A a X)) ->
  holds2 P A gy (fun p a => shard (length lead) P p (shard (length lead + 1) A a G)) ->
  exists D, real_sht_bwd s G = Some D /\ shp D = shp X /\
    holds2 P A (dist_real_sht_bwd debug P A (dist_real_sht_init gl P A nlat nlon lmax mmax g nm cs) x gy)
      (fun p a => shard (length lead) P p (shard (length lead + 1) A a D)).
Proof.
  intros gl P A nlat nlon lmax mmax g nm cs s debug lead X G x gy HP HA E H1 H2 H3 H4 Hl HX HG Hx Hg.
  destruct (real_sht_init_inv _ _ _ _ _ _ _ _ _ E) as (N & W & T & _). subst nlat nlon.
  destruct (real_sht_bwd_eq s lead G) as (E1 & E2); auto. 
  exists (gD_real s (length lead) G). split; auto. split; [congruence|].
  apply dist_real_sht_bwd_ok with (X := X); auto. 
  intros p a Hp Ha. unfold dist_real_sht_init. now rewrite E.
Qed.
Print Assumptions C65_dist_sht_gradient.

Theorem C65_inverse_gradient : forall gl nlat nlon lmax mmax g nm cs s lead G,
  inverse_sht_init gl nlat nlon lmax mmax g nm cs = Some s -> 1 <= nlon -> shp G = lead ++ [nlat; nlon] ->
  exists D, inverse_sht_bwd s G = Some D /\ shp D = lead ++ [s_lmax s; s_mmax s] /\
    forall X, shp X = lead ++ [s_lmax s; s_mmax s] -> exists Y, inverse_sht s X = Some Y /\ shp Y = shp G /\ dot Y G = cdot X D.
Proof.
  intros gl nlat nlon lmax mmax g nm cs s lead G E Hn HG. destruct (inverse_sht_init_inv _ _ _ _ _ _ _ _ _ E) as (N & W & T & _).
  subst nlat nlon. apply inverse_sht_adjoint; auto.
Qed.
Print Assumptions C65_inverse_gradient.
Theorem C65_dist_inverse_gradient : forall gl P A nlat nlon lmax mmax g nm cs s debug lead X G x gy,
  1 <= P -> 1 <= A -> inverse_sht_init gl nlat nlon lmax mmax g nm cs = Some s ->
  P <= nlat -> A <= nlon -> P <= s_lmax s -> A <= s_mmax s ->
  lead <> [] -> shp X = lead ++ [s_lmax s; s_mmax s] -> shp G = lead ++ [nlat; nlon] ->
  holds2 P A x (fun p a => shard (length lead) P p (shard (length lead + 1) A a X)) ->
  holds2 P A gy (fun p a => shard (length lead) P p (shard (length lead + 1) A a G)) ->
  exists D, inverse_sht_bwd s G = Some D /\ shp D = shp X /\
    holds2 P A (dist_inverse_sht_bwd debug P A (dist_inverse_sht_init gl P A nlat nlon lmax mmax g nm cs) x gy)
      (fun p a => shard (length lead) P p (shard (length lead + 1) A a D)).
Proof.
  intros gl P A nlat nlon lmax mmax g nm cs s debug lead X G x gy HP HA E H1 H2 H3 H4 Hl HX HG Hx Hg.
  destruct (inverse_sht_init_inv _ _ _ _ _ _ _ _ _ E) as (N & W & T & _). subst nlat nlon.
  destruct (inverse_sht_bwd_eq s lead G) as (E1 & E2); auto. 
  exists (gD_inv s (length lead) G). split; auto. split; [congruence|].
  apply dist_inverse_sht_bwd_ok with (X := X); auto. 
  intros p a Hp Ha. unfold dist_inverse_sht_init. now rewrite E.
Qed.
Print Assumptions C65_dist_inverse_gradient.

Theorem C65_vector_gradient : forall gl nlat nlon lmax mmax g nm cs s lead G,
  vector_sht_init gl nlat nlon lmax mmax g nm cs = Some s -> 1 <= nlon -> shp G = lead ++ [2; s_lmax s; s_mmax s] ->
  exists D, vector_sht_bwd s G = Some D /\ shp D = lead ++ [2; nlat; nlon] /\
    forall X, shp X = lead ++ [2; nlat; nlon] -> exists Y, vector_sht s X = Some Y /\ shp Y = shp G /\ cdot Y G = dot X D.
Proof.
  intros gl nlat nlon lmax mmax g nm cs s lead G E Hn HG. destruct (vector_sht_init_inv _ _ _ _ _ _ _ _ _ E) as (N & W & T).
  subst nlat nlon. apply vector_sht_adjoint; auto.
Qed.
Print Assumptions C65_vector_gradient.
Theorem C65_dist_vector_gradient : forall gl P A nlat nlon lmax mmax g nm cs s debug lead X G x gy,
  1 <= P -> 1 <= A -> vector_sht_init gl nlat nlon lmax mmax g nm cs = Some s ->
  P <= nlat -> A <= nlon -> P <= s_lmax s -> A <= s_mmax s ->
  lead <> [] -> shp X = lead ++ [2; nlat; nlon] -> shp G = lead ++ [2; s_lmax s; s_mmax s] ->
  holds2 P A x (fun p a => shard (length lead + 1) P p (shard (length lead + 2) A a X)) ->
  holds2 P A gy (fun p a => shard (length lead + 1) P p (shard (length lead + 2) A a G)) ->
  exists D, vector_sht_bwd s G = Some D /\ shp D = shp X /\
    holds2 P A (dist_vector_sht_bwd debug P A (dist_vector_sht_init gl P A nlat nlon lmax mmax g nm cs) x gy)
      (fun p a => shard (length lead + 1) P p (shard (length lead + 2) A a D)).
Proof.
  intros gl P A nlat nlon lmax mmax g nm cs s debug lead X G x gy HP HA E H1 H2 H3 H4 Hl HX HG Hx Hg.
  destruct (vector_sht_init_inv _ _ _ _ _ _ _ _ _ E) as (N & W & T). subst nlat nlon.
  destruct (vector_sht_bwd_eq s lead G) as (E1 & E2); auto. 
  exists (gD_vec s (length lead) G). split; auto. split; [congruence|].
  apply dist_vector_sht_bwd_ok with (X := X); auto. 
  intros p a Hp Ha. unfold dist_vector_sht_init. now rewrite E.
Qed.
Print Assumptions C65_dist_vector_gradient.

Theorem C65_inverse_vector_gradient : forall gl nlat nlon lmax mmax g nm cs s lead G,
  inverse_vector_sht_init gl nlat nlon lmax mmax g nm cs = Some s -> 1 <= nlon -> shp G = lead ++ [2; nlat; nlon] ->
  exists D, inverse_vector_sht_bwd s G = Some D /\ shp D = lead ++ [2; s_lmax s; s_mmax s] /\
    forall X, shp X = lead ++ [2; s_lmax s; s_mmax s] -> exists Y, inverse_vector_sht s X = Some Y /\ shp Y = shp G /\ dot Y G = cdot X D.
Proof.
  intros gl nlat nlon lmax mmax g nm cs s lead G E Hn HG. destruct (inverse_vector_sht_init_inv _ _ _ _ _ _ _ _ _ E) as (N & W & T).
  subst nlat nlon. apply inverse_vector_sht_adjoint; auto.
Qed.
Print Assumptions C65_inverse_vector_gradient.
Theorem C65_dist_inverse_vector_gradient : forall gl P A nlat nlon lmax mmax g nm cs s debug lead X G x gy,
  1 <= P -> 1 <= A -> inverse_vector_sht_init gl nlat nlon lmax mmax g nm cs = Some s ->
  P <= nlat -> A <= nlon -> P <= s_lmax s -> A <= s_mmax s ->
  lead <> [] -> shp X = lead ++ [2; s_lmax s; s_mmax s] -> shp G = lead ++ [2; nlat; nlon] ->
  holds2 P A x (fun p a => shard (length lead + 1) P p (shard (length lead + 2) A a X)) ->
  holds2 P A gy (fun p a => shard (length lead + 1) P p (shard (length lead + 2) A a G)) ->
  exists D, inverse_vector_sht_bwd s G = Some D /\ shp D = shp X /\
    holds2 P A (dist_inverse_vector_sht_bwd debug P A (dist_inverse_vector_sht_init gl P A nlat nlon lmax mmax g nm cs) x gy)
      (fun p a => shard (length lead + 1) P p (shard (length lead + 2) A a D)).
Proof.
  intros gl P A nlat nlon lmax mmax g nm cs s debug lead X G x gy HP HA E H1 H2 H3 H4 Hl HX HG Hx Hg.
  destruct (inverse_vector_sht_init_inv _ _ _ _ _ _ _ _ _ E) as (N & W & T). subst nlat nlon.
  destruct (inverse_vector_sht_bwd_eq s lead G) as (E1 & E2); auto. 
  exists (gD_ivec s (length lead) G). split; auto. split; [congruence|].
  apply dist_inverse_vector_sht_bwd_ok with (X := X); auto. 
  intros p a Hp Ha. unfold dist_inverse_vector_sht_init. now rewrite E.
Qed.
Print Assumptions C65_dist_inverse_vector_gradient.

(** 5 x 8 equiangular grid, three channels, 3 x 2 process grid: all hypotheses hold; the
    longitude count is not a multiple of anything the split needs. *)
Definition exGX : tensor R := mkT [3; 5; 8] (fun i => INR (ravel [3; 5; 8] i)).
Definition exGG : tensor C := mkT [3; 3; 3] (fun i => (INR (ravel [3; 3; 3] i), 1%R)).
Example C65_ex : forall gl, exists s D, real_sht_init gl 5 8 None None GEquiangular Ortho true = Some s /\
  real_sht_bwd s exGG = Some D /\
  holds2 3 2 (dist_real_sht_bwd true 3 2 (dist_real_sht_init gl 3 2 5 8 None None GEquiangular Ortho true)
                (fun p a => Some (shard 1 3 p (shard 2 2 a exGX))) (fun p a => Some (shard 1 3 p (shard 2 2 a exGG))))
    (fun p a => shard 1 3 p (shard 2 2 a D)).
Proof.
  intros gl. destruct (real_sht_init gl 5 8 None None GEquiangular Ortho true) as [s|] eqn:E; [|discriminate].
  assert (L : s_lmax s = 3 /\ s_mmax s = 3) by (inversion E; auto).
  destruct (C65_dist_sht_gradient gl 3 2 5 8 None None GEquiangular Ortho true s true [3] exGX exGG
     (fun p a => Some (shard 1 3 p (shard 2 2 a exGX))) (fun p a => Some (shard 1 3 p (shard 2 2 a exGG)))) as (D & H1 & _ & H2);
     auto; try lia; try discriminate.
  { destruct L as [-> ->]. reflexivity. }
  { intros p a _ _. apply returns_Some, teq_refl. }
  { intros p a _ _. apply returns_Some, teq_refl. }
  exists s, D. auto.
Qed.
(** The gradient is not trivial: for one mode, the DC bin of four longitudes, the gradient
    of the longitude transform is 2 pi / 4 at every longitude. *)
Example C65_rfft_ex : forall j, (j < 4)%nat -> val (rfft_dim_bwd 1 4 0 (mkT [1] (fun _ => RtoC 1))) [j] = (2 * PI / 4)%R.
Proof.
  intros j Hj. unfold rfft_dim_bwd, along. cbn [val upd nth].
  unfold rfft_bwd, torch_rfft_size. cbn [Nat.div Nat.divmod fst Nat.add Nat.ltb Nat.leb].
  unfold torch_rfft_bwd, torch_rfft_size, fwd_scale. cbn [Nat.div Nat.divmod fst Nat.add Nat.ltb Nat.leb].
  cbn [bsum_ lsum_ seq fold_right map]. unfold cis, Cmult, Cplus, RtoC. cbn.
  replace (2 * PI * INR j * 0 / (1 + 1 + 1 + 1))%R with 0%R by field. rewrite cos_0, sin_0. field.
Qed.
