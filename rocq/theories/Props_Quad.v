(** C21 (Clenshaw-Curtis exactness), C22 (totals, symmetry, positivity), C23 (Lobatto). *)
From Coq Require Import List Arith Lia Bool Reals Lra.
From Coquelicot Require Import Coquelicot.
From Verif Require Import TensorModel BigSum FFTModel TruncModel TruncSpec QuadModel QuadSpec PolyProofs CCProofs QuadProofs QuadPropProofs.
Import ListNotations.
Local Open Scope R_scope.

(** C21: every polynomial of degree <= n-1, every interval. *)
Theorem C21_exact : forall n a b, (2 <= n)%nat -> exists q, clenshaw_curtiss_weights n a b = Some q /\ exact_rule n q a b (n - 1).
Proof. exact cc_exact. Qed.
(** With an odd number of nodes one more degree is exact. *)
Theorem C21_exact_odd : forall n a b, (2 <= n)%nat -> Nat.odd n = true -> exists q, clenshaw_curtiss_weights n a b = Some q /\ exact_rule n q a b n.
Proof. exact cc_exact_odd. Qed.
(** The degree cannot be raised further. *)
Theorem C21_sharp : forall n a b, (2 <= n)%nat -> a < b ->
  exists q, clenshaw_curtiss_weights n a b = Some q /\ ~ exact_rule n q a b (if Nat.odd n then n + 1 else n).
Proof. exact cc_sharp. Qed.
(** The degree used by the truncation rules (C19) is achieved by the modelled weights. *)
Theorem C21_truncation_degree : forall gl nlat, (2 <= nlat)%nat ->
  exists q, quadrature_s2_rule gl nlat GEquiangular = Some q /\ exact_rule nlat q (-1) 1 (exact_degree GEquiangular nlat).
Proof. intros gl nlat H. exact (cc_exact nlat (-1) 1 H). Qed.
(** QuadratureS2 on the sphere: p(cos theta) * cos(m lambda + phi), sampled on the
    nodes of precompute_latitudes / precompute_longitudes, is integrated exactly
    for every polynomial p of degree < nlat and every order m < nlon. *)
Theorem C21_sphere : forall gl nlat nlon lat lead A p m phi normalize x,
  (2 <= nlat)%nat -> precompute_latitudes gl nlat GEquiangular = Some lat ->
  (1 <= nlon)%nat -> (m < nlon)%nat -> is_poly (nlat - 1) p -> (2 <= length lead)%nat ->
  shp x = lead ++ [nlat; nlon] ->
  (forall L i j, valid lead L -> (i < nlat)%nat -> (j < nlon)%nat ->
     val x (L ++ [i; j]) = A L * p (cos (rn lat i)) * cos (INR m * precompute_longitudes nlon j + phi)) ->
  exists y, quadrature_s2 gl nlat nlon GEquiangular normalize x = Some y /\
    teq y (mkT lead (fun L => A L * ((if (m =? 0)%nat then 2 * PI * cos phi else 0) * RInt p (-1) 1) / (if normalize then 4 * PI else 1))).
Proof.
  intros gl nlat nlon lat lead A p m phi normalize x Hn El Hl Hm Pp HL Sx Vx.
  destruct (cc_model nlat (-1) 1 Hn) as (q & E & H). refine (sphere_quad gl nlat nlon GEquiangular q lat (nlat - 1) lead A p m phi normalize x E El _ _ _ Hl Hm Pp HL Sx Vx).
  - eapply exact_of_eq; eauto. now apply rescale_exact, cc_rule_exact.
  - eapply symmetric_of_eq; eauto. now apply rescale_symmetric, cc_rule_symmetric.
  - intros; exact (cc_nodes_range nlat q Hn E i).
Qed.
(** The same on every grid whose latitude rule is symmetric and exact to degree d. *)
Theorem C21_sphere_any_grid : forall gl nlat nlon g q lat d lead A p m phi normalize x,
  quadrature_s2_rule gl nlat g = Some q -> precompute_latitudes gl nlat g = Some lat ->
  exact_rule nlat q (-1) 1 d -> symmetric_rule nlat q (-1) 1 -> (forall i, (i < nlat)%nat -> -1 <= rn q i <= 1) ->
  (1 <= nlon)%nat -> (m < nlon)%nat -> is_poly d p -> (2 <= length lead)%nat ->
  shp x = lead ++ [nlat; nlon] ->
  (forall L i j, valid lead L -> (i < nlat)%nat -> (j < nlon)%nat ->
     val x (L ++ [i; j]) = A L * p (cos (rn lat i)) * cos (INR m * precompute_longitudes nlon j + phi)) ->
  exists y, quadrature_s2 gl nlat nlon g normalize x = Some y /\
    teq y (mkT lead (fun L => A L * ((if (m =? 0)%nat then 2 * PI * cos phi else 0) * RInt p (-1) 1) / (if normalize then 4 * PI else 1))).
Proof. exact sphere_quad. Qed.
Print Assumptions C21_exact.
Print Assumptions C21_exact_odd.
Print Assumptions C21_sharp.
Print Assumptions C21_sphere.

Lemma is_poly_cube : is_poly 3 (fun x => x * x * x + 1).
Proof. exists (fun k => match k with O => 1 | S (S (S O)) => 1 | _ => 0 end). intros. cbn [bsum_ pow]. ring. Qed.
(** Example: 5 nodes on [0,2], x^3+1: integral 6. *)
Example C21_ex : exists q, clenshaw_curtiss_weights 5 0 2 = Some q /\ rsum 5 (fun i => rw q i * (rn q i * rn q i * rn q i + 1)) = 6.
Proof.
  destruct (C21_exact 5 0 2 ltac:(lia)) as (q & E & X). exists q; split; auto.
  rewrite (X (fun x => x * x * x + 1)) by (apply is_poly_mono with 3%nat; [lia|apply is_poly_cube]).
  rewrite (RInt_derive (fun x => x * x * x * x / 4 + x) (fun x => x * x * x + 1)). field.
  intros; auto_derive; auto; field. intros x. eapply is_poly_continuous, is_poly_cube.
Qed.
Example C21_sphere_ex : forall gl, exists lat y, precompute_latitudes gl 4 GEquiangular = Some lat /\
  quadrature_s2 gl 4 6 GEquiangular false
    (mkT [1; 2; 4; 6]%nat (fun i => (1 + INR (nth 1 i 0%nat)) * (cos (rn lat (nth 2 i 0%nat)) * cos (rn lat (nth 2 i 0%nat)) * cos (rn lat (nth 2 i 0%nat)) + 1) * cos (INR 0 * precompute_longitudes 6 (nth 3 i 0%nat) + 0))) = Some y /\
  val y [0; 1]%nat = 8 * PI.
Proof.
  intros gl. destruct (precompute_latitudes gl 4 GEquiangular) as [lat|] eqn:EL; [|discriminate]. exists lat.
  destruct (C21_sphere gl 4 6 lat [1; 2]%nat (fun L => 1 + INR (nth 1 L 0%nat)) (fun x => x * x * x + 1) 0 0 false
    (mkT [1; 2; 4; 6]%nat (fun i => (1 + INR (nth 1 i 0%nat)) * (cos (rn lat (nth 2 i 0%nat)) * cos (rn lat (nth 2 i 0%nat)) * cos (rn lat (nth 2 i 0%nat)) + 1) * cos (INR 0 * precompute_longitudes 6 (nth 3 i 0%nat) + 0))))
    as (y & E & T); try reflexivity; try lia; auto.
  - apply is_poly_cube.
  - intros L i j VL Hi Hj. destruct VL as [LL _]. destruct L as [|l0 [|l1 [|]]]; try discriminate LL. reflexivity.
  - exists y. split; [reflexivity|]. split; [exact E|]. destruct T as [TS TV].
    rewrite (TV [0; 1]%nat) by (rewrite TS; cbn [shp]; repeat split; cbn; auto; intros k Hk; destruct k as [|[|]]; cbn; lia).
    cbn [val Nat.eqb]. rewrite cos_0.
    rewrite (RInt_derive (fun x => x * x * x * x / 4 + x) (fun x => x * x * x + 1)). cbn [nth INR]. field.
    intros; auto_derive; auto; field. intros x. eapply is_poly_continuous, is_poly_cube.
Qed.

(** C22 *)
Theorem C22_equiangular : forall n a b, (2 <= n)%nat -> exists q, clenshaw_curtiss_weights n a b = Some q /\
  rsum n (rw q) = b - a /\ symmetric_rule n q a b /\ (a < b -> forall i, (i < n)%nat -> 0 < rw q i).
Proof.
  intros n a b Hn. destruct (cc_model n a b Hn) as (q & E & H). exists q. repeat split; auto.
  - eapply exact_total, exact_of_eq; eauto. now apply rescale_exact, cc_rule_exact.
  - eapply symmetric_of_eq; eauto. now apply rescale_symmetric, cc_rule_symmetric.
  - eapply symmetric_of_eq; eauto. now apply rescale_symmetric, cc_rule_symmetric.
  - intros Hab i Hi. destruct (H i) as [_ ->]. apply rescale_pos; auto. now apply cc_weight_pos.
Qed.
Theorem C22_trapezoidal : forall n a b, (2 <= n)%nat -> exists q, trapezoidal_weights n a b false = Some q /\
  rsum n (rw q) = b - a /\ symmetric_rule n q a b /\ (a < b -> forall i, (i < n)%nat -> 0 < rw q i).
Proof.
  intros n a b Hn. destruct (trapezoidal_weights n a b false) as [q|] eqn:E.
  2:{ exfalso. unfold trapezoidal_weights in E. rewrite Nat.add_0_r in E. rewrite (proj2 (Nat.eqb_neq n 0)), (proj2 (Nat.eqb_neq (n - 1) 0)) in E by lia. discriminate. }
  exists q. split; auto. split; [eapply exact_total, trap_exact; eauto|]. split; [eapply trap_symmetric; eauto|]. intros; eapply trap_pos; eauto.
Qed.
Theorem C22_periodic : forall n a b, (1 <= n)%nat -> exists q, trapezoidal_weights n a b true = Some q /\
  rsum n (rw q) = b - a /\ (a < b -> forall i, (i < n)%nat -> 0 < rw q i /\ a <= rn q i < b).
Proof.
  intros n a b Hn. destruct (trap_periodic n a b Hn) as (q & E & H). exists q. split; auto. assert (P := INR_pos n Hn). split.
  - rewrite (bsum_ext n _ (fun _ => (b - a) / INR n)) by (intros; apply H). rewrite rsum_const. field. lra.
  - intros Hab i Hi. destruct (H i) as [-> ->]. split. apply Rdiv_lt_0_compat; lra.
    assert (Q : 0 <= INR i / INR n < 1).
    { pose proof (pos_INR i). split. apply Rmult_le_pos; [auto|left; now apply Rinv_0_lt_compat]. apply (Rmult_lt_reg_r (INR n)); auto. unfold Rdiv. rewrite Rmult_assoc, Rinv_l by lra. rewrite Rmult_1_l, Rmult_1_r. now apply lt_INR. }
    unfold Rdiv in *. rewrite Rmult_assoc. nra.
Qed.
(** numpy's leggauss is external: what it guarantees carries over. *)
Theorem C22_legendre_gauss : forall gl n a b d, (1 <= n)%nat -> exact_rule n (gl n) (-1) 1 d -> symmetric_rule n (gl n) (-1) 1 ->
  (forall i, (i < n)%nat -> 0 < rw (gl n) i) ->
  exists q, legendre_gauss_weights gl n a b = Some q /\ exact_rule n q a b d /\
    rsum n (rw q) = b - a /\ symmetric_rule n q a b /\ (a < b -> forall i, (i < n)%nat -> 0 < rw q i).
Proof.
  intros gl n a b d Hn X S P. destruct (legendre_gauss_weights gl n a b) as [q|] eqn:E.
  2:{ exfalso. unfold legendre_gauss_weights in E. rewrite (proj2 (Nat.eqb_neq n 0)) in E by lia. discriminate. }
  assert (X' : exact_rule n q a b d) by (eapply gl_rule_exact; eauto).
  exists q. split; [auto|]. split; [auto|]. split; [eapply exact_total; eauto|]. split; [eapply gl_rule_symmetric; eauto|]. intros; eapply gl_rule_pos; eauto.
Qed.
(** Finding: the Lobatto weights come from finitely many Newton sweeps; with 4 nodes,
    whatever the tolerance and the iteration limit, their total is never the length
    of the interval, not even without rounding. *)
Theorem C22_lobatto_total_refuted : forall a b tol maxiter q, a < b -> lobatto_weights 4 a b tol maxiter = Some q -> rsum 4 (rw q) <> b - a.
Proof. exact lobatto4_total. Qed.
(** The rule is built exactly for the documented grids, periodically only on the trapezoidal
    one; one node is enough for Gauss and for the periodic rule. *)
Theorem C22_accepts_iff : forall gl n g a b periodic, (exists q, precompute_quadrature_weights gl n g a b periodic = Some q) <->
  (periodic = true -> g = GTrapezoidal) /\ g <> GOther /\ (1 <= n)%nat /\ (n = 1%nat -> g = GLegendreGauss \/ periodic = true).
Proof.
  intros gl n g a b periodic. unfold precompute_quadrature_weights, trapezoidal_weights, legendre_gauss_weights, lobatto_default, lobatto_weights, clenshaw_curtiss_weights.
  destruct n as [|[|n]].
  - split; [intros [q H]|intros (_ & _ & H & _); lia]. destruct periodic, g; discriminate H.
  - split.
    + intros [q H]. destruct periodic, g; try discriminate H; (split; [intros; congruence|split; [discriminate|split; [lia|auto]]]).
    + intros (H1 & H2 & _ & H3). specialize (H3 eq_refl). destruct periodic, g; try (specialize (H1 eq_refl); discriminate); try (destruct H3; discriminate); try congruence; cbn -[INR]; eauto.
  - split.
    + intros [q H]. destruct periodic, g; try discriminate H; (split; [intros; congruence|split; [discriminate|split; lia]]).
    + intros (H1 & H2 & _). destruct periodic, g; try (specialize (H1 eq_refl); discriminate); try congruence; cbn -[INR lobatto_iter]; try destruct (lobatto_iter _ _ _ _); eauto.
Qed.
(** On an equiangular grid the rule is that of C21, so integrals of low degree
    are exact. *)
Theorem C22_equiangular_used : forall gl n a b periodic q, precompute_quadrature_weights gl n GEquiangular a b periodic = Some q -> exact_rule n q a b (n - 1).
Proof.
  intros gl n a b periodic q H. destruct periodic; [discriminate H|]. cbn in H. destruct (le_lt_dec 2 n) as [Hn|Hn].
  - destruct (cc_exact n a b Hn) as (q' & E & X). rewrite E in H. now injection H as <-.
  - unfold clenshaw_curtiss_weights in H. destruct (Nat.leb_spec n 1); [discriminate H|lia].
Qed.
(** QuadratureS2 of a constant: 4 pi times the constant, or the constant itself. *)
Theorem C22_sphere_area : forall gl nlat nlon g q c lead normalize,
  quadrature_s2_rule gl nlat g = Some q -> rsum nlat (rw q) = 2 -> (1 <= nlon)%nat -> (2 <= length lead)%nat ->
  exists y, quadrature_s2 gl nlat nlon g normalize (mkT (lead ++ [nlat; nlon]) (fun _ => c)) = Some y /\
    teq y (mkT lead (fun _ => if normalize then c else 4 * PI * c)).
Proof. exact QuadPropProofs.sphere_area. Qed.
Print Assumptions C22_equiangular.
Print Assumptions C22_trapezoidal.
Print Assumptions C22_periodic.
Print Assumptions C22_accepts_iff.
Print Assumptions C22_equiangular_used.
Print Assumptions C22_legendre_gauss.
Print Assumptions C22_lobatto_total_refuted.
Print Assumptions C22_sphere_area.
Example C22_ex : exists q, clenshaw_curtiss_weights 7 (-1) 1 = Some q /\ rsum 7 (rw q) = 2 /\ 0 < rw q 3 /\ rw q 0%nat = rw q 6%nat.
Proof.
  destruct (C22_equiangular 7 (-1) 1 ltac:(lia)) as (q & E & T & S & P). exists q. repeat split; auto. lra. apply P; [lra|lia]. symmetry. apply (S 0%nat). lia.
Qed.
(** The one-point Gauss rule satisfies the hypotheses of C22_legendre_gauss with d = 1. *)
Example C22_gauss_ex : exists gl, exact_rule 1 (gl 1%nat) (-1) 1 1 /\ symmetric_rule 1 (gl 1%nat) (-1) 1 /\ (forall i, (i < 1)%nat -> 0 < rw (gl 1%nat) i).
Proof.
  exists (fun _ => mkRule (fun _ => 0) (fun _ => 2)). split; [|split].
  - intros f (c & F). cbn [bsum_ rn rw]. assert (FG : forall x, f x = c 0%nat * 1 + c 1%nat * x) by (intros; rewrite F; cbn [bsum_ pow]; ring).
    rewrite (RInt_derive (fun x => c 0%nat * x + c 1%nat * x * x / 2) f). rewrite F. cbn [bsum_ pow]. field.
    intros. auto_derive; auto. rewrite FG. field. intros x. eapply is_poly_continuous. exists c. exact F.
  - intros i Hi. cbn [rn rw]. split; auto. ring.
  - intros; cbn [rw]; lra.
Qed.
Example C22_lobatto_ex : exists q, lobatto_weights 4 (-1) 1 lobatto_tol 100 = Some q.
Proof. unfold lobatto_weights. cbn [Nat.leb Nat.eqb orb]. destruct (lobatto_iter 4 lobatto_tol 100 (lobatto_guess 4)). eexists; reflexivity. Qed.

(** C23 *)
(** Whatever the tolerance and the number of iterations: end points exact, nodes
    antisymmetric, weights symmetric, end weights (b-a)/(n(n-1)). *)
Theorem C23_structure : forall n a b tol maxiter q, lobatto_weights n a b tol maxiter = Some q ->
  rn q 0%nat = a /\ rn q (n - 1)%nat = b /\ symmetric_rule n q a b /\
  rw q 0%nat = (b - a) / (INR n * (INR n - 1)) /\ rw q (n - 1)%nat = (b - a) / (INR n * (INR n - 1)).
Proof. exact lobatto_structure. Qed.
(** Weights are positive wherever the Legendre polynomial used as divisor does not vanish. *)
Theorem C23_positive : forall n a b tol maxiter q, lobatto_weights n a b tol maxiter = Some q -> a < b ->
  exists s, (forall i, rn q i = a + (b - a) / 2 * (1 + lobatto_sweep n (s i))) /\
    forall i, legendre (n - 1) (s i) <> 0 -> 0 < rw q i.
Proof. exact QuadPropProofs.lobatto_positive. Qed.
(** A point is left unchanged by the Newton sweep iff it is -1, 1 or a zero of P'_{n-1}. *)
Theorem C23_fixed_points : forall n t, (2 <= n)%nat -> legendre (n - 1) t <> 0 ->
  (lobatto_sweep n t = t <-> t = -1 \/ t = 1 \/ Derive (legendre (n - 1)) t = 0).
Proof. exact QuadPropProofs.lobatto_fixed_points. Qed.
Print Assumptions C23_structure.
Print Assumptions C23_positive.
Print Assumptions C23_fixed_points.
(** 0 is a fixed point for n = 3: P_2'(0) = 0, P_2(0) = -1/2. *)
Example C23_ex : legendre (3 - 1) 0 <> 0 /\ lobatto_sweep 3 0 = 0.
Proof. unfold legendre, lobatto_sweep, legP; simpl. split; [lra|]. unfold Rdiv. ring. Qed.

Print Assumptions C21_truncation_degree.
Print Assumptions C21_sphere_any_grid.
