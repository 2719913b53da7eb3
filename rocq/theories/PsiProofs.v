(** Normalisation of the filter. *)
From Coq Require Import List Arith ZArith Lia Bool Reals Lra.
From Verif Require Import TensorModel TensorProofs BigSum ResampleModel ResampleProofs TruncModel QuadModel DiscoModel DiscoSpec FilterModel FilterSpec PsiModel PsiSpec FilterPLProofs FilterBases2Proofs AttnOpValProofs.
Import ListNotations.
Local Open Scope R_scope.

Lemma bindo_some : forall A B (o : option A) (f : A -> option B) y, bindo o f = Some y -> exists x, o = Some x /\ f x = Some y.
Proof. intros A B [x|] f y H; [eauto|discriminate]. Qed.
Lemma guard_some : forall b u, guard b = Some u -> b = true.
Proof. intros [] u H; [auto|discriminate]. Qed.
Lemma gsum_cons : forall lat e es f k t, gsum lat (e :: es) f k t = (if ((ker e =? k) && (lat e =? t))%nat%bool then f e else 0) + gsum lat es f k t.
Proof. reflexivity. Qed.
Lemma gsum_ext : forall lat es f g k t, (forall e, In e es -> ker e = k -> lat e = t -> f e = g e) -> gsum lat es f k t = gsum lat es g k t.
Proof.
  intros. unfold gsum. apply rlsum_ext'. intros e I. destruct (Nat.eqb_spec (ker e) k), (Nat.eqb_spec (lat e) t); cbn; auto.
Qed.
Lemma gsum_scal : forall lat es f c k t, gsum lat es (fun e => f e * c) k t = gsum lat es f k t * c.
Proof.
  intros. induction es as [|e es IH]; [unfold gsum; cbn; ring|]. rewrite !gsum_cons, IH. destruct (_ && _); ring.
Qed.
Lemma gsum_nonneg : forall lat es f k t, (forall e, In e es -> 0 <= f e) -> 0 <= gsum lat es f k t.
Proof.
  intros lat es f k t. induction es as [|e es IH]; intros H; [unfold gsum; cbn; lra|]. rewrite gsum_cons. assert (0 <= f e) by (apply H; left; auto). specialize (IH (fun e' I => H e' (or_intror I))). destruct (_ && _); lra.
Qed.
Lemma gsum_sub : forall lat es f g k t, gsum lat es (fun e => f e - g e) k t = gsum lat es f k t - gsum lat es g k t.
Proof.
  intros lat es f g k t. induction es as [|e es IH]; [unfold gsum; cbn; ring|]. rewrite !gsum_cons, IH. destruct (_ && _); ring.
Qed.
Lemma gsum_map : forall lat es f h k t, (forall e, ker (h e) = ker e) -> (forall e, lat (h e) = lat e) -> gsum lat (map h es) f k t = gsum lat es (fun e => f (h e)) k t.
Proof. intros lat es f h k t Hk Hl. induction es as [|e es IH]; cbn [map]; auto. rewrite !gsum_cons, IH, Hk, Hl. reflexivity. Qed.

Section N.
Variables (nlat_in nlon_in nlat_out nlon_out K nq : nat) (quad : nat -> R) (cutoff : R) (tr merge : bool) (mask : option (list bool)) (eps : R).
Let NL := n_nlat nlat_in nlat_out tr.
Let OL := lat_of nlon_in tr.
Let Q := qw nlon_in quad tr.
Let corr := INR nlon_out / INR nlon_in.
Let LW := left_weight nlon_in quad tr merge corr.
Let wf es := forall e, In e es -> (ker e < K)%nat /\ (OL e < NL)%nat /\ (lat_from nlon_in tr e < nq)%nat.

Lemma gid_inj : forall k t k' t', (t < NL)%nat -> (t' < NL)%nat -> (k * NL + t = k' * NL + t')%nat -> k = k' /\ t = t'.
Proof.
  intros k t k' t' A B E. assert (k = k').
  { rewrite (Nat.div_unique (k * NL + t) NL k t) by lia. rewrite E. symmetry. apply Nat.div_unique with t'; lia. } subst. split; [auto|lia].
Qed.
Lemma scatter_acc : forall es f a k t, wf es -> (t < NL)%nat ->
  fold_left (fun a e => aset (n_gid nlat_in nlon_in nlat_out tr e) (a (n_gid nlat_in nlon_in nlat_out tr e) + f e) a) es a (k * NL + t)%nat = a (k * NL + t)%nat + gsum OL es f k t.
Proof.
  induction es as [|e es IH]; intros f a k t W T; cbn [fold_left].
  - unfold gsum. cbn. ring.
  - rewrite IH; auto. 2:{ intros e' I. apply W. right; auto. } destruct (W e (or_introl eq_refl)) as (_ & Ho & _).
    rewrite gsum_cons.
    unfold aset, n_gid. fold NL. change (n_olat nlon_in tr e) with (OL e).
    destruct (Nat.eqb_spec (ker e) k) as [Ek|Nk]; [destruct (Nat.eqb_spec (OL e) t) as [Et|Nt]|]; cbn [andb].
    + subst. rewrite Nat.eqb_refl. ring.
    + destruct (Nat.eqb_spec (k * NL + t) (ker e * NL + OL e)) as [E|_]; [destruct (gid_inj _ _ _ _ T Ho E); congruence|ring].
    + destruct (Nat.eqb_spec (k * NL + t) (ker e * NL + OL e)) as [E|_]; [destruct (gid_inj _ _ _ _ T Ho E); congruence|ring].
Qed.
Lemma scatter_gsum : forall es f k t, wf es -> (t < NL)%nat -> scatter_add nlat_in nlon_in nlat_out tr f es (k * NL + t)%nat = gsum OL es f k t.
Proof. intros es f k t W T. unfold scatter_add. rewrite scatter_acc; auto. ring. Qed.
Lemma scatter_at : forall es f e k t, wf es -> In e es -> ker e = k -> OL e = t -> scatter_add nlat_in nlon_in nlat_out tr f es (n_gid nlat_in nlon_in nlat_out tr e) = gsum OL es f k t.
Proof. intros es f e k t W I <- <-. apply scatter_gsum; auto. apply W; auto. Qed.

Hypothesis quad_nonneg : forall i, (i < nq)%nat -> 0 <= quad i.
Hypothesis eps_pos : 0 < eps.
Hypothesis nlon_pos : (1 <= nlon_in)%nat /\ (1 <= nlon_out)%nat.

Definition value mode es e := match n_value nlat_in nlon_in nlat_out quad cutoff tr mask eps mode es e with Some v => v | None => 0 end.
Definition newval mode es e := n_merge nlon_in nlon_out quad tr merge e (value mode es e).
Definition runs mode es vs := normalize_psi nlat_in nlon_in nlat_out nlon_out K nq quad cutoff tr merge mask eps mode es = Some vs.
Lemma runs_map : forall mode es vs, runs mode es vs -> vs = map (newval (nresolve mode) es) es /\ with_values es vs = map (fun e => mkE (ker e) (row e) (col e) (newval (nresolve mode) es e)) es.
Proof.
  intros mode es vs H. unfold runs, normalize_psi in H. apply bindo_some in H. destruct H as (? & _ & H). apply bindo_some in H. destruct H as (? & _ & H).
  assert (E : vs = map (newval (nresolve mode) es) es).
  { unfold newval, value. revert H. generalize (n_value nlat_in nlon_in nlat_out quad cutoff tr mask eps (nresolve mode) es). intros f. revert vs. induction es as [|e es' IH]; intros vs H; cbn [mapM] in H; [injection H as <-; reflexivity|].
    unfold bindo in H. destruct (f e) eqn:Fe; [|discriminate]. destruct (mapM _ es') eqn:M; [|discriminate]. injection H as <-. cbn [map]. rewrite Fe. f_equal. apply IH. auto. }
  split; auto. rewrite E. unfold with_values. clear. generalize (newval (nresolve mode) es). intros f. induction es as [|e es IH]; cbn; auto. f_equal. auto.
Qed.
(** the positions are untouched *)
Theorem normalize_index : forall mode es vs, runs mode es vs -> length vs = length es /\ map index (with_values es vs) = map index es.
Proof. intros mode es vs H. destruct (runs_map _ _ _ H) as (E & E'). rewrite E' , E, map_length. split; auto. rewrite map_map. apply map_ext. reflexivity. Qed.
Lemma corr_pos : 0 < corr.
Proof. unfold corr. apply Rdiv_lt_0_compat; apply lt_0_INR; lia. Qed.
(** what the left-over weight makes of a merged value *)
Lemma merge_weight : forall e v, n_merge nlon_in nlon_out quad tr merge e v * LW e = v * Q e.
Proof.
  intros e v. pose proof corr_pos. unfold n_merge, LW, left_weight. change (n_q nlon_in quad tr e) with (Q e). fold corr. destruct tr, merge; cbn [andb]; try (field; lra); reflexivity.
Qed.
Lemma merge_abs : forall es e v, wf es -> In e es -> Rabs (n_merge nlon_in nlon_out quad tr merge e v) * LW e = Rabs v * Q e.
Proof.
  intros es e v W I. pose proof corr_pos. destruct (W e I) as (_ & _ & W3). assert (QP : 0 <= Q e) by (apply quad_nonneg; auto).
  unfold n_merge, LW, left_weight. change (n_q nlon_in quad tr e) with (Q e). fold corr. fold Q. destruct tr, merge; cbn [andb]; auto; unfold Rdiv; rewrite !Rabs_mult, ?(Rabs_right (Q e)) by lra; auto; rewrite ?Rmult_1_r; auto.
  rewrite (Rabs_right (/ corr)) by (left; apply Rinv_0_lt_compat; auto). field. lra.
Qed.
Lemma new_gsum : forall mode es vs k t (g : R -> R), runs mode es vs ->
  gsum OL (with_values es vs) (fun e => g (pv e) * LW e) k t = gsum OL es (fun e => g (newval (nresolve mode) es e) * LW e) k t.
Proof. intros mode es vs k t g H. destruct (runs_map _ _ _ H) as (_ & ->). rewrite gsum_map by reflexivity. apply gsum_ext. intros. reflexivity. Qed.

Lemma bias_other : forall mode es g, mode <> NModal -> n_bias nlat_in nlon_in nlat_out quad tr mask eps mode es g = 0.
Proof. intros mode es g H. destruct mode; try reflexivity. congruence. Qed.
Lemma scale_other : forall mode es k t, wf es -> (t < NL)%nat -> mode <> NModal ->
  n_scale nlat_in nlon_in nlat_out quad tr mask eps mode es (k * NL + t)%nat = gsum OL es (fun e => Rabs (pv e) * Q e) k t.
Proof.
  intros mode es k t W T M. unfold n_scale. rewrite scatter_gsum by auto. apply gsum_ext. intros e I _ _. rewrite bias_other by auto. rewrite Rminus_0_r. reflexivity.
Qed.
Lemma max_eps : forall x, 0 < Rmax x eps.
Proof. intros. pose proof (Rmax_r x eps). lra. Qed.
Lemma abs_div : forall x y, Rabs (x / Rmax y eps) = Rabs x / Rmax y eps.
Proof. intros. unfold Rdiv. rewrite Rabs_mult. f_equal. apply Rabs_right. left. apply Rinv_0_lt_compat, max_eps. Qed.
Lemma gid_eq : forall e, n_gid nlat_in nlon_in nlat_out tr e = (ker e * NL + OL e)%nat.
Proof. reflexivity. Qed.

(** nodal *)
Theorem nodal_norm : forall mode es vs k t, mode = NNodal \/ mode = NIndividual -> wf es -> runs mode es vs -> (t < NL)%nat -> let S := gsum OL es (fun e => Rabs (pv e) * Q e) k t in
  gsum OL (with_values es vs) (fun e => Rabs (pv e) * LW e) k t = S / Rmax S eps /\
  gsum OL (with_values es vs) (fun e => pv e * LW e) k t = gsum OL es (fun e => pv e * Q e) k t / Rmax S eps.
Proof.
  intros mode es vs k t M W H T S. rewrite (new_gsum mode es vs k t Rabs H), (new_gsum mode es vs k t (fun x => x) H).
  assert (E : nresolve mode = NNodal) by (destruct M; subst; reflexivity). rewrite E.
  assert (V : forall e, In e es -> ker e = k -> OL e = t -> value NNodal es e = pv e / Rmax S eps).
  { intros e I Ek Et. unfold value, n_value. rewrite bias_other by discriminate. rewrite gid_eq, Ek, Et, scale_other by (auto; discriminate). rewrite Rminus_0_r. reflexivity. }
  split.
  - transitivity (gsum OL es (fun e => Rabs (pv e) * Q e * / Rmax S eps) k t); [|rewrite gsum_scal; reflexivity]. apply gsum_ext. intros e I Ek Et. unfold newval. rewrite (merge_abs es) by auto. rewrite V by auto. rewrite abs_div. unfold Rdiv. ring.
  - unfold Rdiv. rewrite <- gsum_scal. apply gsum_ext. intros e I Ek Et. unfold newval. rewrite merge_weight. rewrite V by auto. unfold Rdiv. ring.
Qed.
Lemma div_max : forall x, eps <= x -> x / Rmax x eps = 1.
Proof. intros. rewrite Rmax_left by auto. apply Rinv_r. lra. Qed.

(** modal *)
Definition anis k := n_iso mask k = false.
Lemma modal_bias : forall es k t, wf es -> (t < NL)%nat -> let U := gsum OL es Q k t in
  n_bias nlat_in nlon_in nlat_out quad tr mask eps NModal es (k * NL + t)%nat = if n_iso mask k then 0 else if Rltb eps U then gsum OL es (fun e => pv e * Q e) k t / U else 0.
Proof.
  intros es k t W T U. unfold n_bias, n_support. rewrite !scatter_gsum by auto. change (gsum OL es (n_q nlon_in quad tr) k t) with U.
  assert (UP : 0 <= U) by (apply gsum_nonneg; intros e I; apply quad_nonneg; apply W; auto). rewrite Rabs_right by lra.
  assert (E : gsum OL es (fun e => pv e * n_q nlon_in quad tr e * b2r (negb (n_iso mask (ker e)))) k t = if n_iso mask k then 0 else gsum OL es (fun e => pv e * Q e) k t).
  { destruct (n_iso mask k) eqn:I.
    - transitivity (gsum OL es (fun e => pv e * 0) k t); [|rewrite gsum_scal; ring]. apply gsum_ext. intros e _ Ek _. rewrite Ek, I. cbn. ring.
    - apply gsum_ext. intros e _ Ek _. rewrite Ek, I. cbn. change (n_q nlon_in quad tr e) with (Q e). ring. }
  rewrite E. destruct (Rltb_cases eps U) as [(-> & L)|(-> & L)]; destruct (n_iso mask k); auto.
  - unfold Rdiv. ring.
  - rewrite Rmax_left by lra. reflexivity.
Qed.
Theorem modal_norm : forall es vs k t, wf es -> runs NModal es vs -> (t < NL)%nat -> let U := gsum OL es Q k t in
  let b := if n_iso mask k then 0 else gsum OL es (fun e => pv e * Q e) k t / U in
  let S := gsum OL es (fun e => Rabs (pv e - b) * Q e) k t in
  eps < U ->
  gsum OL (with_values es vs) (fun e => Rabs (pv e) * LW e) k t = S / Rmax S eps /\
  gsum OL (with_values es vs) (fun e => pv e * LW e) k t = (if n_iso mask k then gsum OL es (fun e => pv e * Q e) k t / Rmax S eps else 0).
Proof.
  intros es vs k t W H T U b S HU. rewrite (new_gsum NModal es vs k t Rabs H), (new_gsum NModal es vs k t (fun x => x) H). change (nresolve NModal) with NModal.
  assert (B : n_bias nlat_in nlon_in nlat_out quad tr mask eps NModal es (k * NL + t)%nat = b).
  { rewrite modal_bias by auto. fold U. unfold b. destruct (n_iso mask k); auto. rewrite (proj2 (Rltb_true _ _)); auto. }
  assert (SC : n_scale nlat_in nlon_in nlat_out quad tr mask eps NModal es (k * NL + t)%nat = S).
  { unfold n_scale. rewrite scatter_gsum by auto. apply gsum_ext. intros e I Ek Et. rewrite gid_eq, Ek, Et, B. reflexivity. }
  assert (V : forall e, In e es -> ker e = k -> OL e = t -> value NModal es e = (pv e - b) / Rmax S eps).
  { intros e I Ek Et. unfold value, n_value. rewrite gid_eq, Ek, Et, SC, B. reflexivity. }
  split.
  - transitivity (gsum OL es (fun e => Rabs (pv e - b) * Q e * / Rmax S eps) k t); [|rewrite gsum_scal; reflexivity]. apply gsum_ext. intros e I Ek Et. unfold newval. rewrite (merge_abs es) by auto. rewrite V by auto. rewrite abs_div. unfold Rdiv. ring.
  - transitivity (gsum OL es (fun e => (pv e * Q e - Q e * b) * / Rmax S eps) k t).
    { apply gsum_ext. intros e I Ek Et. unfold newval. rewrite merge_weight. rewrite V by auto. unfold Rdiv. ring. }
    rewrite gsum_scal, gsum_sub, gsum_scal. fold U. unfold b. destruct (n_iso mask k); [unfold Rdiv; ring|]. replace (U * _) with (gsum OL es (fun e => pv e * Q e) k t) by (field; lra). ring.
Qed.

(** mean *)
Theorem mean_norm : forall es vs k, wf es -> runs NMean es vs -> (k < K)%nat -> (1 <= NL)%nat ->
  let M := rsum NL (fun t => gsum OL es (fun e => Rabs (pv e) * Q e) k t) / INR NL in
  rsum NL (fun t => gsum OL (with_values es vs) (fun e => Rabs (pv e) * LW e) k t) / INR NL = M / Rmax M eps /\
  forall t, (t < NL)%nat -> gsum OL (with_values es vs) (fun e => Rabs (pv e) * LW e) k t = gsum OL es (fun e => Rabs (pv e) * Q e) k t / Rmax M eps.
Proof.
  intros es vs k W H Hk HN M.
  assert (G : forall t, (t < NL)%nat -> gsum OL (with_values es vs) (fun e => Rabs (pv e) * LW e) k t = gsum OL es (fun e => Rabs (pv e) * Q e) k t / Rmax M eps).
  { intros t T. rewrite (new_gsum NMean es vs k t Rabs H). change (nresolve NMean) with NMean. unfold Rdiv. rewrite <- gsum_scal. apply gsum_ext. intros e I Ek Et. unfold newval. rewrite (merge_abs es) by auto.
    unfold value, n_value. assert (B : n_mean nlat_in nlat_out tr (n_bias nlat_in nlon_in nlat_out quad tr mask eps NMean es) (ker e) = 0).
    { unfold n_mean. cbn [n_bias]. fold NL. rewrite (bsum_zero RT). unfold Rdiv; ring. }
    assert (SM : n_mean nlat_in nlat_out tr (n_scale nlat_in nlon_in nlat_out quad tr mask eps NMean es) (ker e) = M).
    { unfold n_mean, M. fold NL. f_equal. apply bsum_ext. intros t' T'. rewrite Ek. apply scale_other; auto. discriminate. }
    rewrite B, SM, Rminus_0_r, abs_div. unfold Rdiv. ring. }
  split; auto. transitivity (rsum NL (fun t => gsum OL es (fun e => Rabs (pv e) * Q e) k t * / Rmax M eps) / INR NL).
  { f_equal. apply bsum_ext. intros t T. apply G; auto. } rewrite (bsum_scal_r RT NL _ (fun t => gsum OL es (fun e => Rabs (pv e) * Q e) k t)). change (M / Rmax M eps) with (M * / Rmax M eps). generalize (/ Rmax M eps). intros c. unfold M, Rdiv. ring.
Qed.

(** support *)
Theorem support_norm : forall es vs k t, wf es -> runs NSupport es vs -> (t < NL)%nat -> let U := gsum OL es Q k t in
  gsum OL (with_values es vs) (fun e => pv e * LW e) k t = gsum OL es (fun e => pv e * Q e) k t / Rmax U eps.
Proof.
  intros es vs k t W H T U. rewrite (new_gsum NSupport es vs k t (fun x => x) H). change (nresolve NSupport) with NSupport. unfold Rdiv. rewrite <- gsum_scal. apply gsum_ext. intros e I Ek Et. unfold newval. rewrite merge_weight.
  unfold value, n_value. unfold n_support. rewrite gid_eq, Ek, Et, scatter_gsum by auto. change (gsum OL es (n_q nlon_in quad tr) k t) with U. unfold Rdiv. ring.
Qed.
(** geometric: a fixed factor *)
Theorem geometric_norm : forall mode es vs k t, mode = NGeometric \/ mode = NAreaRatio -> runs mode es vs ->
  gsum OL (with_values es vs) (fun e => pv e * LW e) k t = gsum OL es (fun e => pv e * Q e) k t / Rmax ((1 - cos cutoff) / 4) eps.
Proof.
  intros mode es vs k t M H. rewrite (new_gsum mode es vs k t (fun x => x) H). replace (nresolve mode) with NGeometric by (destruct M; subst; reflexivity). unfold Rdiv. rewrite <- gsum_scal. apply gsum_ext. intros e I Ek Et. unfold newval. rewrite merge_weight.
  unfold value, n_value. replace ((1 - cos cutoff) / 2 / 2) with ((1 - cos cutoff) * / 4) by field. unfold Rdiv. ring.
Qed.
(** none: only the quadrature *)
Theorem none_norm : forall es vs, runs NNone es vs -> with_values es vs = map (fun e => mkE (ker e) (row e) (col e) (if merge then pv e * Q e / (if tr then corr else 1) else pv e)) es.
Proof.
  intros es vs H. destruct (runs_map _ _ _ H) as (_ & ->). apply map_ext. intros e. unfold newval, value, n_value, n_merge. cbn [nresolve]. change (n_q nlon_in quad tr e) with (Q e). fold corr. f_equal. destruct tr, merge; cbn [andb]; auto. field.
Qed.
(** when it runs *)
Theorem runs_iff : forall mode es, wf es -> (forall m, mask = Some m -> length m = K) -> (mask = None -> 1 <= K)%nat -> ((exists vs, runs mode es vs) <-> mode <> NUnknown).
Proof.
  intros mode es W HM HK. clear quad_nonneg eps_pos nlon_pos. unfold runs, normalize_psi. assert (C : n_checks nlat_in nlon_in nlat_out K nq tr mask (nresolve mode) es = true).
  { unfold n_checks. apply andb_true_intro. split.
    - apply forallb_forall. intros e I. destruct (W e I) as (A & B & C). rewrite gid_eq. change (n_nlat nlat_in nlat_out tr) with NL. change (n_ilat nlon_in tr e) with (lat_from nlon_in tr e).
      rewrite (proj2 (Nat.ltb_lt _ _)) by nia. rewrite (proj2 (Nat.ltb_lt (lat_from nlon_in tr e) nq)) by auto. rewrite (proj2 (Nat.ltb_lt (ker e) K)) by auto. destruct (nresolve mode), mask; cbn [andb]; auto. rewrite (HM l) by auto. apply Nat.ltb_lt; auto.
    - destruct (nresolve mode), mask; auto. apply Nat.leb_le. auto. }
  rewrite C. cbn [guard bindo]. split.
  - intros (vs & H) ->. cbn in H. discriminate.
  - intros N. assert (G : (match nresolve mode with NUnknown => false | _ => true end) = true) by (destruct mode; cbn; congruence). rewrite G. cbn [guard bindo].
    assert (A : forall es', exists vs, mapM (fun e => bindo (n_value nlat_in nlon_in nlat_out quad cutoff tr mask eps (nresolve mode) es e) (fun v => Some (n_merge nlon_in nlon_out quad tr merge e v))) es' = Some vs).
    { induction es' as [|e es' (vs & E)]; [exists []; reflexivity|]. cbn [mapM]. rewrite E. assert (V : exists v, n_value nlat_in nlon_in nlat_out quad cutoff tr mask eps (nresolve mode) es e = Some v) by (destruct mode; cbn; eauto; congruence). destruct V as (v & ->). cbn. eauto. }
    apply A.
Qed.
End N.
