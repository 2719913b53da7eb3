(** The gradient of neighbourhood attention: what the three gradients should be, and
    that they are the derivative of the forward map. *)
From Coq Require Import List Arith Lia Bool Reals Lra.
From Coquelicot Require Import Coquelicot.
From Verif Require Import TensorModel TensorProofs BigSum DiscoModel DiscoSortProofs AttnModel AttnSpec AttnCoreProofs AttnKernelProofs AttnUpProofs.
Import ListNotations.
Local Open Scope R_scope.

Lemma rsum_ext' : forall n (f g : nat -> R), (forall i, (i < n)%nat -> f i = g i) -> rsum n f = rsum n g.
Proof. intros. apply bsum_ext; auto. Qed.
Lemma rlsum_rsum_swap : forall X n (f : X -> nat -> R) l, rlsum (fun x => rsum n (f x)) l = rsum n (fun i => rlsum (fun x => f x i) l).
Proof. intros. apply (lsum_bsum_swap RT). Qed.
Lemma rlsum_plus : forall X (f g : X -> R) l, rlsum (fun x => f x + g x) l = rlsum f l + rlsum g l.
Proof. intros. apply (lsum_plus RT). Qed.
Lemma rsum_plus' : forall n (f g : nat -> R), rsum n (fun x => f x + g x) = rsum n f + rsum n g.
Proof. intros. apply (bsum_plus RT). Qed.
Lemma rsum_scal' : forall n c (f : nat -> R), rsum n (fun x => c * f x) = c * rsum n f.
Proof. intros. apply (bsum_scal_l RT). Qed.
Lemma rsum_scal_r' : forall n c (f : nat -> R), rsum n (fun x => f x * c) = rsum n f * c.
Proof. intros. apply (bsum_scal_r RT). Qed.
Lemma rsum_deriv : forall n (f : nat -> R -> R) (d : nat -> R) x,
  (forall i, (i < n)%nat -> is_derive (f i) x (d i)) -> is_derive (fun t => rsum n (fun i => f i t)) x (rsum n d).
Proof.
  intros n f d x. induction n; intros H.
  - cbn [bsum_]. apply (is_derive_const (0 : R) x).
  - cbn [bsum_]. apply (is_derive_plus (fun t => rsum n (fun i => f i t)) (f n)); [apply IHn; auto|apply H; lia].
Qed.
Lemma rlsum_deriv : forall X (l : list X) (f : X -> R -> R) (d : X -> R) x,
  (forall i, In i l -> is_derive (f i) x (d i)) -> is_derive (fun t => rlsum (fun i => f i t) l) x (rlsum d l).
Proof.
  intros X l f d x. induction l; intros H.
  - apply (is_derive_const (0 : R) x).
  - rewrite rlsum_cons. apply (is_derive_plus (f a) (fun t => rlsum (fun i => f i t) l)); [apply H; left; auto|apply IHl; intros; apply H; right; auto].
Qed.

(** derivative of a softmax average *)
Lemma softmax_deriv : forall X (l : list X) (s f : X -> R -> R) (w s' f' : X -> R), (forall x, In x l -> 0 < w x) -> l <> [] ->
  (forall x, In x l -> is_derive (s x) 0 (s' x)) -> (forall x, In x l -> is_derive (f x) 0 (f' x)) ->
  let y := softmax_avg (fun x => s x 0) w (fun x => f x 0) l in
  let p := fun x => w x * exp (s x 0) / softmax_den (fun x => s x 0) w l in
  is_derive (fun t => softmax_avg (fun x => s x t) w (fun x => f x t) l) 0 (rlsum (fun x => p x * (f' x + s' x * (f x 0 - y))) l).
Proof.
  intros X l s f w s' f' Hw Hn Hs Hf y p.
  pose proof (softmax_den_pos X (fun x => s x 0) w l Hw Hn) as D.
  assert (E : forall x, In x l -> is_derive (fun t => exp (s x t)) 0 (s' x * exp (s x 0))).
  { intros x Hx. apply (is_derive_comp exp (s x)); [|apply Hs; auto]. apply is_derive_Reals, derivable_pt_lim_exp. }
  assert (Dd : is_derive (fun t => softmax_den (fun x => s x t) w l) 0 (rlsum (fun x => w x * (s' x * exp (s x 0))) l)).
  { unfold softmax_den. apply (rlsum_deriv X l (fun x t => w x * exp (s x t))). intros x Hx. apply (is_derive_scal (fun t => exp (s x t))). auto. }
  assert (Dn : is_derive (fun t => rlsum (fun x => w x * exp (s x t) * f x t) l) 0
     (rlsum (fun x => w x * (s' x * exp (s x 0)) * f x 0 + w x * exp (s x 0) * f' x) l)).
  { apply (rlsum_deriv X l (fun x t => w x * exp (s x t) * f x t)). intros x Hx.
    apply (is_derive_mult (fun t => w x * exp (s x t)) (f x)); [apply (is_derive_scal (fun t => exp (s x t))); auto|auto|intros; apply Rmult_comm]. }
  unfold softmax_avg.
  evar_last; [apply (is_derive_div _ _ 0 _ _ Dn Dd); lra|].
  unfold p, y, softmax_avg. set (den := softmax_den (fun x => s x 0) w l) in *.
  set (num := rlsum (fun x => w x * exp (s x 0) * f x 0) l).
  rewrite (rlsum_ext _ (fun x => w x * exp (s x 0) / den * (f' x + s' x * (f x 0 - num / den)))
     (fun x => / den * (w x * (s' x * exp (s x 0)) * f x 0 + w x * exp (s x 0) * f' x) + (- num / den ^ 2) * (w x * (s' x * exp (s x 0))))).
  2:{ intros x _. field. lra. }
  rewrite !rlsum_plus, !rlsum_scal, !rlsum_plus. fold num. field. lra.
Qed.

Section Spec.
Variables (Ck Cv Hi Wi Ho Wo : nat) (quad : nat -> R) (N : nat -> nat -> list (nat * nat)) (k v q dy : fld).
Definition g_den b ho wo := softmax_den (score Ck (k b) (q b) ho wo) (fun p => quad (fst p)) (N ho wo).
Definition g_prob b ho wo p := quad (fst p) * exp (score Ck (k b) (q b) ho wo p) / g_den b ho wo.
Definition g_dot b ho wo (p : nat * nat) := rsum Cv (fun c => dy b ho wo c * v b (fst p) (snd p) c).
Definition g_bar b ho wo := rlsum (fun p => g_prob b ho wo p * g_dot b ho wo p) (N ho wo).
Definition g_wt b ho wo p := g_prob b ho wo p * (g_dot b ho wo p - g_bar b ho wo).
Definition GV : fld := fun b h w c => rsum Ho (fun ho => rsum Wo (fun wo => rlsum (fun p => if pt_eqb (h, w) p then g_prob b ho wo p * dy b ho wo c else 0) (N ho wo))).
Definition GK : fld := fun b h w c => rsum Ho (fun ho => rsum Wo (fun wo => rlsum (fun p => if pt_eqb (h, w) p then q b ho wo c * g_wt b ho wo p else 0) (N ho wo))).
Definition GQ : fld := fun b ho wo c => rlsum (fun p => g_wt b ho wo p * k b (fst p) (snd p) c) (N ho wo).

Hypothesis Hquad : forall h, (h < Hi)%nat -> 0 < quad h.
Hypothesis HN : forall ho wo p, (ho < Ho)%nat -> (wo < Wo)%nat -> In p (N ho wo) -> (fst p < Hi /\ snd p < Wi)%nat.
Hypothesis Hne : forall ho wo, (ho < Ho)%nat -> (wo < Wo)%nat -> N ho wo <> [].
Lemma g_w_pos : forall ho wo p, (ho < Ho)%nat -> (wo < Wo)%nat -> In p (N ho wo) -> 0 < quad (fst p).
Proof. intros. apply Hquad. apply (HN ho wo p); auto. Qed.
Lemma g_den_pos : forall b ho wo, (ho < Ho)%nat -> (wo < Wo)%nat -> 0 < g_den b ho wo.
Proof. intros. apply softmax_den_pos; [|apply Hne; auto]. intros. eapply g_w_pos; eauto. Qed.

Section Shift.
Variables (b ho wo : nat) (m : R).
Hypothesis (Hh : (ho < Ho)%nat) (Hw : (wo < Wo)%nat).
Definition alm p := exp (score Ck (k b) (q b) ho wo p - m) * quad (fst p).
Lemma alm_eq : forall p, alm p = exp (- m) * (quad (fst p) * exp (score Ck (k b) (q b) ho wo p)).
Proof. intros. unfold alm, Rminus. rewrite exp_plus. ring. Qed.
Lemma alm_sum : rlsum alm (N ho wo) = exp (- m) * g_den b ho wo.
Proof. unfold g_den, softmax_den. rewrite <- rlsum_scal. apply rlsum_ext. intros; apply alm_eq. Qed.
Lemma alm_pos : 0 < rlsum alm (N ho wo).
Proof. rewrite alm_sum. apply Rmult_lt_0_compat; [apply exp_pos|apply g_den_pos; auto]. Qed.
Lemma alm_prob : forall p, alm p / rlsum alm (N ho wo) = g_prob b ho wo p.
Proof. intros. rewrite alm_sum, alm_eq. unfold g_prob. pose proof (exp_pos (- m)). pose proof (g_den_pos b ho wo Hh Hw). field. lra. Qed.
Lemma alm_avg : forall F, rlsum (fun p => alm p * F p) (N ho wo) / rlsum alm (N ho wo) = rlsum (fun p => g_prob b ho wo p * F p) (N ho wo).
Proof.
  intros. unfold Rdiv. rewrite <- rlsum_scal_r. apply rlsum_ext. intros p _. rewrite <- alm_prob. unfold Rdiv. ring.
Qed.
End Shift.

Lemma prob_avg : forall b ho wo F, (ho < Ho)%nat -> (wo < Wo)%nat ->
  softmax_avg (score Ck (k b) (q b) ho wo) (fun p => quad (fst p)) F (N ho wo) = rlsum (fun p => g_prob b ho wo p * F p) (N ho wo).
Proof.
  intros. unfold softmax_avg. fold (g_den b ho wo). unfold Rdiv. rewrite <- rlsum_scal_r. apply rlsum_ext. intros. unfold g_prob, Rdiv. ring.
Qed.
Lemma prob_sum : forall b ho wo, (ho < Ho)%nat -> (wo < Wo)%nat -> rlsum (g_prob b ho wo) (N ho wo) = 1.
Proof.
  intros. rewrite (rlsum_ext _ _ (fun p => g_prob b ho wo p * 1)) by (intros; ring). rewrite <- prob_avg by auto.
  apply softmax_avg_const; auto. intros. eapply g_w_pos; eauto.
Qed.

Variables (k' v' q' : fld).
Definition line (x x' : fld) (t : R) : fld := fun b h w c => x b h w c + t * x' b h w c.
Lemma line_deriv : forall x x' b h w c t, is_derive (fun t => line x x' t b h w c) t (x' b h w c).
Proof. intros. unfold line. auto_derive; auto. ring. Qed.
Lemma line_0 : forall x x' b h w c, line x x' 0 b h w c = x b h w c.
Proof. intros. unfold line. ring. Qed.
Definition s_dir b ho wo (p : nat * nat) := rsum Ck (fun c => q' b ho wo c * k b (fst p) (snd p) c + q b ho wo c * k' b (fst p) (snd p) c).
Lemma score_0 : forall b ho wo p, score Ck (line k k' 0 b) (line q q' 0 b) ho wo p = score Ck (k b) (q b) ho wo p.
Proof. intros. unfold score. apply rsum_ext'. intros. rewrite !line_0. reflexivity. Qed.
Lemma score_deriv : forall b ho wo p, is_derive (fun t => score Ck (line k k' t b) (line q q' t b) ho wo p) 0 (s_dir b ho wo p).
Proof.
  intros. unfold score, s_dir. apply (rsum_deriv Ck (fun c t => line q q' t b ho wo c * line k k' t b (fst p) (snd p) c)). intros c _.
  unfold line. auto_derive; auto. ring.
Qed.
Lemma cell_deriv : forall b ho wo, (ho < Ho)%nat -> (wo < Wo)%nat ->
  is_derive (fun t => rsum Cv (fun c => dy b ho wo c * attn_at Ck quad (N ho wo) (line k k' t b) (line v v' t b) (line q q' t b) ho wo c)) 0
   (rlsum (fun p => g_prob b ho wo p * rsum Cv (fun c => dy b ho wo c * v' b (fst p) (snd p) c) + g_wt b ho wo p * s_dir b ho wo p) (N ho wo)).
Proof.
  intros b ho wo Hh Hw.
  evar_last.
  - apply (rsum_deriv Cv (fun c t => dy b ho wo c * attn_at Ck quad (N ho wo) (line k k' t b) (line v v' t b) (line q q' t b) ho wo c)).
    intros c _. apply (is_derive_scal (fun t => attn_at Ck quad (N ho wo) (line k k' t b) (line v v' t b) (line q q' t b) ho wo c)).
    unfold attn_at.
    apply (softmax_deriv _ (N ho wo) (fun p t => score Ck (line k k' t b) (line q q' t b) ho wo p) (fun p t => line v v' t b (fst p) (snd p) c)
      (fun p => quad (fst p)) (s_dir b ho wo) (fun p => v' b (fst p) (snd p) c)).
    + intros. eapply g_w_pos; eauto.
    + apply Hne; auto.
    + intros. apply score_deriv.
    + intros. apply line_deriv.
  - cbv beta zeta.
    set (y := fun c => softmax_avg (score Ck (k b) (q b) ho wo) (fun p => quad (fst p)) (fun p => v b (fst p) (snd p) c) (N ho wo)).
    transitivity (rsum Cv (fun c => rlsum (fun p => g_prob b ho wo p * (dy b ho wo c * v' b (fst p) (snd p) c) +
        g_prob b ho wo p * s_dir b ho wo p * (dy b ho wo c * v b (fst p) (snd p) c - dy b ho wo c * y c)) (N ho wo))).
    { apply rsum_ext'. intros c _. rewrite <- rlsum_scal. apply rlsum_ext. intros p _.
      rewrite line_0. rewrite score_0.
      rewrite (softmax_avg_ext _ (fun x => score Ck (line k k' 0 b) (line q q' 0 b) ho wo x) (score Ck (k b) (q b) ho wo) (fun p => quad (fst p)) (fun p => quad (fst p))
         (fun x => line v v' 0 b (fst x) (snd x) c) (fun p => v b (fst p) (snd p) c)) by (intros; rewrite score_0, line_0; auto).
      fold (y c).
      assert (Ed : softmax_den (fun x => score Ck (line k k' 0 b) (line q q' 0 b) ho wo x) (fun p => quad (fst p)) (N ho wo) = g_den b ho wo).
      { unfold g_den, softmax_den. apply rlsum_ext. intros. rewrite score_0. reflexivity. }
      rewrite Ed. unfold g_prob. pose proof (g_den_pos b ho wo Hh Hw). field. lra. }
    rewrite <- rlsum_rsum_swap. apply rlsum_ext. intros p _.
    rewrite rsum_plus', rsum_scal', rsum_scal'. f_equal. unfold g_wt, g_dot.
    rewrite (rsum_ext' Cv (fun c => dy b ho wo c * v b (fst p) (snd p) c - dy b ho wo c * y c) (fun c => dy b ho wo c * v b (fst p) (snd p) c + (-1) * (dy b ho wo c * y c))) by (intros; ring).
    rewrite rsum_plus', rsum_scal'.
    assert (Eb : rsum Cv (fun c => dy b ho wo c * y c) = g_bar b ho wo).
    { unfold g_bar, g_dot. rewrite (rlsum_ext _ _ (fun p => rsum Cv (fun c => dy b ho wo c * (g_prob b ho wo p * v b (fst p) (snd p) c)))).
      - rewrite rlsum_rsum_swap. apply rsum_ext'. intros c _. unfold y. rewrite prob_avg by auto. rewrite rlsum_scal. reflexivity.
      - intros p0 _. rewrite <- rsum_scal'. apply rsum_ext'. intros. ring. }
    rewrite Eb. ring.
Qed.
(** sums over the points of the input grid *)
Lemma pick_point : forall (F : nat * nat -> R) p, (fst p < Hi)%nat -> (snd p < Wi)%nat ->
  rsum Hi (fun h => rsum Wi (fun w => if pt_eqb (h, w) p then F (h, w) else 0)) = F p.
Proof.
  intros F p H1 H2. rewrite (rsum_ext' Hi _ (fun h => if (h =? fst p)%nat then F (h, snd p) else 0)).
  - rewrite (bsum_delta_f RT Hi (fst p) (fun h => F (h, snd p))) by auto. destruct p; reflexivity.
  - intros h _. unfold pt_eqb. cbn [fst snd]. destruct (h =? fst p)%nat; cbn [andb].
    + rewrite (bsum_delta_f RT Wi (snd p) (fun w => F (h, w))) by auto. reflexivity.
    + apply (bsum_zero RT).
Qed.
Lemma scatter_pair : forall D b (Y : nat -> nat -> nat * nat -> nat -> R) (x : fld),
  rsum Hi (fun h => rsum Wi (fun w => rsum D (fun c =>
     rsum Ho (fun ho => rsum Wo (fun wo => rlsum (fun p => if pt_eqb (h, w) p then Y ho wo p c else 0) (N ho wo))) * x b h w c))) =
  rsum Ho (fun ho => rsum Wo (fun wo => rlsum (fun p => rsum D (fun c => Y ho wo p c * x b (fst p) (snd p) c)) (N ho wo))).
Proof.
  intros D b Y x.
  transitivity (rsum Hi (fun h => rsum Wi (fun w => rsum Ho (fun ho => rsum Wo (fun wo => rlsum (fun p => if pt_eqb (h, w) p then rsum D (fun c => Y ho wo p c * x b h w c) else 0) (N ho wo)))))).
  { apply rsum_ext'. intros h _. apply rsum_ext'. intros w _.
    transitivity (rsum D (fun c => rsum Ho (fun ho => rsum Wo (fun wo => rlsum (fun p => if pt_eqb (h, w) p then Y ho wo p c * x b h w c else 0) (N ho wo))))).
    - apply rsum_ext'. intros c _. rewrite <- rsum_scal_r'. apply rsum_ext'. intros ho _. rewrite <- rsum_scal_r'. apply rsum_ext'. intros wo _.
      rewrite <- rlsum_scal_r. apply rlsum_ext. intros p _. destruct (pt_eqb _ _); ring.
    - rewrite (bsum_swap RT). apply rsum_ext'. intros ho _. rewrite (bsum_swap RT). apply rsum_ext'. intros wo _.
      rewrite <- rlsum_rsum_swap. apply rlsum_ext. intros p _. destruct (pt_eqb _ _); [reflexivity|apply (bsum_zero RT)]. }
  transitivity (rsum Hi (fun h => rsum Ho (fun ho => rsum Wo (fun wo => rsum Wi (fun w => rlsum (fun p => if pt_eqb (h, w) p then rsum D (fun c => Y ho wo p c * x b h w c) else 0) (N ho wo)))))).
  { apply rsum_ext'. intros h _. rewrite (bsum_swap RT). apply rsum_ext'. intros ho _. rewrite (bsum_swap RT). reflexivity. }
  rewrite (bsum_swap RT). apply rsum_ext'. intros ho Hh. rewrite (bsum_swap RT). apply rsum_ext'. intros wo Hw.
  transitivity (rsum Hi (fun h => rlsum (fun p => rsum Wi (fun w => if pt_eqb (h, w) p then rsum D (fun c => Y ho wo p c * x b h w c) else 0)) (N ho wo))).
  { apply rsum_ext'. intros h _. rewrite rlsum_rsum_swap. reflexivity. }
  rewrite <- rlsum_rsum_swap. apply rlsum_ext. intros p Hp. destruct (HN ho wo p Hh Hw Hp) as (L1 & L2).
  rewrite <- (pick_point (fun p' => rsum D (fun c => Y ho wo p c * x b (fst p') (snd p') c)) p L1 L2). reflexivity.
Qed.
Definition ip (B H W D : nat) (x y : fld) : R := rsum B (fun b => rsum H (fun h => rsum W (fun w => rsum D (fun c => x b h w c * y b h w c)))).
Theorem attn_deriv : forall B,
  is_derive (fun t => ip B Ho Wo Cv dy (fun b ho wo c => attn_at Ck quad (N ho wo) (line k k' t b) (line v v' t b) (line q q' t b) ho wo c)) 0
    (ip B Hi Wi Ck GK k' + ip B Hi Wi Cv GV v' + ip B Ho Wo Ck GQ q').
Proof.
  intros B. unfold ip. evar_last.
  - apply (rsum_deriv B (fun b t => rsum Ho (fun ho => rsum Wo (fun wo => rsum Cv (fun c => dy b ho wo c * attn_at Ck quad (N ho wo) (line k k' t b) (line v v' t b) (line q q' t b) ho wo c))))).
    intros b _.
    apply (rsum_deriv Ho (fun ho t => rsum Wo (fun wo => rsum Cv (fun c => dy b ho wo c * attn_at Ck quad (N ho wo) (line k k' t b) (line v v' t b) (line q q' t b) ho wo c)))).
    intros ho Hh.
    apply (rsum_deriv Wo (fun wo t => rsum Cv (fun c => dy b ho wo c * attn_at Ck quad (N ho wo) (line k k' t b) (line v v' t b) (line q q' t b) ho wo c))).
    intros wo Hw. apply cell_deriv; auto.
  - rewrite <- !rsum_plus'. apply rsum_ext'. intros b _.
    unfold GV, GK.
    rewrite (scatter_pair Ck b (fun ho wo p c => q b ho wo c * g_wt b ho wo p) k').
    rewrite (scatter_pair Cv b (fun ho wo p c => g_prob b ho wo p * dy b ho wo c) v').
    rewrite <- !rsum_plus'. apply rsum_ext'. intros ho _. rewrite <- !rsum_plus'. apply rsum_ext'. intros wo _.
    unfold GQ.
    rewrite (rsum_ext' Ck (fun c => rlsum (fun p => g_wt b ho wo p * k b (fst p) (snd p) c) (N ho wo) * q' b ho wo c)
       (fun c => rlsum (fun p => g_wt b ho wo p * k b (fst p) (snd p) c * q' b ho wo c) (N ho wo))) by (intros; rewrite rlsum_scal_r; reflexivity).
    rewrite <- rlsum_rsum_swap, <- !rlsum_plus. apply rlsum_ext. intros p _.
    unfold s_dir. rewrite rsum_plus'. rewrite Rmult_plus_distr_l, <- !rsum_scal'.
    rewrite (rsum_ext' Ck (fun c => q b ho wo c * g_wt b ho wo p * k' b (fst p) (snd p) c) (fun c => g_wt b ho wo p * (q b ho wo c * k' b (fst p) (snd p) c))) by (intros; ring).
    rewrite (rsum_ext' Cv (fun c => g_prob b ho wo p * dy b ho wo c * v' b (fst p) (snd p) c) (fun c => g_prob b ho wo p * (dy b ho wo c * v' b (fst p) (snd p) c))) by (intros; ring).
    rewrite (rsum_ext' Ck (fun c => g_wt b ho wo p * k b (fst p) (snd p) c * q' b ho wo c) (fun c => g_wt b ho wo p * (q' b ho wo c * k b (fst p) (snd p) c))) by (intros; ring).
    ring.
Qed.
End Spec.
