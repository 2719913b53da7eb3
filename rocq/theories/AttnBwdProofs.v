(** The reference backward kernels return the three gradients. *)
From Coq Require Import List Arith Lia Bool Reals Lra.
From Verif Require Import TensorModel TensorProofs BigSum DiscoModel DiscoSortProofs AttnModel AttnSpec AttnCoreProofs AttnKernelProofs AttnUpProofs AttnGradProofs.
Import ListNotations.
Local Open Scope R_scope.

Lemma fold_incr : forall S X I (step : option S -> X -> option S) (obs : S -> I -> R) (inc : X -> I -> R) l st0,
  (forall st x, In x l -> exists st', step (Some st) x = Some st' /\ forall i, obs st' i = obs st i + inc x i) ->
  exists st, fold_left step l (Some st0) = Some st /\ forall i, obs st i = obs st0 i + rlsum (fun x => inc x i) l.
Proof.
  intros S X I step obs inc l. induction l; intros st0 H.
  - exists st0. split; [reflexivity|]. intros. simpl. ring.
  - cbn [fold_left]. destruct (H st0 a (or_introl eq_refl)) as (s1 & E1 & V1). rewrite E1.
    destruct (IHl s1) as (s2 & E2 & V2); [intros; apply H; right; auto|]. exists s2. split; [exact E2|].
    intros i. rewrite V2, V1, rlsum_cons. ring.
Qed.
Lemma cells_sum : forall Ho Wo (g : nat * nat -> R), rlsum g (cells Ho Wo) = rsum Ho (fun ho => rsum Wo (fun wo => g (ho, wo))).
Proof.
  intros. unfold cells. rewrite (lsum_flat_map RT), (lsum_seq RT). apply rsum_ext'. intros ho _. rewrite lsum_map, (lsum_seq RT). reflexivity.
Qed.
Lemma combine_map_r : forall A B (f : A -> B) l, combine l (map f l) = map (fun a => (a, f a)) l.
Proof. induction l; simpl; auto. rewrite IHl. reflexivity. Qed.
Lemma fold_add3 : forall X (l : list X) (pt : X -> nat * nat) (f : X -> nat -> R) a h w c,
  fold_left (fun a x => add3 (fst (pt x)) (snd (pt x)) (f x) a) l a h w c = a h w c + rlsum (fun x => if pt_eqb (h, w) (pt x) then f x c else 0) l.
Proof.
  intros X l pt f a h w c. rewrite (fold_obs _ _ (fun a : nat -> nat -> nat -> R => a h w c) _ (fun x => if pt_eqb (h, w) (pt x) then f x c else 0)); [reflexivity|].
  intros st x _. unfold add3, pt_eqb. cbn [fst snd]. destruct (_ && _)%bool; ring.
Qed.

Section Gather.
Variables (Ck Cv Hi Wi Ho Wo : nat) (quad : nat -> R) (P : pattern) (k v q dy : fld).
Let roff := offsets 0 P.
Let col := columns P.
Let N := nbrs_gather P Wi Wo.
Hypothesis Hquad : forall h, (h < Hi)%nat -> 0 < quad h.
Hypothesis HWi : (1 <= Wi)%nat.
Hypothesis HWo : (1 <= Wo)%nat.
Hypothesis Hdiv : (Wi mod Wo = 0)%nat.
Hypothesis HP : pattern_ok P Ho (Hi * Wi).
Hypothesis Hne : forall ho wo, (ho < Ho)%nat -> (wo < Wo)%nat -> N ho wo <> [].
Lemma gather_N : forall ho wo p, (ho < Ho)%nat -> (wo < Wo)%nat -> In p (N ho wo) -> (fst p < Hi /\ snd p < Wi)%nat.
Proof. intros. eapply rotated_in; [exact HP|exact H1]. Qed.
Let GVg := GV Ck Ho Wo quad N k q dy.
Let GKg := GK Ck Cv Ho Wo quad N k v q dy.
Let GQg := GQ Ck Cv quad N k v q dy.
Let al b ho wo m := alm Ck quad k q b ho wo m.

Lemma gather_stats_spec : forall b ho wo, (ho < Ho)%nat -> (wo < Wo)%nat ->
  exists m, gather_stats Ck Wi Wo quad roff col k q b ho wo = Some (map (fun p => (p, al b ho wo m p)) (N ho wo), rlsum (al b ho wo m) (N ho wo)).
Proof.
  intros b ho wo Hh Hw. unfold gather_stats. cbv zeta.
  assert (E : map (gather_pt Wi Wo wo) (csr_row roff col ho) = N ho wo).
  { unfold roff, col, N. rewrite csr_row_spec by (destruct HP; lia). reflexivity. }
  rewrite E. destruct (rmax_list (map (qdotk Ck k q b ho wo) (N ho wo))) as [m|] eqn:Em.
  2:{ exfalso. specialize (Hne ho wo Hh Hw). destruct (N ho wo); [congruence|discriminate Em]. }
  cbn [bindo]. exists m. rewrite combine_map_r, map_map. cbn [fst snd].
  change (map (fun x => exp (qdotk Ck k q b ho wo x - m) * quad (fst x)) (N ho wo)) with (map (al b ho wo m) (N ho wo)).
  rewrite fold_plus, lsum_map, Rplus_0_l, combine_map_r.
  rewrite nz_true; [reflexivity|].
  apply Rgt_not_eq. exact (alm_pos Ck Hi Wi Ho Wo quad N k q Hquad gather_N Hne b ho wo m Hh Hw).
Qed.
Lemma gather_dv_spec : forall b, exists a, gather_dv Ck Wi Ho Wo quad roff col k q dy b = Some a /\ forall h w c, a h w c = GVg b h w c.
Proof.
  intros b. unfold gather_dv.
  destruct (fold_incr _ _ (nat * nat * nat) (dv_cell Ck Wi Wo quad roff col k q dy b) (fun a i => a (fst (fst i)) (snd (fst i)) (snd i))
    (fun cl i => rlsum (fun p => if pt_eqb (fst i) p then g_prob Ck quad N k q b (fst cl) (snd cl) p * dy b (fst cl) (snd cl) (snd i) else 0) (N (fst cl) (snd cl)))
    (cells Ho Wo) (fun _ _ _ => 0)) as (a & E & V).
  { intros st (ho, wo) Hc. apply cells_in in Hc. destruct Hc as (Hh & Hw). unfold dv_cell. cbn [bindo].
    destruct (gather_stats_spec b ho wo Hh Hw) as (m & ->). cbn [bindo]. eexists. split; [reflexivity|].
    intros ((h, w), c). cbn [fst snd]. rewrite (fold_add3 _ _ fst). rewrite lsum_map. cbn [fst snd]. f_equal. apply rlsum_ext. intros p _.
    destruct (pt_eqb (h, w) p); [|reflexivity]. unfold al. rewrite (alm_prob Ck Hi Wi Ho Wo) by (auto; apply gather_N). reflexivity. }
  exists a. split; [exact E|]. intros h w c. specialize (V (h, w, c)). cbn [fst snd] in V. rewrite V, cells_sum, Rplus_0_l. reflexivity.
Qed.
Lemma gather_integral : forall b ho wo m, (ho < Ho)%nat -> (wo < Wo)%nat ->
  fold_left (fun i x => i + snd x * gdotv Cv v dy b ho wo (fst x)) (map (fun p => (p, al b ho wo m p)) (N ho wo)) 0 =
  rlsum (fun p => al b ho wo m p * g_dot Cv v dy b ho wo p) (N ho wo).
Proof.
  intros. rewrite (fold_obs _ _ (fun i : R => i) _ (fun x => snd x * gdotv Cv v dy b ho wo (fst x))) by reflexivity. rewrite lsum_map, Rplus_0_l. reflexivity.
Qed.
Lemma gather_dk_spec : forall b, exists a, gather_dk Ck Cv Wi Ho Wo quad roff col k v q dy b = Some a /\ forall h w c, a h w c = GKg b h w c.
Proof.
  intros b. unfold gather_dk.
  destruct (fold_incr _ _ (nat * nat * nat) (dk_cell Ck Cv Wi Wo quad roff col k v q dy b) (fun a i => a (fst (fst i)) (snd (fst i)) (snd i))
    (fun cl i => rlsum (fun p => if pt_eqb (fst i) p then q b (fst cl) (snd cl) (snd i) * g_wt Ck Cv quad N k v q dy b (fst cl) (snd cl) p else 0) (N (fst cl) (snd cl)))
    (cells Ho Wo) (fun _ _ _ => 0)) as (a & E & V).
  { intros st (ho, wo) Hc. apply cells_in in Hc. destruct Hc as (Hh & Hw). unfold dk_cell. cbn [bindo].
    destruct (gather_stats_spec b ho wo Hh Hw) as (m & ->). cbn [bindo]. eexists. split; [reflexivity|].
    intros ((h, w), c). cbn [fst snd]. rewrite (fold_add3 _ _ fst). rewrite lsum_map. cbn [fst snd]. f_equal. apply rlsum_ext. intros p _.
    destruct (pt_eqb (h, w) p); [|reflexivity]. rewrite gather_integral by auto. unfold al.
    rewrite (alm_prob Ck Hi Wi Ho Wo), (alm_avg Ck Hi Wi Ho Wo) by (auto; apply gather_N).
    unfold g_wt, g_bar, g_dot, gdotv, dot. ring. }
  exists a. split; [exact E|]. intros h w c. specialize (V (h, w, c)). cbn [fst snd] in V. rewrite V, cells_sum, Rplus_0_l. reflexivity.
Qed.
(** the quotient formula of the reference *)
Lemma dq_formula : forall l (a g kk : nat * nat -> R), rlsum a l <> 0 ->
  (rlsum (fun p => a p * kk p * g p) l * rlsum a l - rlsum (fun p => a p * g p) l * rlsum (fun p => a p * kk p) l) / (rlsum a l * rlsum a l) =
  rlsum (fun p => a p / rlsum a l * (g p - rlsum (fun p => a p * g p) l / rlsum a l) * kk p) l.
Proof.
  intros l a g kk H. set (S := rlsum a l) in *. set (G := rlsum (fun p => a p * g p) l).
  rewrite (rlsum_ext _ (fun p => a p / S * (g p - G / S) * kk p) (fun p => / S * (a p * kk p * g p) + (- G / (S * S)) * (a p * kk p))) by (intros; field; auto).
  rewrite rlsum_plus, !rlsum_scal. field. auto.
Qed.
Lemma gather_dq_spec : forall b ho wo, (ho < Ho)%nat -> (wo < Wo)%nat ->
  exists a, gather_dq_cell Ck Cv Wi Wo quad roff col k v q dy b ho wo = Some a /\ forall c, a c = GQg b ho wo c.
Proof.
  intros b ho wo Hh Hw. unfold gather_dq_cell. destruct (gather_stats_spec b ho wo Hh Hw) as (m & ->). cbn [bindo]. cbv zeta.
  eexists. split; [reflexivity|]. intros c.
  rewrite gather_integral by auto.
  rewrite (fold_obs _ _ (fun a : nat -> R => a c) _ (fun x => snd x * k b (fst (fst x)) (snd (fst x)) c * gdotv Cv v dy b ho wo (fst x))) by reflexivity.
  rewrite (fold_obs _ _ (fun a : nat -> R => a c) _ (fun x => snd x * k b (fst (fst x)) (snd (fst x)) c)) by reflexivity.
  rewrite !lsum_map, !Rplus_0_l. cbn [fst snd].
  etransitivity; [refine (dq_formula (N ho wo) (al b ho wo m) (g_dot Cv v dy b ho wo) (fun p => k b (fst p) (snd p) c) _)|].
  - apply Rgt_not_eq. exact (alm_pos Ck Hi Wi Ho Wo quad N k q Hquad gather_N Hne b ho wo m Hh Hw).
  - unfold GQg, GQ. apply rlsum_ext. intros p _. unfold al.
    rewrite (alm_prob Ck Hi Wi Ho Wo), (alm_avg Ck Hi Wi Ho Wo) by (auto; apply gather_N). reflexivity.
Qed.
Theorem gather_bwd_spec : forall B, exists dk dv dq, gather_bwd Ck Cv Hi Wi Ho Wo quad roff col k v q dy B = Some (dk, dv, dq) /\
  (forall b h w c, (b < B)%nat -> dk b h w c = GKg b h w c) /\ (forall b h w c, (b < B)%nat -> dv b h w c = GVg b h w c) /\
  (forall b h w c, (b < B)%nat -> (h < Ho)%nat -> (w < Wo)%nat -> dq b h w c = GQg b h w c).
Proof.
  intros B. unfold gather_bwd. unfold roff at 1, col at 1. rewrite csr_ok_spec by auto.
  replace (1 <=? Wo)%nat with true by (symmetry; apply Nat.leb_le; auto). rewrite Hdiv. cbn [Nat.eqb andb guard bindo].
  destruct (mapM_seq _ (fun _ _ _ => 0) B _ (fun b a => forall h w c, a h w c = GKg b h w c) (fun b _ => gather_dk_spec b)) as (l1 & -> & V1). cbn [bindo].
  destruct (mapM_seq _ (fun _ _ _ => 0) B _ (fun b a => forall h w c, a h w c = GVg b h w c) (fun b _ => gather_dv_spec b)) as (l2 & -> & V2). cbn [bindo].
  destruct (grid3_some _ (fun _ => 0) B Ho Wo (gather_dq_cell Ck Cv Wi Wo quad roff col k v q dy)
    (fun b ho wo => match gather_dq_cell Ck Cv Wi Wo quad roff col k v q dy b ho wo with Some y => y | None => fun _ => 0 end)) as (l3 & -> & V3).
  { intros b h w _ Hh Hw. destruct (gather_dq_spec b h w Hh Hw) as (a & -> & _). reflexivity. }
  cbn [bindo]. do 3 eexists. split; [reflexivity|]. split; [|split].
  - intros b h w c Hb. apply V1; auto.
  - intros b h w c Hb. apply V2; auto.
  - intros b h w c Hb Hh Hw. rewrite V3 by auto. destruct (gather_dq_spec b h w Hh Hw) as (a & -> & E). apply E.
Qed.
End Gather.

Section Up.
Variables (Ck Cv Hi Wi Ho Wo : nat) (quad : nat -> R) (P : pattern) (k v q dy : fld).
Let roff := offsets 0 P.
Let col := columns P.
Let N := nbrs_scatter P Hi Wi Wo.
Hypothesis Hquad : forall h, (h < Hi)%nat -> 0 < quad h.
Hypothesis HWi : (1 <= Wi)%nat.
Hypothesis HWo : (1 <= Wo)%nat.
Hypothesis Hdiv : (Wo mod Wi = 0)%nat.
Hypothesis HP : pattern_ok P Hi (Ho * Wo).
Hypothesis Hne : forall ho wo, (ho < Ho)%nat -> (wo < Wo)%nat -> N ho wo <> [].
Lemma scatter_N : forall ho wo p, (ho < Ho)%nat -> (wo < Wo)%nat -> In p (N ho wo) -> (fst p < Hi /\ snd p < Wi)%nat.
Proof. intros. eapply scatter_in. exact H1. Qed.
Let GVu := GV Ck Ho Wo quad N k q dy.
Let GKu := GK Ck Cv Ho Wo quad N k v q dy.
Let GQu := GQ Ck Cv quad N k v q dy.
Let trips := pts Hi Wi Wo P.
Let mu := mxv Ck Hi Wi Wo P k q.

(** visiting the triples is visiting the neighbours of every output point *)
Lemma trips_cells : forall (H : nat * nat -> nat * nat -> R),
  rlsum (fun t => H (fst t) (snd t)) trips = rsum Ho (fun ho => rsum Wo (fun wo => rlsum (fun p => H p (ho, wo)) (N ho wo))).
Proof.
  intros H.
  transitivity (rsum Ho (fun ho => rsum Wo (fun wo => rlsum (fun t => if pt_eqb (ho, wo) (snd t) then H (fst t) (ho, wo) else 0) trips))).
  - transitivity (rsum Ho (fun ho => rlsum (fun t => rsum Wo (fun wo => if pt_eqb (ho, wo) (snd t) then H (fst t) (ho, wo) else 0)) trips)).
    + rewrite <- rlsum_rsum_swap. apply rlsum_ext. intros t Ht.
      destruct (trips_in Hi Wi Ho Wo P HWi HWo Hdiv HP t Ht) as (_ & _ & L1 & L2).
      symmetry. apply (pick_point Ho Wo (H (fst t)) (snd t) L1 L2).
    + apply rsum_ext'. intros ho _. apply rlsum_rsum_swap.
  - apply rsum_ext'. intros ho _. apply rsum_ext'. intros wo _.
    apply (trips_scatter Hi Wi Ho Wo P HWi HWo Hdiv HP (fun p => H p (ho, wo))).
Qed.
Lemma alv_alm : forall b t, alv Ck Hi Wi Wo quad P k q b t = alm Ck quad k q b (fst (snd t)) (snd (snd t)) (mu b (fst (snd t)) (snd (snd t))) (fst t).
Proof. reflexivity. Qed.
Lemma up_sum_alm : forall b, exists s, up_sum Ck Hi Wi Wo quad roff col k q b (up_max Ck Hi Wi Wo roff col k q b) = Some s /\
  forall h w, s h w = rlsum (alm Ck quad k q b h w (mu b h w)) (N h w).
Proof. intros b. destruct (up_sum_spec Ck Hi Wi Ho Wo quad P k q HWi HWo Hdiv HP b) as (s & E & V). exists s. split; [exact E|]. exact V. Qed.
Lemma up_acc_alm : forall C b (f : (nat * nat) * (nat * nat) -> C -> R) (g : nat -> nat -> nat * nat -> C -> R), (forall p h w c, f (p, (h, w)) c = g h w p c) ->
  exists a, up_acc Ck Hi Wi Wo quad roff col k q b (up_max Ck Hi Wi Wo roff col k q b) f = Some a /\
  forall h w c, a h w c = rlsum (fun p => alm Ck quad k q b h w (mu b h w) p * g h w p c) (N h w).
Proof.
  intros C b f g Hg. destruct (up_acc_spec Ck Hi Wi Wo quad P k q C b f) as (a & E & V). exists a. split; [exact E|].
  intros. rewrite V. rewrite (up_acc_nbrs Ck Hi Wi Ho Wo quad P k q HWi HWo Hdiv HP C b f g Hg). reflexivity.
Qed.
Lemma up_pos : forall b h w m, (h < Ho)%nat -> (w < Wo)%nat -> 0 < rlsum (alm Ck quad k q b h w m) (N h w).
Proof. intros. apply (alm_pos Ck Hi Wi Ho Wo quad N k q Hquad scatter_N Hne); auto. Qed.
Lemma up_scatter_fold : forall b (s : nat -> nat -> R) (vl : (nat * nat) * (nat * nat) -> R -> nat -> R),
  (forall h w, s h w = rlsum (alm Ck quad k q b h w (mu b h w)) (N h w)) ->
  exists a, fold_left (fun acc t => do a <- acc; do al <- up_alpha Ck quad k q b (up_max Ck Hi Wi Wo roff col k q b) t;
      do _ <- guard (nz (s (fst (snd t)) (snd (snd t))));
      Some (add3 (fst (fst t)) (snd (fst t)) (vl t al) a)) (up_trips Hi Wi Wo roff col) (Some (fun _ _ _ => 0)) = Some a /\
  forall h w c, a h w c = rsum Ho (fun ho => rsum Wo (fun wo => rlsum (fun p => if pt_eqb (h, w) p then vl (p, (ho, wo)) (alm Ck quad k q b ho wo (mu b ho wo) p) c else 0) (N ho wo))).
Proof.
  intros b s vl Vs.
  destruct (fold_incr _ _ (nat * nat * nat) (fun acc t => do a <- acc; do al <- up_alpha Ck quad k q b (up_max Ck Hi Wi Wo roff col k q b) t;
      do _ <- guard (nz (s (fst (snd t)) (snd (snd t))));
      Some (add3 (fst (fst t)) (snd (fst t)) (vl t al) a)) (fun a i => a (fst (fst i)) (snd (fst i)) (snd i))
    (fun t i => if pt_eqb (fst i) (fst t) then vl t (alv Ck Hi Wi Wo quad P k q b t) (snd i) else 0) trips (fun _ _ _ => 0)) as (a & E & V).
  { intros st t Ht. cbn [bindo]. unfold roff, col. rewrite (up_alpha_spec Ck Hi Wi Wo quad P k q b t Ht). cbn [bindo].
    destruct (trips_in Hi Wi Ho Wo P HWi HWo Hdiv HP t Ht) as (_ & _ & L1 & L2).
    rewrite nz_true by (rewrite Vs; pose proof (up_pos b _ _ (mu b (fst (snd t)) (snd (snd t))) L1 L2); lra).
    cbn [guard bindo]. eexists. split; [reflexivity|]. intros ((h, w), c). cbn [fst snd]. unfold add3, pt_eqb. cbn [fst snd]. destruct (_ && _)%bool; ring. }
  exists a. split; [exact E|]. intros h w c. specialize (V (h, w, c)). cbn [fst snd] in V. rewrite V.
  rewrite Rplus_0_l.
  rewrite (rlsum_ext _ _ (fun t => (fun p cl => if pt_eqb (h, w) p then vl (p, cl) (alm Ck quad k q b (fst cl) (snd cl) (mu b (fst cl) (snd cl)) p) c else 0) (fst t) (snd t)))
    by (intros (p, cl) _; rewrite alv_alm; reflexivity).
  rewrite (trips_cells (fun p cl => if pt_eqb (h, w) p then vl (p, cl) (alm Ck quad k q b (fst cl) (snd cl) (mu b (fst cl) (snd cl)) p) c else 0)). reflexivity.
Qed.
Lemma up_dv_spec : forall b, exists a, up_dv Ck Hi Wi Wo quad roff col k q dy b = Some a /\ forall h w c, a h w c = GVu b h w c.
Proof.
  intros b. unfold up_dv. cbv zeta. destruct (up_sum_alm b) as (s & -> & Vs). cbn [bindo].
  destruct (up_scatter_fold b s (fun t al c => al / s (fst (snd t)) (snd (snd t)) * dy b (fst (snd t)) (snd (snd t)) c) Vs) as (a & E & V).
  exists a. split; [exact E|]. intros h w c. rewrite V. unfold GVu, GV. apply rsum_ext'. intros ho Hh. apply rsum_ext'. intros wo Hw.
  apply rlsum_ext. intros p _. destruct (pt_eqb (h, w) p); [|reflexivity]. cbn [fst snd]. rewrite Vs.
  rewrite (alm_prob Ck Hi Wi Ho Wo) by (auto; apply scatter_N). reflexivity.
Qed.
Lemma up_dk_spec : forall b, exists a, up_dk Ck Cv Hi Wi Wo quad roff col k v q dy b = Some a /\ forall h w c, a h w c = GKu b h w c.
Proof.
  intros b. unfold up_dk. cbv zeta. destruct (up_sum_alm b) as (s & -> & Vs). cbn [bindo].
  destruct (up_acc_alm unit b (fun t _ => up_gdotv Cv v dy b t) (fun ho wo p _ => g_dot Cv v dy b ho wo p)) as (g & -> & Vg); [reflexivity|]. cbn [bindo].
  destruct (up_scatter_fold b s (fun t al c => q b (fst (snd t)) (snd (snd t)) c * (al / s (fst (snd t)) (snd (snd t)) *
     (up_gdotv Cv v dy b t - g (fst (snd t)) (snd (snd t)) tt / s (fst (snd t)) (snd (snd t))))) Vs) as (a & E & V).
  exists a. split; [exact E|]. intros h w c. rewrite V. unfold GKu, GK. apply rsum_ext'. intros ho Hh. apply rsum_ext'. intros wo Hw.
  apply rlsum_ext. intros p _. destruct (pt_eqb (h, w) p); [|reflexivity]. cbn [fst snd]. rewrite Vs, Vg.
  rewrite (alm_prob Ck Hi Wi Ho Wo), (alm_avg Ck Hi Wi Ho Wo) by (auto; apply scatter_N). reflexivity.
Qed.
Lemma up_dq_spec : forall b, exists a, up_dq Ck Cv Hi Wi Ho Wo quad roff col k v q dy b = Some a /\
  forall h w c, (h < Ho)%nat -> (w < Wo)%nat -> a h w c = GQu b h w c.
Proof.
  intros b. unfold up_dq. cbv zeta. destruct (up_sum_alm b) as (s & -> & Vs). cbn [bindo].
  destruct (up_acc_alm unit b (fun t _ => up_gdotv Cv v dy b t) (fun ho wo p _ => g_dot Cv v dy b ho wo p)) as (g & -> & Vg); [reflexivity|]. cbn [bindo].
  destruct (up_acc_alm nat b (fun t c => k b (fst (fst t)) (snd (fst t)) c) (fun ho wo p c => k b (fst p) (snd p) c)) as (ak & -> & Vk); [reflexivity|]. cbn [bindo].
  destruct (up_acc_alm nat b (fun t c => up_gdotv Cv v dy b t * k b (fst (fst t)) (snd (fst t)) c) (fun ho wo p c => g_dot Cv v dy b ho wo p * k b (fst p) (snd p) c)) as (akv & -> & Vkv); [reflexivity|]. cbn [bindo].
  rewrite (up_sums_nz Ck Hi Wi Ho Wo quad P k q Hquad Hne b s Vs). cbn [guard bindo]. eexists. split; [reflexivity|].
  intros h w c Hh Hw. cbv beta. rewrite Vs, Vg, Vk, Vkv.
  rewrite (rlsum_ext _ (fun p => alm Ck quad k q b h w (mu b h w) p * (g_dot Cv v dy b h w p * k b (fst p) (snd p) c))
     (fun p => alm Ck quad k q b h w (mu b h w) p * k b (fst p) (snd p) c * g_dot Cv v dy b h w p)) by (intros; ring).
  rewrite (dq_formula (N h w) (alm Ck quad k q b h w (mu b h w)) (g_dot Cv v dy b h w) (fun p => k b (fst p) (snd p) c)).
  - unfold GQu, GQ. apply rlsum_ext. intros p _.
    rewrite (alm_prob Ck Hi Wi Ho Wo), (alm_avg Ck Hi Wi Ho Wo) by (auto; apply scatter_N). reflexivity.
  - pose proof (up_pos b h w (mu b h w) Hh Hw). lra.
Qed.
Theorem up_bwd_spec : forall B, exists dk dv dq, up_bwd Ck Cv Hi Wi Ho Wo quad roff col k v q dy B = Some (dk, dv, dq) /\
  (forall b h w c, (b < B)%nat -> dk b h w c = GKu b h w c) /\ (forall b h w c, (b < B)%nat -> dv b h w c = GVu b h w c) /\
  (forall b h w c, (b < B)%nat -> (h < Ho)%nat -> (w < Wo)%nat -> dq b h w c = GQu b h w c).
Proof.
  intros B. unfold up_bwd. unfold roff at 1, col at 1. rewrite up_ok_true by auto. cbn [guard bindo].
  destruct (mapM_seq _ (fun _ _ _ => 0) B _ (fun b a => forall h w c, a h w c = GKu b h w c) (fun b _ => up_dk_spec b)) as (l1 & -> & V1). cbn [bindo].
  destruct (mapM_seq _ (fun _ _ _ => 0) B _ (fun b a => forall h w c, a h w c = GVu b h w c) (fun b _ => up_dv_spec b)) as (l2 & -> & V2). cbn [bindo].
  destruct (mapM_seq _ (fun _ _ _ => 0) B _ (fun b a => forall h w c, (h < Ho)%nat -> (w < Wo)%nat -> a h w c = GQu b h w c) (fun b _ => up_dq_spec b)) as (l3 & -> & V3). cbn [bindo].
  do 3 eexists. split; [reflexivity|]. split; [|split].
  - intros b h w c Hb. apply V1; auto.
  - intros b h w c Hb. apply V2; auto.
  - intros b h w c Hb Hh Hw. apply V3; auto.
Qed.
End Up.
