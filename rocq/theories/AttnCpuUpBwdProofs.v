(** The CPU backward kernel of the upsampling direction returns the same gradients. *)
From Coq Require Import List Arith Lia Bool Reals Lra.
From Verif Require Import TensorModel TensorProofs BigSum DiscoModel DiscoSortProofs AttnModel AttnSpec AttnCoreProofs AttnKernelProofs AttnUpProofs AttnGradProofs AttnBwdProofs AttnCpuBwdProofs.
Import ListNotations.
Local Open Scope R_scope.

Lemma enum_intro : forall A (l : list A) j c, nth_error l j = Some c -> In (j, c) (enum l).
Proof.
  intros A l j c. unfold enum. assert (G : forall (l : list A) n j, nth_error l j = Some c -> In ((n + j)%nat, c) (combine (seq n (length l)) l)).
  { induction l0; intros n i Hj; [destruct i; discriminate|]. destruct i; simpl in *.
    - left. f_equal; [lia|congruence].
    - right. replace (n + S i)%nat with (S n + i)%nat by lia. apply IHl0. auto. }
  intro H. apply (G l 0%nat j H).
Qed.

Section Up.
Variables (Ck Cv Hi Wi Ho Wo : nat) (quad : nat -> R) (P : pattern) (k v q dy : fld) (m0 : R).
Let roff := offsets 0 P.
Let col := columns P.
Let N := nbrs_scatter P Hi Wi Wo.
Hypothesis Hquad : forall h, (h < Hi)%nat -> 0 < quad h.
Hypothesis HWi : (1 <= Wi)%nat.
Hypothesis HWo : (1 <= Wo)%nat.
Hypothesis Hdiv : (Wo mod Wi = 0)%nat.
Hypothesis HP : pattern_ok P Hi (Ho * Wo).
Hypothesis Hne : forall ho wo, (ho < Ho)%nat -> (wo < Wo)%nat -> N ho wo <> [].
Let GVu := GV Ck Ho Wo quad N k q dy.
Let GKu := GK Ck Cv Ho Wo quad N k v q dy.
Let GQu := GQ Ck Cv quad N k v q dy.
Lemma HN : forall ho wo p, (ho < Ho)%nat -> (wo < Wo)%nat -> In p (N ho wo) -> (fst p < Hi /\ snd p < Wi)%nat.
Proof. intros. eapply scatter_in; eauto. Qed.
Let ps := (Wo / Wi)%nat.

Lemma up_wo_eq : forall wi c, (wi < Wi)%nat -> up_wo Wi Wo wi c = ((c mod Wo + ps * wi) mod Wo)%nat.
Proof.
  intros wi c Hw. unfold up_wo. fold ps. destruct (up_ratio Wi Wo HWi HWo Hdiv) as (E & L). fold ps in E, L.
  pose proof (Nat.mod_upper_bound c Wo ltac:(lia)). assert (ps * wi < Wo)%nat by nia.
  destruct (Nat.leb_spec Wo (c mod Wo + ps * wi)).
  - apply (Nat.mod_unique _ _ 1); lia.
  - symmetry. apply Nat.mod_small. lia.
Qed.
Lemma up_row : forall hi, (hi < Hi)%nat -> csr_row roff col hi = nth hi P [].
Proof. intros. apply csr_row_spec. destruct HP. lia. Qed.
Lemma diff_eq : forall wo wc, (wo < Wo)%nat -> (wc < Wo)%nat -> (if (wo <? wc)%nat then wo + Wo - wc else wo - wc)%nat = ((wo + Wo - wc) mod Wo)%nat.
Proof.
  intros. destruct (Nat.ltb_spec wo wc); [symmetry; apply Nat.mod_small; lia|apply (Nat.mod_unique _ _ 1); lia].
Qed.
Lemma match_sum : forall ho wo F, (wo < Wo)%nat -> rlsum (fun e => F (fst (fst e), snd e)) (up_match Hi Wi Wo roff col ho wo) = rlsum F (N ho wo).
Proof.
  intros ho wo F Hw. unfold N. rewrite <- (scan_scatter Hi Wi Ho Wo P HWi HWo Hdiv HP F ho wo Hw). unfold up_match. rewrite (lsum_flat_map RT).
  apply rlsum_ext. intros e _. unfold up_wi. rewrite diff_eq by (auto; apply Nat.mod_upper_bound; lia).
  destruct (_ =? 0)%nat; [|reflexivity]. rewrite rlsum_cons. cbn [fst snd]. simpl. ring.
Qed.
(** the matches of a cell *)
Lemma match_in : forall ho wo hi j wi, (wo < Wo)%nat ->
  In (hi, j, wi) (up_match Hi Wi Wo roff col ho wo) <->
  (hi < Hi /\ wi < Wi)%nat /\ exists c, nth_error (csr_row roff col hi) j = Some c /\ (c / Wo)%nat = ho /\ up_wo Wi Wo wi c = wo.
Proof.
  intros ho wo hi j wi Hw. destruct (up_ratio Wi Wo HWi HWo Hdiv) as (E & L). fold ps in E, L.
  unfold up_match. rewrite in_flat_map. split.
  - intros ((hi', (j', c)) & H1 & H2). unfold up_scan in H1. apply in_flat_map in H1. destruct H1 as (h2 & H0 & H1). apply in_map_iff in H1.
    destruct H1 as ((j2, c2) & [= -> -> ->] & H1). apply filter_In in H1. cbn [fst snd] in *. destruct H1 as (H1 & Hc). apply Nat.eqb_eq in Hc.
    apply in_seq in H0. pose proof (Nat.mod_upper_bound c Wo ltac:(lia)) as Lc. rewrite diff_eq in H2 by auto.
    fold ps in H2. set (d := ((wo + Wo - c mod Wo) mod Wo)%nat) in *. assert (Ld : (d < Wo)%nat) by (apply Nat.mod_upper_bound; lia).
    destruct (Nat.eqb_spec (d mod ps) 0); [|destruct H2]. destruct H2 as [[= -> -> <-]|[]].
    assert (Ed : (d = ps * (d / ps))%nat) by (pose proof (Nat.div_mod d ps ltac:(lia)); lia).
    assert (Lw : (d / ps < Wi)%nat) by (apply Nat.div_lt_upper_bound; lia).
    split; [split; [lia|auto]|]. exists c. apply enum_nth in H1. cbn [fst snd] in H1. split; [tauto|]. split; [auto|].
    rewrite up_wo_eq by auto. rewrite <- Ed. apply (wrap_solve Wo (c mod Wo) d wo); auto.
  - intros ((H1 & H2) & c & Hj & Hc & Ew). exists (hi, (j, c)). cbn [fst snd]. split.
    + unfold up_scan. apply in_flat_map. exists hi. split; [apply in_seq; lia|]. apply in_map_iff. exists (j, c). split; [reflexivity|].
      apply filter_In. cbn [snd]. split; [apply enum_intro; auto|apply Nat.eqb_eq; auto].
    + pose proof (Nat.mod_upper_bound c Wo ltac:(lia)) as Lc. rewrite diff_eq by auto. fold ps.
      rewrite up_wo_eq in Ew by auto. assert (Lp : (ps * wi < Wo)%nat) by nia.
      apply (proj1 (wrap_solve Wo (c mod Wo) (ps * wi) wo Lc Lp Hw)) in Ew. rewrite <- Ew.
      rewrite (Nat.mul_comm ps wi), Nat.mod_mul, Nat.div_mul by lia. left. reflexivity.
Qed.
Let mA b ho wo := fold_left Rmax (map (fun e => qdotk Ck k q b ho wo (fst (fst e), snd e)) (up_match Hi Wi Wo roff col ho wo)) m0.
Let al b ho wo := alm Ck quad k q b ho wo (mA b ho wo).
Let gd b ho wo := g_dot Cv v dy b ho wo.
Let off := up_nz_off Hi Wi roff.

Definition u_ok (x : nat * nat * nat) (st : bufs) : Prop :=
  let '(b, ho, wo) := x in
  (forall hi j wi, In (hi, j, wi) (up_match Hi Wi Wo roff col ho wo) ->
     alpha_nz st (off b hi j wi) = al b ho wo (hi, wi) /\ gdotv_nz st (off b hi j wi) = gd b ho wo (hi, wi)) /\
  alpha_sum st (sc_off Ho Wo b ho wo) = rlsum (al b ho wo) (N ho wo) /\
  alpha_gdotv st (sc_off Ho Wo b ho wo) = rlsum (fun p => al b ho wo p * gd b ho wo p) (N ho wo).
Lemma off_inj : forall b hi j wi b' hi' j' wi', (hi < Hi)%nat -> (hi' < Hi)%nat -> (wi < Wi)%nat -> (wi' < Wi)%nat ->
  (j < length (csr_row roff col hi))%nat -> (j' < length (csr_row roff col hi'))%nat ->
  off b hi j wi = off b' hi' j' wi' -> b = b' /\ hi = hi' /\ j = j' /\ wi = wi'.
Proof.
  intros b hi j wi b' hi' j' wi' H1 H2 H3 H4 H5 H6 E. unfold off, up_nz_off in E.
  pose proof (csr_row_len roff col hi). pose proof (csr_row_len roff col hi').
  pose proof (max_nnz_bound roff Hi hi H1). pose proof (max_nnz_bound roff Hi hi' H2). set (M := max_nnz roff Hi) in *.
  assert (E1 : (Wi * ((b * Hi + hi) * M + j) + wi = Wi * ((b' * Hi + hi') * M + j') + wi')%nat) by (rewrite !(Nat.mul_comm Wi); exact E).
  destruct (Nat.div_mod_unique Wi _ _ _ _ H3 H4 E1) as (E2 & E3).
  assert (E4 : (M * (b * Hi + hi) + j = M * (b' * Hi + hi') + j')%nat) by (rewrite !(Nat.mul_comm M); exact E2).
  assert (J1 : (j < M)%nat) by lia. assert (J2 : (j' < M)%nat) by lia.
  destruct (Nat.div_mod_unique M _ _ _ _ J1 J2 E4) as (E5 & E6).
  assert (E7 : (Hi * b + hi = Hi * b' + hi')%nat) by lia.
  destruct (Nat.div_mod_unique Hi _ _ _ _ H1 H2 E7) as (E8 & E9). auto.
Qed.
(** writing values that are a function of the key *)
Lemma put_in : forall A (l : list A) (idx : A -> nat) (f : A -> R) a x, In x l ->
  (forall y, In y l -> idx y = idx x -> f y = f x) -> fold_left (fun a y => aset (idx y) (f y) a) l a (idx x) = f x.
Proof.
  intros A l idx f a x. revert a.
  assert (G : forall l a, (forall y, In y l -> idx y = idx x -> f y = f x) -> a (idx x) = f x -> fold_left (fun a y => aset (idx y) (f y) a) l a (idx x) = f x).
  { induction l0; intros a0 H E; [exact E|]. cbn [fold_left]. apply IHl0; [intros; apply H; auto; right; auto|].
    destruct (Nat.eq_dec (idx a) (idx x)) as [D|D]; [rewrite <- D, aset_same, (H a (or_introl eq_refl) D); reflexivity|]. rewrite aset_other by auto. exact E. }
  induction l; intros a0 Hx H; [destruct Hx|]. cbn [fold_left]. destruct Hx as [->|Hx].
  - apply G; [intros; apply H; auto; right; auto|apply aset_same].
  - apply IHl; auto. intros; apply H; auto; right; auto.
Qed.
Lemma put_out : forall A (l : list A) (idx : A -> nat) (f : A -> R) a i, (forall y, In y l -> idx y <> i) -> fold_left (fun a y => aset (idx y) (f y) a) l a i = a i.
Proof.
  intros A l idx f. induction l; intros a0 i H; [reflexivity|]. cbn [fold_left]. rewrite IHl by (intros; apply H; right; auto).
  apply aset_other. intro E. apply (H a (or_introl eq_refl)). auto.
Qed.
Lemma put_map : forall b (ms : list (nat * nat * nat)) (f : nat * nat * nat -> R) a,
  fold_left (fun a (x : (nat * nat * nat) * R) => let '((hi, j, wi), r) := x in aset (up_nz_off Hi Wi roff b hi j wi) r a) (combine ms (map f ms)) a =
  fold_left (fun a y => aset (off b (fst (fst y)) (snd (fst y)) (snd y)) (f y) a) ms a.
Proof.
  intros b ms f. induction ms; intros a0; [reflexivity|]. cbn [map combine fold_left]. destruct a as ((hi, j), wi). apply IHms.
Qed.
Lemma up_cell_ok : forall b ho wo st, (ho < Ho)%nat -> (wo < Wo)%nat -> u_ok (b, ho, wo) (up_phase_a_cell Ck Cv Hi Wi Ho Wo quad roff col k v q dy m0 st (b, ho, wo)).
Proof.
  intros b ho wo st Hh Hw. unfold up_phase_a_cell, u_ok. cbv zeta. set (ms := up_match Hi Wi Wo roff col ho wo).
  rewrite combine_map_r, map_map. cbn [fst snd].
  change (map (fun x => exp (qdotk Ck k q b ho wo (fst (fst x), snd x) - fold_left Rmax (map (fun e => qdotk Ck k q b ho wo (fst (fst e), snd e)) ms) m0) * quad (fst (fst x))) ms)
    with (map (fun e : nat * nat * nat => al b ho wo (fst (fst e), snd e)) ms).
  change (map (fun e => gdotv Cv v dy b ho wo (fst (fst e), snd e)) ms) with (map (fun e : nat * nat * nat => gd b ho wo (fst (fst e), snd e)) ms).
  rewrite !put_map. cbn [alpha_nz gdotv_nz alpha_sum alpha_gdotv]. split; [|split].
  - intros hi j wi Hm. pose proof Hm as Hm'. apply match_in in Hm'; auto. destruct Hm' as ((L1 & L2) & c & Hj & _).
    pose proof (proj1 (nth_error_Some (csr_row roff col hi) j) ltac:(congruence)) as Lj.
    assert (Q : forall F : nat * nat -> R, forall a,
       fold_left (fun a (y : nat * nat * nat) => aset (off b (fst (fst y)) (snd (fst y)) (snd y)) (F (fst (fst y), snd y)) a) ms a (off b hi j wi) = F (hi, wi)).
    { intros F a. apply (put_in _ ms (fun y => off b (fst (fst y)) (snd (fst y)) (snd y)) (fun y => F (fst (fst y), snd y)) a (hi, j, wi) Hm).
      intros ((hi', j'), wi') Hm2 E. cbn [fst snd] in *. apply match_in in Hm2; auto. destruct Hm2 as ((L3 & L4) & c' & Hj' & _).
      pose proof (proj1 (nth_error_Some (csr_row roff col hi') j') ltac:(congruence)) as Lj'.
      apply off_inj in E; auto. destruct E as (_ & -> & _ & ->). reflexivity. }
    split; apply Q.
  - rewrite aset_same, fold_plus, lsum_map, Rplus_0_l. apply (match_sum ho wo (al b ho wo)). auto.
  - rewrite aset_same, combine_maps. rewrite (fold_obs _ _ (fun a : R => a) _ (fun x => fst x * snd x)) by reflexivity. rewrite lsum_map. cbn [fst snd].
    rewrite Rplus_0_l. apply (match_sum ho wo (fun p => al b ho wo p * gd b ho wo p)). auto.
Qed.
Lemma up_phase_a_spec : forall B b ho wo, (b < B)%nat -> (ho < Ho)%nat -> (wo < Wo)%nat -> u_ok (b, ho, wo) (up_phase_a Ck Cv Hi Wi Ho Wo quad roff col k v q dy m0 B).
Proof.
  intros B b ho wo Hb Hh Hw. unfold up_phase_a. apply (fold_stays _ _ _ u_ok).
  - intros ((b', ho'), wo') st Hx. apply cells3_in in Hx. apply up_cell_ok; lia.
  - intros ((b1, ho1), wo1) ((b2, ho2), wo2) st Hx Hy Ok. apply cells3_in in Hx. apply cells3_in in Hy.
    destruct (Nat.eq_dec (sc_off Ho Wo b1 ho1 wo1) (sc_off Ho Wo b2 ho2 wo2)) as [E|D].
    + apply sc_off_inj in E; try lia. destruct E as (-> & -> & ->). apply up_cell_ok; lia.
    + destruct Ok as (O1 & O2 & O3). unfold up_phase_a_cell. cbv zeta. set (ms := up_match Hi Wi Wo roff col ho2 wo2).
      rewrite combine_map_r, map_map. cbn [fst snd]. rewrite !put_map. unfold u_ok. cbn [alpha_nz gdotv_nz alpha_sum alpha_gdotv].
      rewrite !aset_other by auto. split; [|split; auto].
      intros hi j wi Hm. pose proof Hm as Hm'. apply match_in in Hm'; [|lia]. destruct Hm' as ((L1 & L2) & c & Hj & Ec & Ew).
      pose proof (proj1 (nth_error_Some (csr_row roff col hi) j) ltac:(congruence)) as Lj.
      assert (Q : forall (y : nat * nat * nat), In y ms -> off b2 (fst (fst y)) (snd (fst y)) (snd y) <> off b1 hi j wi).
      { intros ((hi', j'), wi') Hm2 E. cbn [fst snd] in E. apply match_in in Hm2; [|lia]. destruct Hm2 as ((L3 & L4) & c' & Hj' & Ec' & Ew').
        pose proof (proj1 (nth_error_Some (csr_row roff col hi') j') ltac:(congruence)) as Lj'.
        apply off_inj in E; auto. destruct E as (-> & -> & -> & ->). rewrite Hj in Hj'. injection Hj' as <-. apply D. congruence. }
      rewrite (put_out _ ms (fun y => off b2 (fst (fst y)) (snd (fst y)) (snd y))), (put_out _ ms (fun y => off b2 (fst (fst y)) (snd (fst y)) (snd y))) by auto.
      apply O1; auto.
  - apply cells3_in. auto.
Qed.

Variables (B b : nat).
Hypothesis Hb : (b < B)%nat.
Let bf := up_phase_a Ck Cv Hi Wi Ho Wo quad roff col k v q dy m0 B.
Lemma ubf_sum_pos : forall ho wo, (ho < Ho)%nat -> (wo < Wo)%nat -> 0 < alpha_sum bf (sc_off Ho Wo b ho wo).
Proof.
  intros. destruct (up_phase_a_spec B b ho wo Hb H H0) as (_ & E & _). unfold bf. rewrite E.
  apply (alm_pos Ck Hi Wi Ho Wo quad N k q Hquad HN Hne); auto.
Qed.
Lemma entry_cell : forall hi wi jc, (hi < Hi)%nat -> (wi < Wi)%nat -> In jc (enum (csr_row roff col hi)) ->
  let ho := (snd jc / Wo)%nat in let wo := up_wo Wi Wo wi (snd jc) in
  (ho < Ho)%nat /\ (wo < Wo)%nat /\ In (hi, fst jc, wi) (up_match Hi Wi Wo roff col ho wo).
Proof.
  intros hi wi jc H1 H2 Hj ho wo. pose proof (enum_in _ _ _ Hj) as Hc. rewrite up_row in Hc by auto.
  eapply row_bound in Hc; [|exact HP]. apply col_split in Hc. apply enum_nth in Hj. destruct Hj as (Hj & _).
  assert (Lw : (wo < Wo)%nat) by (unfold wo; rewrite up_wo_eq by auto; apply Nat.mod_upper_bound; lia).
  split; [apply Hc|]. split; [exact Lw|]. apply match_in; auto. split; auto. exists (snd jc). auto.
Qed.
Lemma ubf_prob : forall hi wi jc, (hi < Hi)%nat -> (wi < Wi)%nat -> In jc (enum (csr_row roff col hi)) ->
  let ho := (snd jc / Wo)%nat in let wo := up_wo Wi Wo wi (snd jc) in
  alpha_nz bf (off b hi (fst jc) wi) * (1 / alpha_sum bf (sc_off Ho Wo b ho wo)) = g_prob Ck quad N k q b ho wo (hi, wi).
Proof.
  intros hi wi jc H1 H2 Hj ho wo. destruct (entry_cell hi wi jc H1 H2 Hj) as (Lh & Lw & Hm). fold ho wo in Lh, Lw, Hm.
  destruct (up_phase_a_spec B b ho wo Hb Lh Lw) as (E1 & E2 & _). destruct (E1 _ _ _ Hm) as (Ea & _). unfold bf. rewrite Ea, E2.
  rewrite <- (alm_prob Ck Hi Wi Ho Wo quad N k q Hquad HN Hne b ho wo (mA b ho wo) Lh Lw). unfold al, Rdiv. ring.
Qed.
Lemma ubf_wt : forall hi wi jc, (hi < Hi)%nat -> (wi < Wi)%nat -> In jc (enum (csr_row roff col hi)) ->
  let ho := (snd jc / Wo)%nat in let wo := up_wo Wi Wo wi (snd jc) in
  alpha_nz bf (off b hi (fst jc) wi) * (1 / alpha_sum bf (sc_off Ho Wo b ho wo)) *
    (gdotv_nz bf (off b hi (fst jc) wi) - alpha_gdotv bf (sc_off Ho Wo b ho wo) * (1 / alpha_sum bf (sc_off Ho Wo b ho wo))) =
  g_wt Ck Cv quad N k v q dy b ho wo (hi, wi).
Proof.
  intros hi wi jc H1 H2 Hj ho wo. unfold ho, wo. rewrite ubf_prob by auto. fold ho wo. unfold g_wt. f_equal.
  destruct (entry_cell hi wi jc H1 H2 Hj) as (Lh & Lw & Hm). fold ho wo in Lh, Lw, Hm.
  destruct (up_phase_a_spec B b ho wo Hb Lh Lw) as (E1 & E2 & E3). destruct (E1 _ _ _ Hm) as (_ & Eg). unfold bf. rewrite Eg, E2, E3.
  unfold gd. f_equal. unfold g_bar. rewrite <- (alm_avg Ck Hi Wi Ho Wo quad N k q Hquad HN Hne b ho wo (mA b ho wo) Lh Lw). unfold al, gd, Rdiv. ring.
Qed.
(** a sum over the entries of all rows is a sum over cells and neighbours *)
Lemma entries_cells : forall (H : nat * nat -> nat * nat -> R),
  rsum Hi (fun hi => rlsum (fun jc => rsum Wi (fun wi => H (hi, wi) (snd jc / Wo, up_wo Wi Wo wi (snd jc))%nat)) (enum (csr_row roff col hi))) =
  rsum Ho (fun ho => rsum Wo (fun wo => rlsum (fun p => H p (ho, wo)) (N ho wo))).
Proof.
  intros H. unfold N. rewrite <- (trips_cells Hi Wi Ho Wo P HWi HWo Hdiv HP H). rewrite (trips_sum Hi Wi Ho Wo P HWi HWo Hdiv HP), (lsum_seq RT).
  apply rsum_ext'. intros hi Hh. rewrite (lsum_seq RT), <- rlsum_rsum_swap. rewrite up_row by auto.
  rewrite (enum_sum _ (fun c => rsum Wi (fun wi => H (hi, wi) (c / Wo, up_wo Wi Wo wi c)%nat))).
  apply rlsum_ext. intros c _. apply rsum_ext'. intros wi Hw. rewrite up_wo_eq by auto. reflexivity.
Qed.
Lemma entries_row : forall h w (H : nat * nat -> R), (h < Hi)%nat -> (w < Wi)%nat ->
  rlsum (fun jc => H (snd jc / Wo, up_wo Wi Wo w (snd jc))%nat) (enum (csr_row roff col h)) =
  rsum Ho (fun ho => rsum Wo (fun wo => rlsum (fun p => if pt_eqb (h, w) p then H (ho, wo) else 0) (N ho wo))).
Proof.
  intros h w H Hh Hw. rewrite <- (entries_cells (fun p cl => if pt_eqb (h, w) p then H cl else 0)).
  rewrite (rsum_ext' Hi _ (fun hi => if (hi =? h)%nat then rlsum (fun jc => H (snd jc / Wo, up_wo Wi Wo w (snd jc))%nat) (enum (csr_row roff col h)) else 0)).
  - rewrite (bsum_delta RT) by auto. reflexivity.
  - intros hi _. unfold pt_eqb. cbn [fst snd]. rewrite (Nat.eqb_sym h). destruct (Nat.eqb_spec hi h); cbn [andb].
    + subst. apply rlsum_ext. intros jc _.
      rewrite (rsum_ext' Wi _ (fun wi => if (wi =? w)%nat then H (snd jc / Wo, up_wo Wi Wo wi (snd jc))%nat else 0)) by (intros; rewrite (Nat.eqb_sym w); reflexivity).
      apply (bsum_delta_f RT Wi w (fun wi => H (snd jc / Wo, up_wo Wi Wo wi (snd jc))%nat)); auto.
    + apply rlsum_zero. intros. apply (bsum_zero RT).
Qed.
Lemma up_phase_b_hi_dk : forall ci hi dqy w, (hi < Hi)%nat -> (w < Wi)%nat -> fst (up_phase_b_hi Hi Wi Ho Wo roff col k q bf b ci hi dqy) w = GKu b hi w ci.
Proof.
  intros ci hi dqy w Hh Hw. unfold up_phase_b_hi.
  rewrite (fold_obs _ _ (fun st : (nat -> R) * (nat -> R) => fst st w) _
    (fun jc => (fun cl => q b (fst cl) (snd cl) ci * g_wt Ck Cv quad N k v q dy b (fst cl) (snd cl) (hi, w)) (snd jc / Wo, up_wo Wi Wo w (snd jc))%nat)).
  - cbn [fst]. rewrite Rplus_0_l. etransitivity; [exact (entries_row hi w (fun cl => q b (fst cl) (snd cl) ci * g_wt Ck Cv quad N k v q dy b (fst cl) (snd cl) (hi, w)) Hh Hw)|].
    unfold GKu, GK. apply rsum_ext'. intros ho _. apply rsum_ext'. intros wo _. apply rlsum_ext. intros p _.
    destruct (pt_eqb (hi, w) p) eqn:E; [|reflexivity]. apply pt_eqb_iff in E. subst p. reflexivity.
  - intros st jc Hj.
    rewrite (fold_obs _ _ (fun st : (nat -> R) * (nat -> R) => fst st w) _
     (fun wi => if (wi =? w)%nat then q b (snd jc / Wo)%nat (up_wo Wi Wo w (snd jc)) ci * g_wt Ck Cv quad N k v q dy b (snd jc / Wo)%nat (up_wo Wi Wo w (snd jc)) (hi, w) else 0)).
    + rewrite (lsum_seq RT), (bsum_delta RT) by auto. reflexivity.
    + clear st. intros (drow, dq) wi Hwi. apply in_seq in Hwi. cbv zeta. cbn [fst]. rewrite aset_add. fold off. rewrite ubf_wt by (auto; lia).
      rewrite (Nat.eqb_sym w). destruct (Nat.eqb_spec wi w); [subst; reflexivity|ring].
Qed.
Lemma up_phase_b_hi_dq : forall ci hi dqy ho wo, (hi < Hi)%nat -> (ho < Ho)%nat -> (wo < Wo)%nat ->
  snd (up_phase_b_hi Hi Wi Ho Wo roff col k q bf b ci hi dqy) (ho * Wo + wo)%nat =
  dqy (ho * Wo + wo)%nat + rlsum (fun jc => rsum Wi (fun wi => (fun p cl => if pt_eqb (ho, wo) cl then g_wt Ck Cv quad N k v q dy b ho wo p * k b (fst p) (snd p) ci else 0)
      (hi, wi) (snd jc / Wo, up_wo Wi Wo wi (snd jc))%nat)) (enum (csr_row roff col hi)).
Proof.
  intros ci hi dqy ho wo Hhi Hh Hw. unfold up_phase_b_hi.
  rewrite (fold_obs _ _ (fun st : (nat -> R) * (nat -> R) => snd st (ho * Wo + wo)%nat) _
    (fun jc => rsum Wi (fun wi => (fun p cl => if pt_eqb (ho, wo) cl then g_wt Ck Cv quad N k v q dy b ho wo p * k b (fst p) (snd p) ci else 0)
      (hi, wi) (snd jc / Wo, up_wo Wi Wo wi (snd jc))%nat))); [reflexivity|].
  intros st jc Hj.
  rewrite (fold_obs _ _ (fun st : (nat -> R) * (nat -> R) => snd st (ho * Wo + wo)%nat) _
     (fun wi => if pt_eqb (ho, wo) (snd jc / Wo, up_wo Wi Wo wi (snd jc))%nat then g_wt Ck Cv quad N k v q dy b ho wo (hi, wi) * k b hi wi ci else 0)).
  + rewrite (lsum_seq RT). reflexivity.
  + clear st. intros (drow, dq) wi Hwi. apply in_seq in Hwi. cbv zeta. cbn [snd]. rewrite aset_add.
    destruct (entry_cell hi wi jc Hhi ltac:(lia) Hj) as (Lh & Lw & _). cbv zeta in Lh, Lw. rewrite flat_eqb by auto. f_equal.
    destruct (pt_eqb (ho, wo) _) eqn:E; [|reflexivity]. apply pt_eqb_iff in E. injection E as E1 E2.
    fold off. rewrite ubf_wt by (auto; lia). rewrite <- E1, <- E2. ring.
Qed.
Lemma up_phase_b_spec : forall ci,
  (forall h w, (h < Hi)%nat -> (w < Wi)%nat -> fst (up_phase_b Hi Wi Ho Wo roff col k q bf b ci) h w = GKu b h w ci) /\
  (forall ho wo, (ho < Ho)%nat -> (wo < Wo)%nat -> snd (up_phase_b Hi Wi Ho Wo roff col k q bf b ci) (ho * Wo + wo)%nat = GQu b ho wo ci).
Proof.
  intros ci. split.
  - intros h w Hh Hw. unfold up_phase_b.
    rewrite (fold_obs _ _ (fun st : (nat -> nat -> R) * (nat -> R) => fst st h w) _ (fun hi => if (hi =? h)%nat then GKu b h w ci else 0)).
    { cbn [fst]. rewrite (lsum_seq RT), (bsum_delta RT) by auto. apply Rplus_0_l. }
    intros (dk, dq) hi Hhi. apply in_seq in Hhi. pose proof (up_phase_b_hi_dk ci hi dq w ltac:(lia) Hw) as E.
    destruct (up_phase_b_hi _ _ _ _ _ _ _ _ _ _ _ _ dq) as (drow, dq'). cbn [fst] in *.
    rewrite E. rewrite (Nat.eqb_sym hi). replace (w <? Wi)%nat with true by (symmetry; apply Nat.ltb_lt; auto). rewrite andb_true_r.
    destruct (Nat.eqb_spec h hi); [subst; reflexivity|ring].
  - intros ho wo Hh Hw. unfold up_phase_b.
    set (H := fun p cl => if pt_eqb (ho, wo) cl then g_wt Ck Cv quad N k v q dy b ho wo p * k b (fst p) (snd p) ci else 0).
    rewrite (fold_obs _ _ (fun st : (nat -> nat -> R) * (nat -> R) => snd st (ho * Wo + wo)%nat) _
      (fun hi => rlsum (fun jc => rsum Wi (fun wi => H (hi, wi) (snd jc / Wo, up_wo Wi Wo wi (snd jc))%nat)) (enum (csr_row roff col hi)))).
    + cbn [snd]. rewrite (lsum_seq RT), entries_cells, Rplus_0_l. unfold GQu, GQ, H.
      transitivity (rsum Ho (fun h => rsum Wo (fun w => if pt_eqb (h, w) (ho, wo) then rlsum (fun p => g_wt Ck Cv quad N k v q dy b ho wo p * k b (fst p) (snd p) ci) (N h w) else 0))).
      * apply rsum_ext'. intros h _. apply rsum_ext'. intros w _. unfold pt_eqb. cbn [fst snd]. rewrite (Nat.eqb_sym ho), (Nat.eqb_sym wo).
        destruct (_ && _)%bool; [reflexivity|]. apply rlsum_zero. auto.
      * apply (pick_point Ho Wo (fun cl => rlsum (fun p => g_wt Ck Cv quad N k v q dy b ho wo p * k b (fst p) (snd p) ci) (N (fst cl) (snd cl))) (ho, wo) Hh Hw).
    + intros (dk, dq) hi Hhi. apply in_seq in Hhi. pose proof (up_phase_b_hi_dq ci hi dq ho wo ltac:(lia) Hh Hw) as E.
      destruct (up_phase_b_hi _ _ _ _ _ _ _ _ _ _ _ _ dq) as (drow, dq'). exact E.
Qed.
Lemma up_phase_c_spec : forall co h w, (h < Hi)%nat -> (w < Wi)%nat -> up_phase_c Hi Wi Ho Wo roff col dy bf b co h w = GVu b h w co.
Proof.
  intros co h w Hh Hw. unfold up_phase_c.
  assert (E : forall hi, (hi < Hi)%nat -> up_phase_c_hi Hi Wi Ho Wo roff col dy bf b co hi w = GVu b hi w co).
  { intros hi Hhi. unfold up_phase_c_hi.
    rewrite (fold_obs _ _ (fun st : nat -> R => st w) _
      (fun jc => (fun cl => g_prob Ck quad N k q b (fst cl) (snd cl) (hi, w) * dy b (fst cl) (snd cl) co) (snd jc / Wo, up_wo Wi Wo w (snd jc))%nat)).
    - rewrite Rplus_0_l. etransitivity; [exact (entries_row hi w (fun cl => g_prob Ck quad N k q b (fst cl) (snd cl) (hi, w) * dy b (fst cl) (snd cl) co) Hhi Hw)|].
      unfold GVu, GV. apply rsum_ext'. intros ho _. apply rsum_ext'. intros wo _. apply rlsum_ext. intros p _.
      destruct (pt_eqb (hi, w) p) eqn:E; [|reflexivity]. apply pt_eqb_iff in E. subst p. reflexivity.
    - intros st jc Hj.
      rewrite (fold_obs _ _ (fun st : nat -> R => st w) _
       (fun wi => if (wi =? w)%nat then g_prob Ck quad N k q b (snd jc / Wo)%nat (up_wo Wi Wo w (snd jc)) (hi, w) * dy b (snd jc / Wo)%nat (up_wo Wi Wo w (snd jc)) co else 0)).
      + rewrite (lsum_seq RT), (bsum_delta RT) by auto. reflexivity.
      + clear st. intros drow wi Hwi. apply in_seq in Hwi. cbv zeta. rewrite aset_add. fold off. rewrite ubf_prob by (auto; lia).
        rewrite (Nat.eqb_sym w). destruct (Nat.eqb_spec wi w); [subst; reflexivity|ring]. }
  rewrite (fold_obs _ _ (fun st : nat -> nat -> R => st h w) _ (fun hi => if (hi =? h)%nat then GVu b h w co else 0)).
  { rewrite (lsum_seq RT), (bsum_delta RT) by auto. apply Rplus_0_l. }
  intros st hi Hhi. apply in_seq in Hhi. rewrite E by lia. rewrite (Nat.eqb_sym hi). replace (w <? Wi)%nat with true by (symmetry; apply Nat.ltb_lt; auto). rewrite andb_true_r.
  destruct (Nat.eqb_spec h hi); [subst; reflexivity|ring].
Qed.
End Up.

Theorem cpu_up_bwd_spec : forall Ck Cv Hi Wi Ho Wo quad P k v q dy m0, let N := nbrs_scatter P Hi Wi Wo in
  (forall h, (h < Hi)%nat -> 0 < quad h) -> (1 <= Wi)%nat -> (1 <= Wo)%nat -> (Wo mod Wi = 0)%nat -> pattern_ok P Hi (Ho * Wo) ->
  (forall ho wo, (ho < Ho)%nat -> (wo < Wo)%nat -> N ho wo <> []) ->
  forall B, exists dk dv dq, cpu_up_bwd Ck Cv Hi Wi Ho Wo quad (offsets 0 P) (columns P) k v q dy m0 B = Some (dk, dv, dq) /\
  (forall b h w c, (b < B)%nat -> (h < Hi)%nat -> (w < Wi)%nat -> dk b h w c = GK Ck Cv Ho Wo quad N k v q dy b h w c) /\
  (forall b h w c, (b < B)%nat -> (h < Hi)%nat -> (w < Wi)%nat -> dv b h w c = GV Ck Ho Wo quad N k q dy b h w c) /\
  (forall b h w c, (b < B)%nat -> (h < Ho)%nat -> (w < Wo)%nat -> dq b h w c = GQ Ck Cv quad N k v q dy b h w c).
Proof.
  intros Ck Cv Hi Wi Ho Wo quad P k v q dy m0 N Hquad HWi HWo Hdiv HP Hne B. unfold cpu_up_bwd. rewrite csr_ok_spec by auto. cbn [guard bindo]. cbv zeta.
  rewrite guard_true.
  - do 3 eexists. split; [reflexivity|]. split; [|split].
    + intros b h w c Hb Hh Hw. eapply up_phase_b_spec; eauto.
    + intros b h w c Hb Hh Hw. eapply up_phase_c_spec; eauto.
    + intros b h w c Hb Hh Hw. cbv beta. eapply up_phase_b_spec; eauto.
  - apply forallb_forall. intros ((b, ho), wo) Hc. apply cells3_in in Hc. apply orb_true_iff. right. apply nz_true. apply Rgt_not_eq.
    eapply ubf_sum_pos; eauto; lia.
Qed.
