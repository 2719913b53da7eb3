(** The CPU backward kernels return the same three gradients. *)
From Coq Require Import List Arith Lia Bool Reals Lra.
From Verif Require Import TensorModel TensorProofs BigSum DiscoModel DiscoSortProofs AttnModel AttnSpec AttnCoreProofs AttnKernelProofs AttnUpProofs AttnGradProofs AttnBwdProofs.
Import ListNotations.
Local Open Scope R_scope.

Lemma fold_stays : forall S X (step : S -> X -> S) (ok : X -> S -> Prop) l,
  (forall x st, In x l -> ok x (step st x)) ->
  (forall x y st, In x l -> In y l -> ok x st -> ok x (step st y)) ->
  forall x st, In x l -> ok x (fold_left step l st).
Proof.
  intros S X step ok l H1 H2.
  assert (G : forall l', incl l' l -> forall x st, In x l -> ok x st -> ok x (fold_left step l' st)).
  { induction l'; intros Hi x st Hx Ho; [exact Ho|]. cbn [fold_left]. apply IHl'; auto.
    - intros z Hz. apply Hi. right; auto.
    - apply H2; auto. apply Hi. left; auto. }
  assert (G2 : forall l', incl l' l -> forall x st, In x l' -> ok x (fold_left step l' st)).
  { induction l'; intros Hi x st Hx; [destruct Hx|]. cbn [fold_left]. destruct Hx as [->|Hx].
    - apply G; [intros z Hz; apply Hi; right; auto|apply Hi; left; auto|apply H1, Hi; left; auto].
    - apply IHl'; auto. intros z Hz. apply Hi. right; auto. }
  intros. apply G2; auto. intros z Hz; auto.
Qed.
Lemma cells3_in : forall Ho Wo B b ho wo, In (b, ho, wo) (cells3 Ho Wo B) <-> (b < B /\ ho < Ho /\ wo < Wo)%nat.
Proof.
  intros. unfold cells3. rewrite in_flat_map. split.
  - intros (x & H1 & H2). apply in_map_iff in H2. destruct H2 as ((y, z) & [= <- <- <-] & H2). apply in_seq in H1. apply cells_in in H2. lia.
  - intros (A & C & D). exists b. split; [apply in_seq; lia|]. apply in_map_iff. exists (ho, wo). split; [reflexivity|]. apply cells_in. auto.
Qed.
Lemma sc_off_inj : forall Ho Wo b ho wo b' ho' wo', (ho < Ho -> wo < Wo -> ho' < Ho -> wo' < Wo ->
  sc_off Ho Wo b ho wo = sc_off Ho Wo b' ho' wo' -> b = b' /\ ho = ho' /\ wo = wo')%nat.
Proof.
  unfold sc_off. intros Ho Wo b ho wo b' ho' wo' H1 H2 H3 H4 E.
  assert (E' : (Wo * (b * Ho + ho) + wo = Wo * (b' * Ho + ho') + wo')%nat) by lia.
  destruct (Nat.div_mod_unique Wo _ _ _ _ H2 H4 E') as (E1 & E2).
  assert (E1' : (Ho * b + ho = Ho * b' + ho')%nat) by lia.
  destruct (Nat.div_mod_unique Ho _ _ _ _ H1 H3 E1') as (E3 & E4). auto.
Qed.
Lemma max_nnz_bound : forall roff rows r, (r < rows)%nat -> (nth (r + 1) roff 0 - nth r roff 0 <= max_nnz roff rows)%nat.
Proof.
  intros roff rows r Hr. unfold max_nnz.
  assert (G : forall l m, (m <= fold_left (fun m r => Nat.max m (nth (r + 1) roff 0 - nth r roff 0)) l m)%nat /\
     forall x, In x l -> (nth (x + 1) roff 0 - nth x roff 0 <= fold_left (fun m r => Nat.max m (nth (r + 1) roff 0 - nth r roff 0)) l m)%nat).
  { induction l; intros m; cbn [fold_left]; [split; [lia|intros x []]|].
    destruct (IHl (Nat.max m (nth (a + 1) roff 0 - nth a roff 0))%nat) as (A & B). split; [lia|]. intros x [->|Hx]; [lia|auto]. }
  apply G. apply in_seq. lia.
Qed.
Lemma csr_row_len : forall roff col r, (length (csr_row roff col r) <= nth (r + 1) roff 0 - nth r roff 0)%nat.
Proof. intros. unfold csr_row, slice. rewrite firstn_length. lia. Qed.
Lemma enum_nth : forall A (l : list A) jc, In jc (enum l) -> nth_error l (fst jc) = Some (snd jc) /\ (fst jc < length l)%nat.
Proof.
  intros A l (j, c) H. unfold enum in H.
  assert (G : forall (l : list A) n, In (j, c) (combine (seq n (length l)) l) -> (n <= j)%nat /\ nth_error l (j - n) = Some c /\ (j - n < length l)%nat).
  { induction l0; intros n Hn; [destruct Hn|]. simpl in Hn. destruct Hn as [[= -> ->]|Hn].
    - rewrite Nat.sub_diag. simpl. split; [lia|split; [reflexivity|lia]].
    - destruct (IHl0 (S n) Hn) as (A1 & A2 & A3). split; [lia|]. replace (j - n)%nat with (S (j - S n)) by lia. simpl. split; [exact A2|lia]. }
  destruct (G l 0%nat H) as (_ & A1 & A2). rewrite Nat.sub_0_r in *. auto.
Qed.
Lemma flat_eqb : forall W h w h' w', (w < W -> w' < W -> (h * W + w =? h' * W + w') = pt_eqb (h, w) (h', w'))%nat.
Proof.
  intros. unfold pt_eqb. cbn [fst snd]. destruct (Nat.eqb_spec (h * W + w) (h' * W + w')).
  - assert (E : (W * h + w = W * h' + w')%nat) by lia. destruct (Nat.div_mod_unique W _ _ _ _ H H0 E) as (-> & ->). rewrite !Nat.eqb_refl. reflexivity.
  - symmetry. apply andb_false_iff. destruct (Nat.eqb_spec h h'); [|auto]. right. apply Nat.eqb_neq. intro. subst. auto.
Qed.
Lemma aset_add : forall i j (x : R) a, aset i (a i + x) a j = a j + (if (j =? i)%nat then x else 0).
Proof. intros. unfold aset. destruct (Nat.eqb_spec j i); [subst; reflexivity|ring]. Qed.
Lemma inv_prob : forall a s g G, s <> 0 -> a * (1 / s) * (g - G * (1 / s)) = a / s * (g - G / s).
Proof. intros. field. auto. Qed.

Section Gather.
Variables (Ck Cv Hi Wi Ho Wo : nat) (quad : nat -> R) (P : pattern) (k v q dy : fld) (m0 : R).
Let roff := offsets 0 P.
Let col := columns P.
Let N := nbrs_gather P Wi Wo.
Hypothesis Hquad : forall h, (h < Hi)%nat -> 0 < quad h.
Hypothesis HWi : (1 <= Wi)%nat.
Hypothesis HWo : (1 <= Wo)%nat.
Hypothesis Hdiv : (Wi mod Wo = 0)%nat.
Hypothesis HP : pattern_ok P Ho (Hi * Wi).
Hypothesis Hne : forall ho wo, (ho < Ho)%nat -> (wo < Wo)%nat -> N ho wo <> [].
Let GVg := GV Ck Ho Wo quad N k q dy.
Let GKg := GK Ck Cv Ho Wo quad N k v q dy.
Let GQg := GQ Ck Cv quad N k v q dy.
Let HN := gather_N Hi Wi Ho Wo P HP.
Let mA b ho wo := fold_left Rmax (map (qdotk Ck k q b ho wo) (N ho wo)) m0.
Let al b ho wo := alm Ck quad k q b ho wo (mA b ho wo).
Let gd b ho wo := g_dot Cv v dy b ho wo.

Lemma cpu_pt_eq : forall wo c, (wo < Wo)%nat -> cpu_pt Wi Wo wo c = gather_pt Wi Wo wo c.
Proof.
  intros wo c Hw. unfold cpu_pt, gather_pt. cbv zeta. f_equal.
  pose proof (Nat.div_mod Wi Wo ltac:(lia)) as E. rewrite Hdiv, Nat.add_0_r in E.
  pose proof (Nat.mod_upper_bound c Wi ltac:(lia)). assert (Wi / Wo * wo < Wi)%nat by nia.
  destruct (Nat.leb_spec Wi (c mod Wi + Wi / Wo * wo)).
  - apply (Nat.mod_unique _ _ 1); lia.
  - symmetry. apply Nat.mod_small. lia.
Qed.
Lemma row_eq : forall ho, (ho < Ho)%nat -> csr_row roff col ho = nth ho P [].
Proof. intros. apply csr_row_spec. destruct HP. lia. Qed.
Lemma cpu_pts : forall ho wo, (ho < Ho)%nat -> (wo < Wo)%nat -> map (cpu_pt Wi Wo wo) (csr_row roff col ho) = N ho wo.
Proof.
  intros. rewrite row_eq by auto. unfold N, nbrs_gather, rotated. apply map_ext. intros. rewrite cpu_pt_eq by auto. reflexivity.
Qed.
Definition a_ok (x : nat * nat * nat) (st : bufs) : Prop :=
  let '(b, ho, wo) := x in
  (forall j c, nth_error (csr_row roff col ho) j = Some c ->
     alpha_nz st (nz_off Ho Wo roff b ho wo + j)%nat = al b ho wo (gather_pt Wi Wo wo c) /\ gdotv_nz st (nz_off Ho Wo roff b ho wo + j)%nat = gd b ho wo (gather_pt Wi Wo wo c)) /\
  alpha_sum st (sc_off Ho Wo b ho wo) = rlsum (al b ho wo) (N ho wo) /\
  alpha_gdotv st (sc_off Ho Wo b ho wo) = rlsum (fun p => al b ho wo p * gd b ho wo p) (N ho wo).
Lemma write_at_in : forall off l a i x, nth_error l i = Some x -> write_at off l a (off + i)%nat = x.
Proof.
  intros. unfold write_at. pose proof (proj1 (nth_error_Some l i) ltac:(congruence)).
  replace ((off <=? off + i) && (off + i <? off + length l))%nat%bool with true by (symmetry; apply andb_true_iff; split; [apply Nat.leb_le|apply Nat.ltb_lt]; lia).
  replace (off + i - off)%nat with i by lia. unfold hdR. apply nth_error_nth. auto.
Qed.
Lemma write_at_out : forall off l a i, (i < off \/ off + length l <= i)%nat -> write_at off l a i = a i.
Proof.
  intros. unfold write_at. destruct (Nat.leb_spec off i), (Nat.ltb_spec i (off + length l)); cbn [andb]; auto. lia.
Qed.
Lemma combine_maps : forall A B C (f : A -> B) (g : A -> C) l, combine (map f l) (map g l) = map (fun a => (f a, g a)) l.
Proof. induction l; simpl; auto. rewrite IHl. reflexivity. Qed.
Lemma phase_a_spec : forall B b ho wo, (b < B)%nat -> (ho < Ho)%nat -> (wo < Wo)%nat ->
  a_ok (b, ho, wo) (phase_a Ck Cv Wi Ho Wo quad roff col k v q dy m0 B).
Proof.
  intros B b ho wo Hb Hh Hw. unfold phase_a.
  assert (F : forall b ho wo st, (ho < Ho)%nat -> (wo < Wo)%nat -> a_ok (b, ho, wo) (phase_a_cell Ck Cv Wi Ho Wo quad roff col k v q dy m0 st (b, ho, wo))).
  { clear b ho wo Hb Hh Hw. intros b ho wo st Hh Hw. unfold phase_a_cell, a_ok. cbv zeta. rewrite cpu_pts by auto.
    rewrite combine_map_r, map_map. cbn [fst snd].
    change (map (fun x => exp (qdotk Ck k q b ho wo x - fold_left Rmax (map (qdotk Ck k q b ho wo) (N ho wo)) m0) * quad (fst x)) (N ho wo)) with (map (al b ho wo) (N ho wo)).
    change (map (gdotv Cv v dy b ho wo) (N ho wo)) with (map (gd b ho wo) (N ho wo)).
    cbn [alpha_nz gdotv_nz alpha_sum alpha_gdotv]. split; [|split].
    - intros j c Hj.
      assert (Ej : nth_error (N ho wo) j = Some (gather_pt Wi Wo wo c)).
      { rewrite <- cpu_pts by auto. rewrite (map_nth_error _ _ _ Hj). rewrite cpu_pt_eq by auto. reflexivity. }
      split; apply write_at_in; apply map_nth_error; auto.
    - rewrite aset_same, fold_plus, lsum_map. apply Rplus_0_l.
    - rewrite aset_same, combine_maps. rewrite (fold_obs _ _ (fun a : R => a) _ (fun x => fst x * snd x)) by reflexivity. rewrite lsum_map. apply Rplus_0_l. }
  apply (fold_stays _ _ _ a_ok).
  - intros ((b', ho'), wo') st Hx. apply cells3_in in Hx. apply F; lia.
  - intros ((b1, ho1), wo1) ((b2, ho2), wo2) st Hx Hy Ok. apply cells3_in in Hx. apply cells3_in in Hy.
    destruct (Nat.eq_dec (sc_off Ho Wo b1 ho1 wo1) (sc_off Ho Wo b2 ho2 wo2)) as [E|D].
    + apply sc_off_inj in E; try lia. destruct E as (-> & -> & ->). apply F; lia.
    + destruct Ok as (O1 & O2 & O3). unfold phase_a_cell. cbv zeta. rewrite cpu_pts by lia. unfold a_ok. cbn [alpha_nz gdotv_nz alpha_sum alpha_gdotv].
      rewrite !aset_other by auto. split; [|split; auto].
      intros j c Hj. pose proof (proj1 (nth_error_Some _ j) ltac:(rewrite Hj; discriminate)) as Lj.
      pose proof (csr_row_len roff col ho1) as L1. pose proof (csr_row_len roff col ho2) as L2.
      pose proof (max_nnz_bound roff Ho ho1 ltac:(lia)) as M1. pose proof (max_nnz_bound roff Ho ho2 ltac:(lia)) as M2.
      assert (LN : length (N ho2 wo2) = length (csr_row roff col ho2)) by (rewrite <- cpu_pts by lia; apply map_length).
      assert (Hout : forall l : list R, length l = length (N ho2 wo2) ->
         (nz_off Ho Wo roff b1 ho1 wo1 + j < nz_off Ho Wo roff b2 ho2 wo2 \/ nz_off Ho Wo roff b2 ho2 wo2 + length l <= nz_off Ho Wo roff b1 ho1 wo1 + j)%nat).
      { intros l El. unfold nz_off. fold (sc_off Ho Wo b1 ho1 wo1). fold (sc_off Ho Wo b2 ho2 wo2). nia. }
      rewrite !write_at_out; [apply O1; auto| |]; apply Hout; rewrite ?combine_map_r, ?map_map, ?map_length; reflexivity.
  - apply cells3_in. auto.
Qed.

Variables (B b : nat).
Hypothesis Hb : (b < B)%nat.
Let bf := phase_a Ck Cv Wi Ho Wo quad roff col k v q dy m0 B.
Lemma bf_sum_pos : forall ho wo, (ho < Ho)%nat -> (wo < Wo)%nat -> 0 < alpha_sum bf (sc_off Ho Wo b ho wo).
Proof.
  intros. destruct (phase_a_spec B b ho wo Hb H H0) as (_ & E & _). unfold bf. rewrite E.
  apply (alm_pos Ck Hi Wi Ho Wo quad N k q Hquad HN Hne); auto.
Qed.
Lemma bf_prob : forall ho wo jc, (ho < Ho)%nat -> (wo < Wo)%nat -> In jc (enum (csr_row roff col ho)) ->
  alpha_nz bf (nz_off Ho Wo roff b ho wo + fst jc)%nat * (1 / alpha_sum bf (sc_off Ho Wo b ho wo)) = g_prob Ck quad N k q b ho wo (gather_pt Wi Wo wo (snd jc)).
Proof.
  intros ho wo jc Hh Hw Hj. apply enum_nth in Hj. destruct Hj as (Hj & _).
  destruct (phase_a_spec B b ho wo Hb Hh Hw) as (E1 & E2 & _). destruct (E1 _ _ Hj) as (Ea & _). unfold bf. rewrite Ea, E2.
  rewrite <- (alm_prob Ck Hi Wi Ho Wo quad N k q Hquad HN Hne b ho wo (mA b ho wo) Hh Hw). unfold al, Rdiv. ring.
Qed.
Lemma bf_wt : forall ho wo jc, (ho < Ho)%nat -> (wo < Wo)%nat -> In jc (enum (csr_row roff col ho)) ->
  alpha_nz bf (nz_off Ho Wo roff b ho wo + fst jc)%nat * (1 / alpha_sum bf (sc_off Ho Wo b ho wo)) *
   (gdotv_nz bf (nz_off Ho Wo roff b ho wo + fst jc)%nat - alpha_gdotv bf (sc_off Ho Wo b ho wo) * (1 / alpha_sum bf (sc_off Ho Wo b ho wo))) =
  g_wt Ck Cv quad N k v q dy b ho wo (gather_pt Wi Wo wo (snd jc)).
Proof.
  intros ho wo jc Hh Hw Hj. rewrite bf_prob by auto. unfold g_wt. f_equal. apply enum_nth in Hj. destruct Hj as (Hj & _).
  destruct (phase_a_spec B b ho wo Hb Hh Hw) as (E1 & E2 & E3). destruct (E1 _ _ Hj) as (_ & Eg). unfold bf. rewrite Eg, E2, E3.
  unfold gd. f_equal. unfold g_bar. rewrite <- (alm_avg Ck Hi Wi Ho Wo quad N k q Hquad HN Hne b ho wo (mA b ho wo) Hh Hw). unfold al, gd, Rdiv. ring.
Qed.
Lemma row_sum : forall ho wo hi (F : nat * nat -> R) w, (ho < Ho)%nat -> (wo < Wo)%nat ->
  rlsum (fun jc => if negb (snd jc / Wi =? hi)%nat then 0 else if (w =? snd (cpu_pt Wi Wo wo (snd jc)))%nat then F (gather_pt Wi Wo wo (snd jc)) else 0) (enum (csr_row roff col ho)) =
  rlsum (fun p => if pt_eqb (hi, w) p then F p else 0) (N ho wo).
Proof.
  intros ho wo hi F w Hh Hw. rewrite <- cpu_pts by auto. rewrite lsum_map.
  rewrite (enum_sum _ (fun c => if negb (c / Wi =? hi)%nat then 0 else if (w =? snd (cpu_pt Wi Wo wo c))%nat then F (gather_pt Wi Wo wo c) else 0)).
  apply rlsum_ext. intros c _. rewrite cpu_pt_eq by auto. unfold pt_eqb, gather_pt. cbn [fst snd].
  destruct (Nat.eqb_spec (c / Wi) hi); cbn [negb].
  - subst. rewrite Nat.eqb_refl. reflexivity.
  - destruct (Nat.eqb_spec hi (c / Wi)); [congruence|]. reflexivity.
Qed.
(** dk: one row *)
Lemma phase_b_hi_dk : forall ci hi dqy w, fst (phase_b_hi Wi Ho Wo roff col k q bf b ci hi dqy) w = GKg b hi w ci.
Proof.
  intros ci hi dqy w. unfold phase_b_hi.
  rewrite (fold_obs _ _ (fun st : (nat -> R) * (nat -> R) => fst st w) _
    (fun ho => rsum Wo (fun wo => rlsum (fun p => if pt_eqb (hi, w) p then q b ho wo ci * g_wt Ck Cv quad N k v q dy b ho wo p else 0) (N ho wo)))).
  { cbn [fst]. rewrite (lsum_seq RT). apply Rplus_0_l. }
  intros st ho Hho. apply in_seq in Hho.
  rewrite (fold_obs _ _ (fun st : (nat -> R) * (nat -> R) => fst st w) _
    (fun jc => rsum Wo (fun wo => if negb (snd jc / Wi =? hi)%nat then 0 else if (w =? snd (cpu_pt Wi Wo wo (snd jc)))%nat then q b ho wo ci * g_wt Ck Cv quad N k v q dy b ho wo (gather_pt Wi Wo wo (snd jc)) else 0))).
  { f_equal. rewrite rlsum_rsum_swap. apply rsum_ext'. intros wo Hwo.
    apply (row_sum ho wo hi (fun p => q b ho wo ci * g_wt Ck Cv quad N k v q dy b ho wo p)); [lia|auto]. }
  clear st. intros st jc Hjc. destruct (Nat.eqb_spec (snd jc / Wi) hi); cbn [negb].
  - rewrite (fold_obs _ _ (fun st : (nat -> R) * (nat -> R) => fst st w) _
      (fun wo => if (w =? snd (cpu_pt Wi Wo wo (snd jc)))%nat then q b ho wo ci * g_wt Ck Cv quad N k v q dy b ho wo (gather_pt Wi Wo wo (snd jc)) else 0)).
    { rewrite (lsum_seq RT). reflexivity. }
    clear st. intros (drow, dq) wo Hwo. apply in_seq in Hwo. cbn [fst]. rewrite aset_add, bf_wt by (auto; lia). reflexivity.
  - rewrite (bsum_zero RT). ring.
Qed.
(** dq: contribution of one input row *)
Lemma phase_b_hi_dq : forall ci hi dqy ho wo, (ho < Ho)%nat -> (wo < Wo)%nat ->
  snd (phase_b_hi Wi Ho Wo roff col k q bf b ci hi dqy) (ho * Wo + wo)%nat =
  dqy (ho * Wo + wo)%nat + rlsum (fun p => if (hi =? fst p)%nat then g_wt Ck Cv quad N k v q dy b ho wo p * k b (fst p) (snd p) ci else 0) (N ho wo).
Proof.
  intros ci hi dqy ho wo Hh Hw. unfold phase_b_hi.
  rewrite (fold_obs _ _ (fun st : (nat -> R) * (nat -> R) => snd st (ho * Wo + wo)%nat) _
    (fun ho' => if (ho' =? ho)%nat then rlsum (fun p => if (hi =? fst p)%nat then g_wt Ck Cv quad N k v q dy b ho wo p * k b (fst p) (snd p) ci else 0) (N ho wo) else 0)).
  { cbn [snd]. rewrite (lsum_seq RT), (bsum_delta RT) by auto. reflexivity. }
  intros st ho' Hho. apply in_seq in Hho.
  rewrite (fold_obs _ _ (fun st : (nat -> R) * (nat -> R) => snd st (ho * Wo + wo)%nat) _
    (fun jc => if negb (snd jc / Wi =? hi)%nat then 0 else if (ho' =? ho)%nat then g_wt Ck Cv quad N k v q dy b ho wo (gather_pt Wi Wo wo (snd jc)) * k b (fst (gather_pt Wi Wo wo (snd jc))) (snd (gather_pt Wi Wo wo (snd jc))) ci else 0)).
  { f_equal. destruct (Nat.eqb_spec ho' ho).
    - subst ho'. rewrite <- cpu_pts by auto. rewrite lsum_map.
      rewrite (enum_sum _ (fun c => if negb (c / Wi =? hi)%nat then 0 else g_wt Ck Cv quad N k v q dy b ho wo (gather_pt Wi Wo wo c) * k b (fst (gather_pt Wi Wo wo c)) (snd (gather_pt Wi Wo wo c)) ci)).
      apply rlsum_ext. intros c _. rewrite cpu_pt_eq by auto. cbn [gather_pt fst snd]. rewrite (Nat.eqb_sym hi).
      destruct (c / Wi =? hi)%nat; reflexivity.
    - apply rlsum_zero. intros jc _. destruct (negb _); reflexivity. }
  clear st. intros st jc Hjc. destruct (Nat.eqb_spec (snd jc / Wi) hi) as [Ehi|]; cbn [negb]; [|ring].
  rewrite (fold_obs _ _ (fun st : (nat -> R) * (nat -> R) => snd st (ho * Wo + wo)%nat) _
      (fun wo' => if (wo' =? wo)%nat then (if (ho' =? ho)%nat then g_wt Ck Cv quad N k v q dy b ho wo (gather_pt Wi Wo wo (snd jc)) * k b (fst (gather_pt Wi Wo wo (snd jc))) (snd (gather_pt Wi Wo wo (snd jc))) ci else 0) else 0)).
  { rewrite (lsum_seq RT), (bsum_delta RT) by auto. reflexivity. }
  clear st. intros (drow, dq) wo' Hwo. apply in_seq in Hwo. cbn [snd]. rewrite aset_add, flat_eqb by lia. f_equal.
  unfold pt_eqb. cbn [fst snd]. rewrite (Nat.eqb_sym ho), (Nat.eqb_sym wo).
  destruct (Nat.eqb_spec ho' ho); cbn [andb]; [|destruct (_ =? _)%nat; reflexivity].
  destruct (Nat.eqb_spec wo' wo); [|reflexivity]. subst ho' wo'. rewrite bf_wt by auto.
  rewrite cpu_pt_eq by auto. cbn [gather_pt fst snd]. rewrite Ehi. ring.
Qed.
Lemma phase_b_spec : forall ci,
  (forall h w, (h < Hi)%nat -> (w < Wi)%nat -> fst (phase_b Hi Wi Ho Wo roff col k q bf b ci) h w = GKg b h w ci) /\
  (forall ho wo, (ho < Ho)%nat -> (wo < Wo)%nat -> snd (phase_b Hi Wi Ho Wo roff col k q bf b ci) (ho * Wo + wo)%nat = GQg b ho wo ci).
Proof.
  intros ci. split.
  - intros h w Hh Hw. unfold phase_b.
    rewrite (fold_obs _ _ (fun st : (nat -> nat -> R) * (nat -> R) => fst st h w) _ (fun hi => if (hi =? h)%nat then GKg b h w ci else 0)).
    { cbn [fst]. rewrite (lsum_seq RT), (bsum_delta RT) by auto. apply Rplus_0_l. }
    intros (dk, dq) hi _. pose proof (phase_b_hi_dk ci hi dq w) as E. destruct (phase_b_hi _ _ _ _ _ _ _ _ _ _ _ dq) as (drow, dq'). cbn [fst] in *.
    rewrite E. rewrite (Nat.eqb_sym hi). replace (w <? Wi)%nat with true by (symmetry; apply Nat.ltb_lt; auto). rewrite andb_true_r.
    destruct (Nat.eqb_spec h hi); [subst; reflexivity|ring].
  - intros ho wo Hh Hw. unfold phase_b.
    rewrite (fold_obs _ _ (fun st : (nat -> nat -> R) * (nat -> R) => snd st (ho * Wo + wo)%nat) _
      (fun hi => rlsum (fun p => if (hi =? fst p)%nat then g_wt Ck Cv quad N k v q dy b ho wo p * k b (fst p) (snd p) ci else 0) (N ho wo))).
    + cbn [snd]. rewrite (lsum_seq RT), <- rlsum_rsum_swap, Rplus_0_l. unfold GQg, GQ. apply rlsum_ext. intros p Hp.
      apply (bsum_delta RT). apply (HN ho wo p Hh Hw Hp).
    + intros (dk, dq) hi _. pose proof (phase_b_hi_dq ci hi dq ho wo Hh Hw) as E. destruct (phase_b_hi _ _ _ _ _ _ _ _ _ _ _ dq) as (drow, dq'). exact E.
Qed.
Lemma phase_c_spec : forall co h w, (h < Hi)%nat -> (w < Wi)%nat -> phase_c Hi Wi Ho Wo roff col dy bf b co h w = GVg b h w co.
Proof.
  intros co h w Hh Hw. unfold phase_c.
  assert (E : forall hi w, phase_c_hi Wi Ho Wo roff col dy bf b co hi w = GVg b hi w co).
  { clear h w Hh Hw. intros hi w. unfold phase_c_hi.
    rewrite (fold_obs _ _ (fun st : nat -> R => st w) _
      (fun ho => rsum Wo (fun wo => rlsum (fun p => if pt_eqb (hi, w) p then g_prob Ck quad N k q b ho wo p * dy b ho wo co else 0) (N ho wo)))).
    { rewrite (lsum_seq RT). apply Rplus_0_l. }
    intros st ho Hho. apply in_seq in Hho.
    rewrite (fold_obs _ _ (fun st : nat -> R => st w) _
      (fun jc => rsum Wo (fun wo => if negb (snd jc / Wi =? hi)%nat then 0 else if (w =? snd (cpu_pt Wi Wo wo (snd jc)))%nat then g_prob Ck quad N k q b ho wo (gather_pt Wi Wo wo (snd jc)) * dy b ho wo co else 0))).
    { f_equal. rewrite rlsum_rsum_swap. apply rsum_ext'. intros wo Hwo.
      apply (row_sum ho wo hi (fun p => g_prob Ck quad N k q b ho wo p * dy b ho wo co)); [lia|auto]. }
    clear st. intros st jc Hjc. destruct (Nat.eqb_spec (snd jc / Wi) hi); cbn [negb].
    - rewrite (fold_obs _ _ (fun st : nat -> R => st w) _
        (fun wo => if (w =? snd (cpu_pt Wi Wo wo (snd jc)))%nat then g_prob Ck quad N k q b ho wo (gather_pt Wi Wo wo (snd jc)) * dy b ho wo co else 0)).
      { rewrite (lsum_seq RT). reflexivity. }
      clear st. intros drow wo Hwo. apply in_seq in Hwo. rewrite aset_add, bf_prob by (auto; lia). reflexivity.
    - rewrite (bsum_zero RT). ring. }
  rewrite (fold_obs _ _ (fun st : nat -> nat -> R => st h w) _ (fun hi => if (hi =? h)%nat then GVg b h w co else 0)).
  { rewrite (lsum_seq RT), (bsum_delta RT) by auto. apply Rplus_0_l. }
  intros st hi _. rewrite E, (Nat.eqb_sym hi). replace (w <? Wi)%nat with true by (symmetry; apply Nat.ltb_lt; auto). rewrite andb_true_r.
  destruct (Nat.eqb_spec h hi); [subst; reflexivity|ring].
Qed.
End Gather.

Theorem cpu_bwd_spec : forall Ck Cv Hi Wi Ho Wo quad P k v q dy m0, let N := nbrs_gather P Wi Wo in
  (forall h, (h < Hi)%nat -> 0 < quad h) -> (1 <= Wi)%nat -> (1 <= Wo)%nat -> (Wi mod Wo = 0)%nat -> pattern_ok P Ho (Hi * Wi) ->
  (forall ho wo, (ho < Ho)%nat -> (wo < Wo)%nat -> N ho wo <> []) ->
  forall B, exists dk dv dq, cpu_bwd Ck Cv Hi Wi Ho Wo quad (offsets 0 P) (columns P) k v q dy m0 B = Some (dk, dv, dq) /\
  (forall b h w c, (b < B)%nat -> (h < Hi)%nat -> (w < Wi)%nat -> dk b h w c = GK Ck Cv Ho Wo quad N k v q dy b h w c) /\
  (forall b h w c, (b < B)%nat -> (h < Hi)%nat -> (w < Wi)%nat -> dv b h w c = GV Ck Ho Wo quad N k q dy b h w c) /\
  (forall b h w c, (b < B)%nat -> (h < Ho)%nat -> (w < Wo)%nat -> dq b h w c = GQ Ck Cv quad N k v q dy b h w c).
Proof.
  intros Ck Cv Hi Wi Ho Wo quad P k v q dy m0 N Hquad HWi HWo Hdiv HP Hne B. unfold cpu_bwd. rewrite csr_ok_spec by auto. cbn [guard bindo]. cbv zeta.
  rewrite guard_true.
  - do 3 eexists. split; [reflexivity|]. split; [|split].
    + intros b h w c Hb Hh Hw. eapply phase_b_spec; eauto.
    + intros b h w c Hb Hh Hw. eapply phase_c_spec; eauto.
    + intros b h w c Hb Hh Hw. cbv beta. eapply phase_b_spec; eauto.
  - apply forallb_forall. intros ((b, ho), wo) Hc. apply cells3_in in Hc. apply orb_true_iff. right. apply nz_true. apply Rgt_not_eq.
    eapply bf_sum_pos; eauto; lia.
Qed.
