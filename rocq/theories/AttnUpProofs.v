(** The upsampling kernels: same softmax average, over the scattered neighbourhoods. *)
From Coq Require Import List Arith Lia Bool Reals Lra Permutation.
From Verif Require Import TensorModel TensorProofs BigSum DiscoModel DiscoSortProofs AttnModel AttnSpec AttnCoreProofs AttnKernelProofs.
Import ListNotations.
Local Open Scope R_scope.

Definition mx0 (o : option R) : R := match o with Some m => m | None => 0 end.

Lemma rlsum_cons : forall X (f : X -> R) a l, rlsum f (a :: l) = f a + rlsum f l.
Proof. reflexivity. Qed.

(** (c + x) mod n = w, solved for x *)
Lemma wrap_solve : forall n c x w, (c < n -> x < n -> w < n -> ((c + x) mod n = w <-> x = (w + n - c) mod n))%nat.
Proof.
  intros n c x w Hc Hx Hw.
  assert (E1 : ((c + x) mod n = if c + x <? n then c + x else c + x - n)%nat).
  { destruct (Nat.ltb_spec (c + x) n); [apply Nat.mod_small; auto|]. symmetry. apply (Nat.mod_unique _ _ 1); lia. }
  assert (E2 : ((w + n - c) mod n = if c <=? w then w - c else w + n - c)%nat).
  { destruct (Nat.leb_spec c w); [symmetry; apply (Nat.mod_unique _ _ 1); lia|apply Nat.mod_small; lia]. }
  rewrite E1, E2. destruct (Nat.ltb_spec (c + x) n), (Nat.leb_spec c w); lia.
Qed.
Lemma enum_sum : forall A (g : A -> R) l, rlsum (fun jc => g (snd jc)) (enum l) = rlsum g l.
Proof.
  intros A g l. unfold enum. generalize 0%nat. induction l; intros n; simpl; [reflexivity|].
  f_equal. apply IHl.
Qed.
Lemma enum_in : forall A (l : list A) jc, In jc (enum l) -> In (snd jc) l.
Proof. intros A l jc H. destruct jc. apply in_combine_r in H. exact H. Qed.
Lemma seq_pick : forall n ws wob (g : nat -> R), (wob < n)%nat -> rlsum (fun wo => if (wo - ws =? wob)%nat then g wo else 0) (seq ws n) = g (ws + wob)%nat.
Proof.
  intros n. induction n; intros ws wob g H; [lia|]. rewrite seq_S, (lsum_app RT). cbn [lsum_ fold_right].
  replace (ws + n - ws)%nat with n by lia. destruct (Nat.eqb_spec n wob).
  - subst. rewrite rlsum_zero; [ring|]. intros x Hx. apply in_seq in Hx. destruct (Nat.eqb_spec (x - ws) wob); [lia|reflexivity].
  - rewrite IHn by lia. ring.
Qed.

Lemma cells_in : forall Ho Wo ho wo, In (ho, wo) (cells Ho Wo) <-> (ho < Ho /\ wo < Wo)%nat.
Proof.
  intros. unfold cells. rewrite in_flat_map. split.
  - intros (x & H1 & H2). apply in_map_iff in H2. destruct H2 as (y & [= <- <-] & H2). apply in_seq in H1. apply in_seq in H2. lia.
  - intros [A B]. exists ho. split; [apply in_seq; lia|]. apply in_map_iff. exists wo. split; auto. apply in_seq; lia.
Qed.

Section Up.
Variables (Ck Cv Hi Wi Ho Wo : nat) (quad : nat -> R) (P : pattern) (k v q : fld).
Let roff := offsets 0 P.
Let col := columns P.
Hypothesis Hquad : forall h, (h < Hi)%nat -> 0 < quad h.
Hypothesis HWi : (1 <= Wi)%nat.
Hypothesis HWo : (1 <= Wo)%nat.
Hypothesis Hdiv : (Wo mod Wi = 0)%nat.
Hypothesis HP : pattern_ok P Hi (Ho * Wo).

Lemma up_ratio : (Wo = Wo / Wi * Wi /\ 1 <= Wo / Wi)%nat.
Proof.
  pose proof (Nat.div_mod Wo Wi ltac:(lia)) as E. rewrite Hdiv, Nat.add_0_r in E. split; [lia|].
  destruct (Wo / Wi)%nat; lia.
Qed.
Lemma csr_up : forall hi, (hi < Hi)%nat -> csr_row roff col hi = nth hi P [].
Proof. intros. apply csr_row_spec. destruct HP. lia. Qed.
Lemma scatter_w_pos : forall ho wo p, In p (nbrs_scatter P Hi Wi Wo ho wo) -> 0 < quad (fst p).
Proof. intros. apply Hquad. apply scatter_in in H. tauto. Qed.
Lemma scatter_sum : forall F ho wo, rlsum F (nbrs_scatter P Hi Wi Wo ho wo) =
  rlsum (fun hi => rlsum (fun wi => rlsum (fun c => if pt_eqb (ho, wo) (c / Wo, (c mod Wo + Wo / Wi * wi) mod Wo)%nat then F (hi, wi) else 0)
    (nth hi P [])) (seq 0 Wi)) (seq 0 Hi).
Proof.
  intros. unfold nbrs_scatter. rewrite (lsum_flat_map RT). apply rlsum_ext. intros hi _.
  rewrite (lsum_flat_map RT). apply rlsum_ext. intros wi _.
  rewrite lsum_map, (lsum_filter RT). unfold rotated. rewrite lsum_map. reflexivity.
Qed.
Definition pts : list ((nat * nat) * (nat * nat)) := up_trips Hi Wi Wo roff col.
Lemma trips_sum : forall (G : (nat * nat) * (nat * nat) -> R), rlsum G pts =
  rlsum (fun hi => rlsum (fun wi => rlsum (fun c => G ((hi, wi), (c / Wo, (c mod Wo + Wo / Wi * wi) mod Wo)%nat)) (nth hi P [])) (seq 0 Wi)) (seq 0 Hi).
Proof.
  intros. unfold pts, up_trips. rewrite (lsum_flat_map RT). apply rlsum_ext. intros hi Hhi. apply in_seq in Hhi.
  rewrite (lsum_flat_map RT). apply rlsum_ext. intros wi _. rewrite lsum_map, csr_up by lia. reflexivity.
Qed.
Lemma trips_scatter : forall F ho wo, rlsum (fun t => if pt_eqb (ho, wo) (snd t) then F (fst t) else 0) pts = rlsum F (nbrs_scatter P Hi Wi Wo ho wo).
Proof. intros. rewrite trips_sum, scatter_sum. reflexivity. Qed.
Lemma trips_in : forall t, In t pts -> (fst (fst t) < Hi /\ snd (fst t) < Wi /\ fst (snd t) < Ho /\ snd (snd t) < Wo)%nat.
Proof.
  intros t H. unfold pts, up_trips in H. apply in_flat_map in H. destruct H as (hi & H1 & H). apply in_flat_map in H. destruct H as (wi & H2 & H).
  apply in_map_iff in H. destruct H as (c & <- & Hc). apply in_seq in H1. apply in_seq in H2.
  rewrite csr_up in Hc by lia. eapply row_bound in Hc; [|exact HP]. apply col_split in Hc. cbn [fst snd].
  repeat split; try lia. apply Nat.mod_upper_bound. lia.
Qed.
Lemma pt_eqb_iff : forall p p', pt_eqb p p' = true <-> p = p'.
Proof.
  intros [a b] [c d]. unfold pt_eqb. cbn [fst snd]. rewrite andb_true_iff, !Nat.eqb_eq. split; [intros [-> ->]; reflexivity|]. intros [=]; auto.
Qed.

(** ** Reference *)
Lemma up_max_run : forall b l m0, let m := fold_left (fun m t h w => if ((h =? fst (snd t)) && (w =? snd (snd t)))%nat%bool then omax (m h w) (up_qdotk Ck k q b t) else m h w) l m0 in
  (forall h w x, m0 h w = Some x -> exists x', m h w = Some x' /\ x <= x') /\
  (forall t, In t l -> exists x, m (fst (snd t)) (snd (snd t)) = Some x /\ up_qdotk Ck k q b t <= x).
Proof.
  intros b l. induction l; intros m0 m.
  - split; [|intros t []]. intros h w x E. exists x. split; [exact E|lra].
  - cbn [fold_left] in m.
    set (m1 := fun h w => if ((h =? fst (snd a)) && (w =? snd (snd a)))%nat%bool then omax (m0 h w) (up_qdotk Ck k q b a) else m0 h w) in *. specialize (IHl m1). cbv zeta in IHl. fold m in IHl. destruct IHl as (A & B).
    split.
    + intros h w x E. destruct (A h w (if ((h =? fst (snd a)) && (w =? snd (snd a)))%nat%bool then Rmax x (up_qdotk Ck k q b a) else x)) as (x' & E' & L).
      { unfold m1. rewrite E. destruct (_ && _)%bool; reflexivity. }
      exists x'. split; auto. destruct (_ && _)%bool; [|exact L]. eapply Rle_trans; [apply Rmax_l|exact L].
    + intros t [->|Ht]; [|auto].
      destruct (A (fst (snd t)) (snd (snd t)) (mx0 (m1 (fst (snd t)) (snd (snd t))))) as (x' & E' & L).
      { unfold m1. rewrite !Nat.eqb_refl. cbn [andb]. destruct (m0 _ _); reflexivity. }
      exists x'. split; auto. eapply Rle_trans; [|exact L]. unfold m1. rewrite !Nat.eqb_refl. cbn [andb].
      destruct (m0 _ _); cbn [omax mx0]; [apply Rmax_r|lra].
Qed.
Lemma up_max_spec : forall b t, In t pts -> exists x, up_max Ck Hi Wi Wo roff col k q b (fst (snd t)) (snd (snd t)) = Some x /\ up_qdotk Ck k q b t <= x.
Proof. intros. exact (proj2 (up_max_run b pts (fun _ _ => None)) t H). Qed.
Definition mxv (b h w : nat) : R := mx0 (up_max Ck Hi Wi Wo roff col k q b h w).
Definition alv (b : nat) (t : (nat * nat) * (nat * nat)) : R := exp (up_qdotk Ck k q b t - mxv b (fst (snd t)) (snd (snd t))) * quad (fst (fst t)).
Lemma up_alpha_spec : forall b t, In t pts -> up_alpha Ck quad k q b (up_max Ck Hi Wi Wo roff col k q b) t = Some (alv b t).
Proof.
  intros b t H. destruct (up_max_spec b t H) as (x & E & _). unfold up_alpha, alv, mxv. rewrite E. reflexivity.
Qed.
Lemma up_acc_spec : forall C b (f : (nat * nat) * (nat * nat) -> C -> R),
  exists a, up_acc Ck Hi Wi Wo quad roff col k q b (up_max Ck Hi Wi Wo roff col k q b) f = Some a /\
  forall h w c, a h w c = rlsum (fun t => if pt_eqb (h, w) (snd t) then alv b t * f t c else 0) pts.
Proof.
  intros C b f. unfold up_acc. fold pts.
  assert (G : forall l a0, incl l pts -> exists a, fold_left (fun acc t => do a <- acc; do al <- up_alpha Ck quad k q b (up_max Ck Hi Wi Wo roff col k q b) t;
      Some (fun h w c => if ((h =? fst (snd t)) && (w =? snd (snd t)))%nat%bool then (a h w c + al * f t c)%R else a h w c)) l (Some a0) = Some a /\
    forall h w c, a h w c = a0 h w c + rlsum (fun t => if pt_eqb (h, w) (snd t) then alv b t * f t c else 0) l).
  { induction l; intros a0 Hl.
    - exists a0. split; [reflexivity|]. intros; simpl; ring.
    - cbn [fold_left]. rewrite up_alpha_spec by (apply Hl; left; reflexivity). cbn [bindo].
      destruct (IHl (fun h w c => if ((h =? fst (snd a)) && (w =? snd (snd a)))%nat%bool then (a0 h w c + alv b a * f a c)%R else a0 h w c)) as (r & E & V).
      { intros x Hx. apply Hl. right; auto. }
      exists r. split; [exact E|]. intros h w c. rewrite V, rlsum_cons. change (pt_eqb (h, w) (snd a)) with ((h =? fst (snd a)) && (w =? snd (snd a)))%nat%bool. destruct (_ && _)%bool; ring. }
  destruct (G pts (fun _ _ _ => 0) (fun x Hx => Hx)) as (a & E & V). exists a. split; [exact E|]. intros. rewrite V. ring.
Qed.
(** in terms of the neighbourhood *)
Lemma up_acc_nbrs : forall C b (f : (nat * nat) * (nat * nat) -> C -> R) (g : nat -> nat -> nat * nat -> C -> R),
  (forall p h w c, f (p, (h, w)) c = g h w p c) ->
  forall h w c, rlsum (fun t => if pt_eqb (h, w) (snd t) then alv b t * f t c else 0) pts =
    rlsum (fun p => exp (score Ck (k b) (q b) h w p - mxv b h w) * quad (fst p) * g h w p c) (nbrs_scatter P Hi Wi Wo h w).
Proof.
  intros C b f g Hg h w c. rewrite <- trips_scatter. apply rlsum_ext. intros t _. destruct (pt_eqb (h, w) (snd t)) eqn:E; [|reflexivity].
  apply pt_eqb_iff in E. destruct t as (p & p'). cbn [fst snd] in *. subst p'. rewrite Hg. unfold alv, up_qdotk, qdotk, dot, score. cbn [fst snd]. reflexivity.
Qed.
Lemma up_sum_spec : forall b, exists s, up_sum Ck Hi Wi Wo quad roff col k q b (up_max Ck Hi Wi Wo roff col k q b) = Some s /\
  forall h w, s h w = rlsum (fun p => exp (score Ck (k b) (q b) h w p - mxv b h w) * quad (fst p)) (nbrs_scatter P Hi Wi Wo h w).
Proof.
  intros b. unfold up_sum. destruct (up_acc_spec unit b (fun _ _ => 1)) as (a & -> & V). cbn [bindo]. eexists. split; [reflexivity|].
  intros h w. cbv beta. rewrite V. rewrite (up_acc_nbrs unit b (fun _ _ => 1) (fun _ _ _ _ => 1)) by reflexivity.
  apply rlsum_ext. intros; ring.
Qed.
Lemma up_sum_pos : forall b h w, nbrs_scatter P Hi Wi Wo h w <> [] ->
  0 < rlsum (fun p => exp (score Ck (k b) (q b) h w p - mxv b h w) * quad (fst p)) (nbrs_scatter P Hi Wi Wo h w).
Proof. intros. apply rlsum_pos; auto. intros p Hp. apply Rmult_lt_0_compat; [apply exp_pos|]. eapply scatter_w_pos; eauto. Qed.
Hypothesis Hne : forall ho wo, (ho < Ho)%nat -> (wo < Wo)%nat -> nbrs_scatter P Hi Wi Wo ho wo <> [].
Lemma up_sums_nz : forall b s, (forall h w, s h w = rlsum (fun p => exp (score Ck (k b) (q b) h w p - mxv b h w) * quad (fst p)) (nbrs_scatter P Hi Wi Wo h w)) ->
  sums_nz Ho Wo s = true.
Proof.
  intros b s V. apply forallb_forall. intros (ho & wo) Hc. apply cells_in in Hc. cbn [fst snd]. rewrite V. apply nz_true.
  pose proof (up_sum_pos b ho wo (Hne ho wo (proj1 Hc) (proj2 Hc))). lra.
Qed.
Lemma up_ok_true : up_ok Hi Wi Ho Wo roff col = true.
Proof.
  unfold up_ok, roff, col. rewrite csr_ok_spec by auto. rewrite Hdiv.
  replace (1 <=? Wi)%nat with true by (symmetry; apply Nat.leb_le; auto). reflexivity.
Qed.
Theorem up_fwd_spec : forall B,
  exists y, up_fwd Ck Hi Wi Ho Wo quad roff col k v q B = Some y /\
  forall b ho wo c, (b < B)%nat -> (ho < Ho)%nat -> (wo < Wo)%nat ->
    y b ho wo c = attn_at Ck quad (nbrs_scatter P Hi Wi Wo ho wo) (k b) (v b) (q b) ho wo c.
Proof.
  intros B. unfold up_fwd. rewrite up_ok_true. cbn [guard bindo].
  destruct (mapM_seq _ (fun _ _ _ => 0) B (up_fwd_batch Ck Hi Wi Ho Wo quad roff col k v q)
     (fun b y => forall ho wo c, (ho < Ho)%nat -> (wo < Wo)%nat -> y ho wo c = attn_at Ck quad (nbrs_scatter P Hi Wi Wo ho wo) (k b) (v b) (q b) ho wo c)) as (l & E & V).
  { intros b Hb. unfold up_fwd_batch. cbv zeta. destruct (up_sum_spec b) as (s & -> & Vs). cbn [bindo].
    destruct (up_acc_spec nat b (fun t c => v b (fst (fst t)) (snd (fst t)) c)) as (a & -> & Va). cbn [bindo].
    rewrite (up_sums_nz b s Vs). cbn [guard bindo]. eexists. split; [reflexivity|].
    intros ho wo c Hh Hw. cbv beta. rewrite Va, Vs.
    rewrite (up_acc_nbrs nat b (fun t c => v b (fst (fst t)) (snd (fst t)) c) (fun _ _ p c => v b (fst p) (snd p) c)) by reflexivity.
    unfold attn_at. apply (softmax_shift _ (score Ck (k b) (q b) ho wo) (fun p => quad (fst p)) (fun p => v b (fst p) (snd p) c)); auto.
    intros. eapply scatter_w_pos; eauto. }
  rewrite E. cbn [bindo]. eexists. split; [reflexivity|]. intros b ho wo c Hb Hh Hw. cbv beta. apply V; auto.
Qed.

(** ** CPU *)
Lemma up_wi_sum : forall wo c (g : nat -> R), (wo < Wo)%nat ->
  rlsum (fun wi => if (wo =? (c mod Wo + Wo / Wi * wi) mod Wo)%nat then g wi else 0) (seq 0 Wi) =
  match up_wi Wi Wo wo c with Some wi => g wi | None => 0 end.
Proof.
  intros wo c g Hw. destruct up_ratio as (E & L). set (ps := (Wo / Wi)%nat) in *.
  unfold up_wi. fold ps. set (d := ((wo + Wo - c mod Wo) mod Wo)%nat).
  assert (Hc : (c mod Wo < Wo)%nat) by (apply Nat.mod_upper_bound; lia).
  assert (Hd : (d < Wo)%nat) by (apply Nat.mod_upper_bound; lia).
  assert (S : forall wi, In wi (seq 0 Wi) -> ((wo =? (c mod Wo + ps * wi) mod Wo) = (ps * wi =? d))%nat).
  { intros wi Hwi. apply in_seq in Hwi. assert (ps * wi < Wo)%nat by nia.
    pose proof (wrap_solve Wo (c mod Wo) (ps * wi) wo Hc H Hw) as W. fold d in W.
    destruct (Nat.eqb_spec wo ((c mod Wo + ps * wi) mod Wo)), (Nat.eqb_spec (ps * wi) d); auto; exfalso; destruct W as [W1 W2].
    - apply n, W1. auto.
    - apply n. symmetry. apply W2. auto. }
  rewrite (rlsum_ext _ _ (fun wi => if (ps * wi =? d)%nat then g wi else 0)) by (intros wi Hwi; rewrite S by auto; reflexivity).
  destruct (Nat.eqb_spec (d mod ps) 0).
  - assert (Ed : (d = ps * (d / ps))%nat) by (pose proof (Nat.div_mod d ps ltac:(lia)); lia).
    rewrite (lsum_seq RT). rewrite (bsum_ext _ _ (fun wi => if (wi =? d / ps)%nat then g wi else 0)).
    + apply (bsum_delta_f RT). nia.
    + intros i Hi0. destruct (Nat.eqb_spec (ps * i) d), (Nat.eqb_spec i (d / ps)); auto; exfalso; [|apply n; rewrite e0; auto].
      apply n. apply (Nat.mul_cancel_l _ _ ps); lia.
  - apply rlsum_zero. intros wi _. destruct (Nat.eqb_spec (ps * wi) d); [|reflexivity].
    exfalso. apply n. rewrite <- e, Nat.mul_comm. apply Nat.mod_mul. lia.
Qed.
Lemma scan_scatter : forall F ho wo, (wo < Wo)%nat ->
  rlsum (fun e => match up_wi Wi Wo wo (snd (snd e)) with Some wi => F (fst e, wi) | None => 0 end) (up_scan Hi Wo roff col ho) =
  rlsum F (nbrs_scatter P Hi Wi Wo ho wo).
Proof.
  intros F ho wo Hw. rewrite scatter_sum. unfold up_scan. rewrite (lsum_flat_map RT). apply rlsum_ext. intros hi Hhi. apply in_seq in Hhi.
  rewrite lsum_map, (lsum_filter RT). cbn [fst snd]. rewrite csr_up by lia.
  rewrite (enum_sum _ (fun c => if (c / Wo =? ho)%nat then match up_wi Wi Wo wo c with Some wi => F (hi, wi) | None => 0 end else 0)).
  rewrite (lsum_seq RT), <- (lsum_bsum_swap RT). apply rlsum_ext. intros c Hc. rewrite <- (lsum_seq RT).
  unfold pt_eqb. cbn [fst snd]. destruct (Nat.eqb_spec (c / Wo) ho).
  - subst. rewrite Nat.eqb_refl. cbn [andb]. symmetry. apply (up_wi_sum wo c (fun wi => F (hi, wi))). auto.
  - destruct (Nat.eqb_spec ho (c / Wo)); [congruence|]. cbn [andb]. symmetry. apply rlsum_zero. auto.
Qed.

Variables (m0 : R) (BS : nat).
Hypothesis HBS : (1 <= BS)%nat.
Definition c_alpha (mx : nat -> R) (b ho ws wo : nat) (p : nat * nat) : R := exp (score Ck (k b) (q b) ho wo p - mx (wo - ws)%nat) * quad (fst p).
Lemma cpu_up_acc_spec : forall b ho ws we mx tmp wob, (we <= Wo)%nat -> (ws + wob < we)%nat ->
  let st := cpu_up_acc Ck Cv Hi Wi Wo quad roff col k v q b ho ws we mx tmp in
  fst st wob = rlsum (c_alpha mx b ho ws (ws + wob)) (nbrs_scatter P Hi Wi Wo ho (ws + wob)) /\
  forall c, (c < Cv)%nat -> snd st (wob * Cv + c)%nat =
    tmp (wob * Cv + c)%nat + rlsum (fun p => c_alpha mx b ho ws (ws + wob) p * v b (fst p) (snd p) c) (nbrs_scatter P Hi Wi Wo ho (ws + wob)).
Proof.
  intros b ho ws we mx tmp wob He Hw st. split.
  - rewrite <- scan_scatter by lia. unfold st, cpu_up_acc.
    rewrite (fold_obs _ _ (fun s : (nat -> R) * (nat -> R) => fst s wob) _
      (fun e : nat * (nat * nat) => match up_wi Wi Wo (ws + wob) (snd (snd e)) with Some wi => c_alpha mx b ho ws (ws + wob) (fst e, wi) | None => 0 end)).
    { cbn [fst]. ring. }
    intros s e _.
    rewrite (fold_obs _ _ (fun s : (nat -> R) * (nat -> R) => fst s wob) _
      (fun wo => if (wo - ws =? wob)%nat then match up_wi Wi Wo wo (snd (snd e)) with Some wi => c_alpha mx b ho ws wo (fst e, wi) | None => 0 end else 0)).
    { rewrite seq_pick by lia. reflexivity. }
    intros [s1 s2] wo _. destruct (up_wi Wi Wo wo (snd (snd e))) as [wi|]; cbn [fst].
    + unfold aset. destruct (Nat.eqb_spec (wo - ws) wob) as [<-|]; [rewrite Nat.eqb_refl; reflexivity|].
      destruct (Nat.eqb_spec wob (wo - ws)); [congruence|ring].
    + destruct (_ =? _)%nat; ring.
  - intros c Hc. rewrite <- (scan_scatter (fun p => c_alpha mx b ho ws (ws + wob) p * v b (fst p) (snd p) c)) by lia. unfold st, cpu_up_acc.
    rewrite (fold_obs _ _ (fun s : (nat -> R) * (nat -> R) => snd s (wob * Cv + c)%nat) _
      (fun e : nat * (nat * nat) => match up_wi Wi Wo (ws + wob) (snd (snd e)) with Some wi => c_alpha mx b ho ws (ws + wob) (fst e, wi) * v b (fst e) wi c | None => 0 end)).
    { reflexivity. }
    intros s e _.
    rewrite (fold_obs _ _ (fun s : (nat -> R) * (nat -> R) => snd s (wob * Cv + c)%nat) _
      (fun wo => if (wo - ws =? wob)%nat then match up_wi Wi Wo wo (snd (snd e)) with Some wi => c_alpha mx b ho ws wo (fst e, wi) * v b (fst e) wi c | None => 0 end else 0)).
    { rewrite seq_pick by lia. reflexivity. }
    intros [s1 s2] wo _. destruct (up_wi Wi Wo wo (snd (snd e))) as [wi|]; cbn [snd].
    + destruct (Nat.eqb_spec (wo - ws) wob) as [E|N].
      * rewrite E. replace ((wob * Cv <=? wob * Cv + c) && (wob * Cv + c <? wob * Cv + Cv))%nat%bool with true
          by (symmetry; apply andb_true_iff; split; [apply Nat.leb_le|apply Nat.ltb_lt]; lia).
        replace (wob * Cv + c - wob * Cv)%nat with c by lia. unfold c_alpha. rewrite E. reflexivity.
      * replace (((wo - ws) * Cv <=? wob * Cv + c) && (wob * Cv + c <? (wo - ws) * Cv + Cv))%nat%bool with false; [ring|].
        symmetry. apply andb_false_iff.
        destruct (Nat.lt_ge_cases wob (wo - ws)); [left; apply Nat.leb_gt; nia|right; apply Nat.ltb_ge; nia].
    + destruct (_ =? _)%nat; ring.
Qed.
Lemma cpu_up_block_spec : forall junk b ho bwo, (ho < Ho)%nat ->
  exists y, cpu_up_block Ck Cv Hi Wi Wo quad roff col k v q m0 BS junk b ho bwo = Some y /\
  forall wo c, (bwo * BS <= wo < Nat.min Wo (bwo * BS + BS))%nat -> (c < Cv)%nat ->
    y wo c = attn_at Ck quad (nbrs_scatter P Hi Wi Wo ho wo) (k b) (v b) (q b) ho wo c.
Proof.
  intros junk b ho bwo Hh. unfold cpu_up_block. cbv zeta.
  set (ws := (bwo * BS)%nat). set (we := Nat.min Wo (ws + BS)). set (mx := cpu_up_max _ _ _ _ _ _ _ _ _ _ _ _ _).
  set (t0 := fun j => if (j <? (we - ws) * Cv)%nat then 0 else junk j).
  pose proof (fun wob => cpu_up_acc_spec b ho ws we mx t0 wob (Nat.le_min_l _ _)) as A. cbv zeta in A.
  destruct (cpu_up_acc _ _ _ _ _ _ _ _ _ _ _ _ _ _ _ _ _) as (sum, tmp). cbn [fst snd] in A.
  assert (Sp : forall wo, (ws <= wo < we)%nat -> 0 < sum (wo - ws)%nat).
  { intros wo Hwo. destruct (A (wo - ws)%nat) as (E & _); [lia|]. rewrite E. replace (ws + (wo - ws))%nat with wo by lia.
    apply rlsum_pos; [|apply Hne; unfold we in Hwo; lia]. intros p Hp. apply Rmult_lt_0_compat; [apply exp_pos|]. eapply scatter_w_pos; eauto. }
  rewrite guard_true.
  - eexists. split; [reflexivity|]. intros wo c Hwo Hc. cbv beta zeta. specialize (Sp wo Hwo).
    destruct (A (wo - ws)%nat) as (E & F); [lia|]. specialize (F c Hc). rewrite F.
    replace (ws + (wo - ws))%nat with wo in * by lia.
    unfold t0. destruct (Nat.ltb_spec ((wo - ws) * Cv + c) ((we - ws) * Cv)); [|nia].
    rewrite E in Sp |- *. unfold attn_at.
    rewrite <- (softmax_shift _ (score Ck (k b) (q b) ho wo) (fun p => quad (fst p)) (fun p => v b (fst p) (snd p) c) _ (mx (wo - ws)%nat)).
    + unfold c_alpha in *. field. lra.
    + intros. eapply scatter_w_pos; eauto.
    + apply Hne; unfold we in Hwo; lia.
  - apply forallb_forall. intros wo Hwo. apply in_seq in Hwo. apply nz_true. specialize (Sp wo ltac:(lia)). lra.
Qed.
Theorem cpu_up_fwd_spec : forall junk B,
  exists y, cpu_up_fwd Ck Cv Hi Wi Ho Wo quad roff col k v q m0 BS junk B = Some y /\
  forall b ho wo c, (b < B)%nat -> (ho < Ho)%nat -> (wo < Wo)%nat -> (c < Cv)%nat ->
    y b ho wo c = attn_at Ck quad (nbrs_scatter P Hi Wi Wo ho wo) (k b) (v b) (q b) ho wo c.
Proof.
  intros junk B. unfold cpu_up_fwd. rewrite guard_true by (unfold roff, col; apply csr_ok_spec; auto).
  assert (R : forall b ho, (ho < Ho)%nat -> exists y, cpu_up_row Ck Cv Hi Wi Wo quad roff col k v q m0 BS junk b ho = Some y /\
     forall wo c, (wo < Wo)%nat -> (c < Cv)%nat -> y wo c = attn_at Ck quad (nbrs_scatter P Hi Wi Wo ho wo) (k b) (v b) (q b) ho wo c).
  { intros b ho Hh. unfold cpu_up_row. apply (blocks_spec Cv Wo Wo HWo HWo (Nat.mod_same Wo ltac:(lia)) BS HBS). intro bwo. apply cpu_up_block_spec; auto. }
  destruct (grid3_some _ (fun _ _ => 0) B Ho 1 (fun b ho _ => cpu_up_row Ck Cv Hi Wi Wo quad roff col k v q m0 BS junk b ho)
     (fun b ho _ => match cpu_up_row Ck Cv Hi Wi Wo quad roff col k v q m0 BS junk b ho with Some y => y | None => fun _ _ => 0 end)) as (y & Ey & V).
  { intros b ho wo _ Hh _. destruct (R b ho Hh) as (z & -> & _). reflexivity. }
  rewrite Ey. cbn [bindo]. eexists. split; [reflexivity|]. intros b ho wo c Hb Hh Hw Hc. cbv beta.
  rewrite V by (auto; lia). destruct (R b ho Hh) as (z & -> & E). apply E; auto.
Qed.
End Up.
