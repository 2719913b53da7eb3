(** The backward ring kernels on one output cell and on one chunk. *)
From Coq Require Import List Arith Lia Bool ZArith Reals Lra Permutation.
From Verif Require Import TensorModel TensorProofs BigSum DiscoModel PrimModel PrimSpec PrimProofs AttnModel AttnSpec AttnCoreProofs AttnKernelProofs AttnUpProofs AttnGradProofs
  DistStateModel DistAttnModel DistAttnBwdModel DistAttnProofs DistAttnProofs2 DistAttnProofs3.
Import ListNotations.
Local Open Scope nat_scope.

(** ** Pass 1 as a forward pass with more value channels *)
Section Pack.
Variable Ck : nat.
Definition pack (st : bst) : rst := mkR (b_sum st) (b_max st) (fun c => if c =? 0 then b_int st else if c <=? Ck then b_k st (c - 1) else b_kvw st (c - 1 - Ck)).
Definition ext (g : R) (k : nat -> R) (c : nat) : R := if c =? 0 then g else if c <=? Ck then k (c - 1) else (g * k (c - 1 - Ck)%nat)%R.
Definition rsame (a b : rst) : Prop := r_sum a = r_sum b /\ r_max a = r_max b /\ forall c, r_acc a c = r_acc b c.
Lemma rsame_refl : forall a, rsame a a.
Proof. intros; repeat split; auto. Qed.
Lemma stands_same : forall C a b D N, rsame a b -> stands C b D N -> stands C a D N.
Proof.
  intros C a b D N (H1 & H2 & H3). unfold stands. rewrite H1, H2. destruct (r_max b).
  - intros (S1 & S2). split; auto. intros. rewrite H3. auto.
  - intros (S1 & S2 & S3 & S4). repeat split; auto. intros. rewrite H3. auto.
Qed.
Lemma pack_entry : forall s g w k st st', rsame (pack st) st' -> rsame (pack (bring_entry s g w k st)) (ring_entry s w (ext g k) st').
Proof.
  intros s g w k st st' (H1 & H2 & H3). unfold bring_entry, ring_entry. rewrite <- H1, <- H2. cbn [pack r_sum r_max b_sum b_max].
  unfold rsame, pack. cbn [r_sum r_max r_acc b_sum b_max b_int b_k b_kvw].
  split; [cbn [r_sum b_sum]; ring|]. split; [reflexivity|]. intros c. cbn [pack r_acc b_int b_k b_kvw]. rewrite <- H3. cbn [pack r_acc b_int b_k b_kvw]. unfold ext.
  destruct (c =? 0); [ring|]. destruct (c <=? Ck); ring.
Qed.
Lemma forget_entry : forall s g w k v st st', b_sum st = r_sum st' -> b_max st = r_max st' ->
  b_sum (bring_entry s g w k st) = r_sum (ring_entry s w v st') /\ b_max (bring_entry s g w k st) = r_max (ring_entry s w v st').
Proof. intros s g w k v st st' H1 H2. unfold bring_entry, ring_entry. rewrite H1, H2. cbn [b_sum b_max r_sum r_max]. split; [ring|reflexivity]. Qed.
End Pack.

Section Gather.
Variables (Ck Cv : nat) (quad : nat -> R) (roff col : list nat) (nlat_halo nlon_kx lon_lo_kx : nat) (start : Z) (Ho Wo : nat)
  (kx vx qy dy : fld) (Wi ps : nat) (row_idx : list nat).
Let bvis := bring_visit Ck Cv quad nlat_halo nlon_kx lon_lo_kx start kx vx qy dy Wi ps.
Let hit := chunk_hit nlat_halo nlon_kx lon_lo_kx start Wi ps.
Lemma ring_visit_hit : forall vx' b ho wo st c, ring_visit Ck quad nlat_halo nlon_kx lon_lo_kx start kx vx' qy Wi ps b ho wo st c =
  match hit wo c with None => st | Some (hg, hl, wl) => ring_entry (dot Ck (qy b ho wo) (kx b hl wl)) (quad hg) (vx' b hl wl) st end.
Proof.
  intros. unfold ring_visit, hit, chunk_hit. cbv zeta. destruct (_ || _); [reflexivity|]. destruct (_ || _)%Z; reflexivity.
Qed.
Lemma pack_visits : forall b ho wo l st st', rsame (pack Ck st) st' ->
  rsame (pack Ck (fold_left (bvis b ho wo) l st))
    (fold_left (ring_visit Ck quad nlat_halo nlon_kx lon_lo_kx start kx (fun b h w => ext Ck (dot Cv (dy b ho wo) (vx b h w)) (kx b h w)) qy Wi ps b ho wo) l st').
Proof.
  intros b ho wo l. induction l as [|c l IH]; intros st st' H; [exact H|]. cbn [fold_left]. apply IH. rewrite ring_visit_hit. unfold bvis, bring_visit. fold hit.
  destruct (hit wo c) as [[[hg hl] wl]|]; [|exact H]. apply pack_entry. exact H.
Qed.
Lemma forget_visits : forall vx' b ho wo l st st', b_sum st = r_sum st' -> b_max st = r_max st' ->
  let f := fold_left (bvis b ho wo) l st in let g := fold_left (ring_visit Ck quad nlat_halo nlon_kx lon_lo_kx start kx vx' qy Wi ps b ho wo) l st' in
  b_sum f = r_sum g /\ b_max f = r_max g.
Proof.
  intros vx' b ho wo l. induction l as [|c l IH]; intros st st' H1 H2; [split; auto|]. cbn [fold_left]. apply IH; rewrite ring_visit_hit; unfold bvis, bring_visit; fold hit;
    destruct (hit wo c) as [[[hg hl] wl]|]; auto; apply forget_entry; auto.
Qed.
Lemma bring_step_cell : forall B buf b ho wo, Permutation row_idx (seq 0 Ho) -> b < B -> ho < Ho -> wo < Wo ->
  bring_step Ck Cv quad roff col nlat_halo nlon_kx lon_lo_kx start Ho Wo kx vx qy dy Wi ps row_idx B buf b ho wo =
  fold_left (bvis b ho wo) (csr_row roff col ho) (buf b ho wo).
Proof.
  intros B buf b ho wo Pm Hb Hh Hw. unfold bring_step. fold bvis.
  assert (L : length row_idx = Ho) by (rewrite (Permutation_length Pm), seq_length; reflexivity).
  assert (ND : NoDup row_idx) by (eapply Permutation_NoDup; [apply Permutation_sym; exact Pm|apply seq_NoDup]).
  set (key := fun t : nat * nat * nat => (fst (fst t), nth (snd (fst t)) row_idx 0%nat, snd t)).
  set (f := fun b h w st => fold_left (bvis b h w) (csr_row roff col h) st).
  assert (NK : NoDup (map key (cells3 Ho Wo B))).
  { apply nodup_map; [apply cells3_nodup|]. intros [[b1 h1] w1] [[b2 h2] w2] H1 H2 E. unfold key in E. cbn [fst snd] in E. apply cells3_in in H1. apply cells3_in in H2.
    inversion E as [[E1 E2 E3]]. rewrite (NoDup_nth row_idx 0%nat) in ND. rewrite (ND h1 h2) by (auto; lia). reflexivity. }
  pose proof (fold_upd3 _ _ key f _ buf b ho wo NK) as E.
  etransitivity.
  { etransitivity; [|exact E]. apply (f_equal (fun f : bbuf => f b ho wo)). apply fold_ext. intros s [[b' h'] w']. reflexivity. }
  destruct (in_dec _ _ _) as [I|I]; [reflexivity|]. elim I. apply in_map_iff.
    assert (In ho row_idx) by (eapply Permutation_in; [apply Permutation_sym; exact Pm|apply in_seq; lia]).
    destruct (In_nth _ _ 0%nat H) as (h & Hh' & E'). exists (b, h, wo). unfold key. cbn [fst snd]. rewrite E'. split; auto. apply cells3_in. lia.
Qed.

(** ** Pass 2: the sum of all contributions to one cell of the chunk *)
Section Dkv.
Variables (sums : nat -> nat -> nat -> R) (maxs : nat -> nat -> nat -> option R) (inorm : nat -> nat -> nat -> R).
Definition alpha_at (b ho wo hg hl wl : nat) : R :=
  ((match maxs b ho wo with None => 0 | Some m => exp (dot Ck (qy b ho wo) (kx b hl wl) - m) end * quad hg) * (1 / sums b ho wo))%R.
Definition scale_at (b ho wo hg hl wl : nat) : R := ((dot Cv (dy b ho wo) (vx b hl wl) - inorm b ho wo) * alpha_at b ho wo hg hl wl)%R.
Definition hits (f : nat -> nat -> nat -> R) (wo h w c : nat) : R :=
  match hit wo c with None => 0%R | Some (hg, hl, wl) => if (h =? hl) && (w =? wl) then f hg hl wl else 0%R end.
Let vis := dkv_visit Ck Cv quad nlat_halo nlon_kx lon_lo_kx start kx vx qy dy Wi ps sums maxs inorm.
Lemma dkv_visits : forall b ho wo l acc b' h w ch,
  fst (fold_left (vis b ho wo) l acc) b' h w ch = (fst acc b' h w ch + (if (b' =? b)%nat then rlsum (hits (fun hg hl wl => scale_at b ho wo hg hl wl * qy b ho wo ch) wo h w) l else 0))%R /\
  snd (fold_left (vis b ho wo) l acc) b' h w ch = (snd acc b' h w ch + (if (b' =? b)%nat then rlsum (hits (fun hg hl wl => alpha_at b ho wo hg hl wl * dy b ho wo ch) wo h w) l else 0))%R.
Proof.
  intros b ho wo l. induction l as [|c l IH]; intros acc b' h w ch.
  - cbn [fold_left lsum_ fold_right]. destruct (b' =? b); split; ring.
  - cbn [fold_left]. destruct (IH (vis b ho wo acc c) b' h w ch) as (E1 & E2). rewrite E1, E2. clear E1 E2 IH. rewrite !rlsum_cons. unfold vis, dkv_visit, hits. fold hit.
    destruct (hit wo c) as [[[hg hl] wl]|]; [|destruct (b' =? b); split; ring].
    cbv zeta. cbn [fst snd]. unfold add_at. destruct (b' =? b); cbn [andb]; [|split; ring].
    destruct ((h =? hl) && (w =? wl)); split; unfold scale_at, alpha_at; ring.
Qed.
Lemma sum_cells3 : forall (f : nat -> nat -> nat -> R) B, rlsum (fun t => f (fst (fst t)) (snd (fst t)) (snd t)) (cells3 Ho Wo B) =
  rlsum (fun b => rlsum (fun h => rlsum (fun w => f b h w) (seq 0 Wo)) (seq 0 Ho)) (seq 0 B).
Proof.
  intros f B. unfold cells3. rewrite (lsum_flat_map RT). apply lsum_ext. intros b _. rewrite lsum_map. unfold cells. rewrite (lsum_flat_map RT).
  apply lsum_ext. intros h _. rewrite lsum_map. reflexivity.
Qed.
Lemma map_nth_seq : forall l : list nat, map (fun h => nth h l 0) (seq 0 (length l)) = l.
Proof. induction l as [|x l IH]; [reflexivity|]. cbn [length seq map nth]. f_equal. rewrite <- seq_shift, map_map. exact IH. Qed.
Lemma pick_batch : forall (f : nat -> R) B b', b' < B -> rlsum (fun b => if b' =? b then f b else 0%R) (seq 0 B) = f b'.
Proof.
  intros f B b' H. rewrite (lsum_seq RT).
  rewrite (bsum_ext _ _ (fun b => if b =? b' then f b' else 0%R)).
  - apply (bsum_delta RT); auto.
  - intros b _. rewrite Nat.eqb_sym. destruct (Nat.eqb_spec b b'); subst; auto.
Qed.
Lemma dkv_sum : forall B b h w ch, Permutation row_idx (seq 0 Ho) -> b < B ->
  let res := dkv_step Ck Cv quad roff col nlat_halo nlon_kx lon_lo_kx start Ho Wo kx vx qy dy Wi ps row_idx sums maxs inorm B in
  fst res b h w ch = rlsum (fun ho => rlsum (fun wo => rlsum (hits (fun hg hl wl => scale_at b ho wo hg hl wl * qy b ho wo ch)%R wo h w) (csr_row roff col ho)) (seq 0 Wo)) (seq 0 Ho) /\
  snd res b h w ch = rlsum (fun ho => rlsum (fun wo => rlsum (hits (fun hg hl wl => alpha_at b ho wo hg hl wl * dy b ho wo ch)%R wo h w) (csr_row roff col ho)) (seq 0 Wo)) (seq 0 Ho).
Proof.
  intros B b h w ch Pm Hb res.
  set (F := fun (f : nat -> nat -> nat -> nat -> nat -> nat -> R) b0 ho wo => if b =? b0 then rlsum (hits (f b0 ho wo) wo h w) (csr_row roff col ho) else 0%R).
  set (fk := fun b0 ho wo hg hl wl => (scale_at b0 ho wo hg hl wl * qy b0 ho wo ch)%R). set (fv := fun b0 ho wo hg hl wl => (alpha_at b0 ho wo hg hl wl * dy b0 ho wo ch)%R).
  assert (G : forall l acc, let r := fold_left (fun acc t => let '(b, h, wo) := t in let ho := nth h row_idx 0 in fold_left (vis b ho wo) (csr_row roff col ho) acc) l acc in
    fst r b h w ch = (fst acc b h w ch + rlsum (fun t => F fk (fst (fst t)) (nth (snd (fst t)) row_idx 0%nat) (snd t)) l)%R /\
    snd r b h w ch = (snd acc b h w ch + rlsum (fun t => F fv (fst (fst t)) (nth (snd (fst t)) row_idx 0%nat) (snd t)) l)%R).
  { induction l as [|[[b0 h0] w0] l IH]; intros acc r.
    - unfold r. cbn [fold_left lsum_ fold_right]. split; ring.
    - unfold r. cbn [fold_left]. destruct (IH (fold_left (vis b0 (nth h0 row_idx 0) w0) (csr_row roff col (nth h0 row_idx 0)) acc)) as (E1 & E2). rewrite !rlsum_cons. cbn [fst snd].
      destruct (dkv_visits b0 (nth h0 row_idx 0) w0 (csr_row roff col (nth h0 row_idx 0)) acc b h w ch) as (D1 & D2).
      split; [etransitivity; [exact E1|]; rewrite D1|etransitivity; [exact E2|]; rewrite D2]; unfold F, fk, fv; ring. }
  assert (R : forall f, rlsum (fun t => F f (fst (fst t)) (nth (snd (fst t)) row_idx 0%nat) (snd t)) (cells3 Ho Wo B) =
     rlsum (fun ho => rlsum (fun wo => rlsum (hits (f b ho wo) wo h w) (csr_row roff col ho)) (seq 0 Wo)) (seq 0 Ho)).
  { intros f. rewrite (sum_cells3 (fun b h w => F f b (nth h row_idx 0) w)). unfold F.
    transitivity (rlsum (fun b0 => if b =? b0 then rlsum (fun h0 => rlsum (fun wo => rlsum (hits (f b0 (nth h0 row_idx 0) wo) wo h w) (csr_row roff col (nth h0 row_idx 0))) (seq 0 Wo)) (seq 0 Ho) else 0%R) (seq 0 B)).
    - apply lsum_ext. intros b0 _. destruct (b =? b0); [reflexivity|]. apply rlsum_zero. intros. apply rlsum_zero. intros. reflexivity.
    - rewrite (pick_batch (fun b0 => rlsum (fun h0 => rlsum (fun wo => rlsum (hits (f b0 (nth h0 row_idx 0) wo) wo h w) (csr_row roff col (nth h0 row_idx 0))) (seq 0 Wo)) (seq 0 Ho))) by auto.
      assert (L : length row_idx = Ho) by (rewrite (Permutation_length Pm), seq_length; reflexivity).
      set (Q := fun ho => rlsum (fun wo => rlsum (hits (f b ho wo) wo h w) (csr_row roff col ho)) (seq 0 Wo)).
      transitivity (rlsum Q row_idx); [|apply (lsum_perm RT _ _ _ _ Pm)].
      change (rlsum (fun h0 => Q (nth h0 row_idx 0)) (seq 0 Ho) = rlsum Q row_idx).
      rewrite <- L, <- (lsum_map _ _ (fun h0 => nth h0 row_idx 0) Q), map_nth_seq. reflexivity. }
  unfold res, dkv_step. fold vis. destruct (G (cells3 Ho Wo B) (fld0, fld0)) as (G1 & G2). cbv zeta in G1, G2. rewrite G1, G2. cbn [fst snd]. unfold fld0. rewrite !R. unfold fk, fv. split; ring.
Qed.
End Dkv.
End Gather.

Section Scatter.
Variables (Ck Cv : nat) (quad : nat -> R) (roff col : list nat) (nlat_halo nlon_kx lon_lo_kx : nat) (start : Z) (Wo : nat)
  (kx vx qy dy : fld) (WoG ps : nat).
Let trips := chunk_trips roff col nlat_halo nlon_kx lon_lo_kx Wo WoG ps.
Lemma bring_step_up_cell : forall (maxs : nat -> nat -> nat -> option R) B buf b h w m, b < B -> maxs b h w = Some m ->
  let st := bring_step_up Ck Cv quad roff col nlat_halo nlon_kx lon_lo_kx start Wo kx vx qy dy WoG ps maxs B buf b h w in
  let F t := if pt_eqb (h, w) (snd t) then (quad (Z.to_nat (start + Z.of_nat (fst (fst t)))) * exp (trip_score Ck kx qy b t))%R else 0%R in
  (b_int st * exp m = b_int (buf b h w) * exp m + rlsum (fun t => F t * trip_gdotv Cv vx dy b t) trips)%R /\
  forall c, (b_k st c * exp m = b_k (buf b h w) c * exp m + rlsum (fun t => F t * kx b (fst (fst t)) (snd (fst t)) c) trips)%R /\
    (b_kvw st c * exp m = b_kvw (buf b h w) c * exp m + rlsum (fun t => F t * (trip_gdotv Cv vx dy b t * kx b (fst (fst t)) (snd (fst t)) c)) trips)%R.
Proof.
  intros maxs B buf b h w m Hb Hm st F. unfold st, bring_step_up. rewrite (proj2 (Nat.ltb_lt b B)) by auto. fold trips. generalize (buf b). clear st buf. intros buf. generalize trips. intros l. revert buf.
  induction l as [|t l IH]; intros buf.
  - cbn [fold_left lsum_ fold_right]. split; [ring|]. intros c. split; ring.
  - cbn [fold_left]. match goal with |- context [fold_left ?f l ?b1] => set (buf1 := b1); destruct (IH buf1) as (I1 & I2) end. split; [|intros c; destruct (I2 c) as (I3 & I4); split].
    all: first [rewrite I1|rewrite I3|rewrite I4]; rewrite rlsum_cons; unfold buf1, F, pt_eqb; cbn [fst snd];
      destruct (Nat.eqb_spec h (fst (snd t))) as [Eh|], (Nat.eqb_spec w (snd (snd t))) as [Ew|]; cbn [andb]; try ring;
      cbv zeta; cbn [b_int b_k b_kvw]; unfold trip_alpha; rewrite <- Eh, <- Ew, Hm, <- (exp_cancel (trip_score Ck kx qy b t) m); ring.
Qed.
Section Dkv.
Variables (sums : nat -> nat -> nat -> R) (maxs : nat -> nat -> nat -> option R) (inorm : nat -> nat -> nat -> R).
Definition up_hits (f : nat -> nat -> R) (wi c : nat) : R :=
  match up_local_wo Wo WoG ps (c mod WoG) (lon_lo_kx + wi) with None => 0%R | Some wo => f (c / WoG) wo end.
Lemma dkv_sum_up : forall B b h w ch, b < B -> h < nlat_halo -> w < nlon_kx ->
  let res := dkv_step_up Ck Cv quad roff col nlat_halo nlon_kx lon_lo_kx start Wo kx vx qy dy WoG ps sums maxs inorm B in
  let al := fun ho wo => (trip_alpha Ck quad start kx qy maxs b ((h, w), (ho, wo)) / sums b ho wo)%R in
  fst res b h w ch = rlsum (up_hits (fun ho wo => (trip_gdotv Cv vx dy b ((h, w), (ho, wo)) - inorm b ho wo) * al ho wo * qy b ho wo ch)%R w) (csr_row roff col h) /\
  snd res b h w ch = rlsum (up_hits (fun ho wo => al ho wo * dy b ho wo ch)%R w) (csr_row roff col h).
Proof.
  intros B b h w ch Hb Hh Hw res al. unfold res, dkv_step_up. cbn [fst snd]. rewrite (proj2 (Nat.ltb_lt _ _) Hb), (proj2 (Nat.ltb_lt _ _) Hh), (proj2 (Nat.ltb_lt _ _) Hw). cbn [andb]. unfold dkv_cell_up.
  match goal with |- fst (fold_left ?f _ _) ch = rlsum ?G1 _ /\ _ = rlsum ?G2 _ =>
    assert (G : forall l acc, fst (fold_left f l acc) ch = (fst acc ch + rlsum G1 l)%R /\ snd (fold_left f l acc) ch = (snd acc ch + rlsum G2 l)%R) end.
  { induction l as [|c l IH]; intros acc.
    - cbn [fold_left lsum_ fold_right]. split; ring.
    - cbn [fold_left]. match goal with |- context [fold_left _ l ?a] => destruct (IH a) as (I1 & I2) end. rewrite I1, I2. rewrite !rlsum_cons. unfold up_hits.
      destruct (up_local_wo _ _ _ _ _); cbv zeta; cbn [fst snd]; unfold al; split; ring. }
  destruct (G (csr_row roff col h) (fun _ => 0%R, fun _ => 0%R)) as (G1 & G2). rewrite G1, G2. cbn [fst snd]. split; ring.
Qed.
End Dkv.
End Scatter.
