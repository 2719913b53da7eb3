(** All chunks together give the softmax average over the neighbourhood. *)
From Coq Require Import List Arith Lia Bool ZArith Reals Lra Permutation.
From Verif Require Import TensorModel TensorProofs BigSum DiscoModel PrimModel PrimSpec PrimProofs AttnModel AttnSpec AttnCoreProofs AttnKernelProofs AttnUpProofs
  DistStateModel DistAttnModel DistAttnProofs DistAttnProofs2.
Import ListNotations.
Local Open Scope nat_scope.

Section Cell.
Variables (Ck Cv : nat) (quad : nat -> R) (P : pattern) (Hi Wi Ho Wo Np A p a B r : nat).
Hypothesis (HNp : 1 <= Np) (HNi : Np <= Hi) (HNo : Np <= Ho) (Hp : p < Np) (HA : 1 <= A) (HAo : A <= Wo) (Ha : a < A) (HWi : 1 <= Wi) (HWo : 1 <= Wo).
Let lo_i := chunk_lo Hi Np p. Let len_i := chunk_len Hi Np p. Let lo_o := chunk_lo Ho Np p. Let len_o := chunk_len Ho Np p.
Let lon_o := chunk_lo Wo A a. Let wid_o := chunk_len Wo A a.
Let lon_i s := chunk_lo Wi A s. Let wid_i s := chunk_len Wi A s.
Let start := (Z.of_nat lo_i - Z.of_nat r)%Z.
Variables (kg vg qg : fld) (kx vx : nat -> fld) (qy : fld).
Hypothesis HK : forall s b hl wl d, s < A -> b < B -> hl < len_i + 2 * r -> wl < wid_i s -> r <= lo_i + hl -> lo_i + hl < r + Hi ->
  (d < Ck -> kx s b hl wl d = kg b (lo_i + hl - r) (lon_i s + wl) d) /\ (d < Cv -> vx s b hl wl d = vg b (lo_i + hl - r) (lon_i s + wl) d).
Hypothesis HQ : forall b y x d, b < B -> y < len_o -> x < wid_o -> d < Ck -> qy b y x d = qg b (lo_o + y) (lon_o + x) d.

Definition wt (b y x : nat) (pt : nat * nat) : R := (quad (fst pt) * exp (score Ck (kg b) (qg b) y x pt))%R.
Definition part (s : nat) (f : nat * nat -> R) (N : list (nat * nat)) : R :=
  rlsum (fun pt => if (lon_i s <=? snd pt) && (snd pt <? lon_i s + wid_i s) then f pt else 0%R) N.

Lemma dot_score : forall b ho wo h w, b < B -> ho < len_o -> wo < wid_o -> dot Ck (qy b ho wo) (kg b h w) = score Ck (kg b) (qg b) (lo_o + ho) (lon_o + wo) (h, w).
Proof. intros. unfold dot, score. apply bsum_ext. intros c Hc. rewrite HQ by auto. reflexivity. Qed.

Lemma gather_visit : forall row_idx s b ho wo buf D N, pattern_ok P Ho (Hi * Wi) -> Permutation row_idx (seq 0 len_o) ->
  r = compute_r_lat Np Wi (bal Hi Np) (bal Ho Np) (offsets 0 P) (columns P) -> s < A -> b < B -> ho < len_o -> wo < wid_o ->
  stands Cv (buf b ho wo) D N ->
  let psi := local_psi Wi Wo (bal Ho Np) (offsets 0 P) (columns P) p lon_o in
  let NB := nbrs_gather P Wi Wo (lo_o + ho) (lon_o + wo) in
  stands Cv (ring_step Ck quad (fst psi) (snd psi) (len_i + 2 * r) (wid_i s) (lon_i s) start len_o wid_o (kx s) (vx s) qy Wi (Wi / Wo) row_idx B buf b ho wo)
    (D + part s (wt b (lo_o + ho) (lon_o + wo)) NB)
    (fun c => (N c + part s (fun pt => wt b (lo_o + ho) (lon_o + wo) pt * vg b (fst pt) (snd pt) c) NB)%R).
Proof.
  intros row_idx s b ho wo buf D N HP HR Hr Hs Hb Hh Hw S psi NB.
  pose proof (chunk_bound Ho Np p HNp Hp) as HB. fold lo_o len_o in HB.
  rewrite ring_step_cell by auto. unfold psi. rewrite local_psi_row.
  2:{ rewrite starts_bal, chunk_len_nth by auto. fold lo_o len_o. rewrite (proj1 HP). lia. }
  2:{ rewrite chunk_len_nth by auto. exact Hh. }
  rewrite starts_bal by auto. fold lo_o. set (row := nth (lo_o + ho) P []).
  assert (CV : forall c, In c row -> lo_i <= c / Wi + r /\ c / Wi < lo_i + len_i + r /\ c / Wi < Hi /\ c mod Wi < Wi).
  { intros c Hc. pose proof (r_lat_covers P Hi Ho Wi Np p (lo_o + ho) c HNp HNi HNo HP Hp) as Q. cbv zeta in Q. rewrite <- Hr in Q.
    fold lo_o len_o lo_i len_i in Q. destruct Q as (Q1 & Q2); auto; try lia. split; auto. split; auto.
    apply (col_split c Hi Wi). eapply row_bound; eauto. }
  pose proof (ring_visits Cv Ck quad (len_i + 2 * r) (wid_i s) (lon_i s) start (kx s) (vx s) qy Wi (Wi / Wo) b ho wo (kg b) (vg b) (map (shift_col Wi Wo lon_o) row) (buf b ho wo) D N) as R.
  cbv zeta in R. eapply stands_ext; [| |apply R; [| |exact S]].
  - f_equal. rewrite lsum_map. unfold NB, nbrs_gather, rotated, part. fold row. rewrite lsum_map. apply lsum_ext. intros c Hc.
    destruct (shift_col_split Wi Wo lon_o c HWi) as (E1 & E2). unfold in_chunk. cbv zeta. rewrite E1, E2. cbn [fst snd]. unfold wt. cbn [fst].
    rewrite dot_score by auto. reflexivity.
  - intros d Hd. cbn beta. f_equal. rewrite lsum_map. unfold NB, nbrs_gather, rotated, part. fold row. rewrite lsum_map. apply lsum_ext. intros c Hc.
    destruct (shift_col_split Wi Wo lon_o c HWi) as (E1 & E2). unfold in_chunk. cbv zeta. rewrite E1, E2. cbn [fst snd]. unfold wt. cbn [fst].
    rewrite dot_score by auto. destruct (_ && _); [reflexivity|ring].
  - intros c Hc. apply in_map_iff in Hc. destruct Hc as (c' & <- & Hc). destruct (CV c' Hc) as (C1 & C2 & C3 & C4).
    destruct (shift_col_split Wi Wo lon_o c' HWi) as (E1 & _). unfold in_halo. rewrite E1. unfold start. apply andb_true_intro. split; [apply Z.leb_le|apply Z.ltb_lt]; lia.
  - intros c d Hc IC. apply in_map_iff in Hc. destruct Hc as (c' & <- & Hc). destruct (CV c' Hc) as (C1 & C2 & C3 & C4).
    destruct (shift_col_split Wi Wo lon_o c' HWi) as (E1 & E2). unfold in_chunk in IC. cbv zeta in IC |- *. rewrite E1, E2 in *.
    apply andb_prop in IC. destruct IC as (I1 & I2). apply Nat.leb_le in I1. apply Nat.ltb_lt in I2.
    set (w := (c' mod Wi + Wi / Wo * (lon_o + wo)) mod Wi) in *.
    replace (Z.to_nat (Z.of_nat (c' / Wi) - start)) with (c' / Wi + r - lo_i) by (unfold start; lia).
    destruct (HK s b (c' / Wi + r - lo_i) (w - lon_i s) d) as (K1 & K2); auto; try lia.
    replace (lo_i + (c' / Wi + r - lo_i) - r) with (c' / Wi) in * by lia. replace (lon_i s + (w - lon_i s)) with w in * by lia. auto.
Qed.

(** the scatter direction *)
Lemma row_target : forall c wi ho wo, pattern_ok P Hi (Ho * Wo) -> Wo mod Wi = 0 -> wi < Wi -> c < Ho * Wo -> ho < len_o -> wo < wid_o ->
  (if keep lo_o (lo_o + len_o) Wo c
   then match up_local_wo wid_o Wo (Wo / Wi) (recol lo_o Wo lon_o c mod Wo) wi with
        | None => false | Some w => pt_eqb (ho, wo) (recol lo_o Wo lon_o c / Wo, w) end
   else false) = pt_eqb (lo_o + ho, lon_o + wo) (c / Wo, (c mod Wo + Wo / Wi * wi) mod Wo).
Proof.
  intros c wi ho wo HP HU Hwi Hc Hh Hw. destruct (up_ratio Wi Wo HWi HWo HU) as (ER & R1).
  pose proof (chunk_bound Wo A a HA Ha) as HB. fold lon_o wid_o in HB. destruct (col_split c Ho Wo Hc) as (C1 & C2).
  unfold keep, recol. set (u := (c mod Wo + Wo - lon_o) mod Wo). assert (Hu : u < Wo) by (apply Nat.mod_upper_bound; lia).
  rewrite Nat.div_add_l, (Nat.div_small u) by lia. replace (((c / Wo - lo_o) * Wo + u) mod Wo) with u by (rewrite Nat.add_comm, Nat.mod_add, Nat.mod_small by lia; auto).
  set (x := Wo / Wi * wi). assert (Hx : x < Wo). { unfold x. rewrite ER at 2. apply Nat.mul_lt_mono_pos_l; lia. }
  unfold up_local_wo. fold x.
  assert (EU : (if Wo <=? u + x then u + x - Wo else u + x) = (u + x) mod Wo).
  { destruct (Nat.leb_spec Wo (u + x)).
    - apply (Nat.mod_unique _ _ 1); lia.
    - symmetry. apply Nat.mod_small. lia. }
  cbv zeta. rewrite EU.
  assert (EM : (u + x) mod Wo = (c mod Wo + x + (Wo - lon_o)) mod Wo).
  { unfold u. rewrite Nat.add_mod_idemp_l by lia. f_equal. lia. }
  set (t := (c mod Wo + x) mod Wo). assert (Ht : t < Wo) by (apply Nat.mod_upper_bound; lia).
  assert (ET : (u + x) mod Wo = if lon_o <=? t then t - lon_o else t + Wo - lon_o).
  { rewrite EM, <- Nat.add_mod_idemp_l by lia. fold t. destruct (Nat.leb_spec lon_o t).
    - replace (t + (Wo - lon_o)) with (t - lon_o + 1 * Wo) by lia. rewrite Nat.mod_add by lia. apply Nat.mod_small. lia.
    - rewrite Nat.mod_small by lia. lia. }
  rewrite ET. unfold pt_eqb. cbn [fst snd].
  destruct (Nat.leb_spec lo_o (c / Wo)), (Nat.ltb_spec (c / Wo) (lo_o + len_o)); cbn [andb].
  2-4: symmetry; apply andb_false_iff; left; apply Nat.eqb_neq; lia.
  rewrite Nat.add_0_r.
  destruct (Nat.leb_spec lon_o t).
  - destruct (Nat.ltb_spec (t - lon_o) wid_o).
    + f_equal; [destruct (Nat.eqb_spec ho (c / Wo - lo_o)), (Nat.eqb_spec (lo_o + ho) (c / Wo)); auto; lia|destruct (Nat.eqb_spec wo (t - lon_o)), (Nat.eqb_spec (lon_o + wo) t); auto; lia].
    + symmetry. apply andb_false_iff. right. apply Nat.eqb_neq. lia.
  - destruct (Nat.ltb_spec (t + Wo - lon_o) wid_o); [exfalso; lia|]. symmetry. apply andb_false_iff. right. apply Nat.eqb_neq. lia.
Qed.

Lemma rlsum_single : forall X (bb : X -> bool) (T : X -> R) l, rlsum (fun x => x) (flat_map (fun h => if bb h then [T h] else []) l) = rlsum (fun h => if bb h then T h else 0%R) l.
Proof. intros. rewrite (lsum_flat_map RT). apply lsum_ext. intros h _. destruct (bb h); cbn [lsum_ fold_right]; ring. Qed.

Lemma trips_sum : forall (X : nat -> nat -> R) s ho wo (F : (nat * nat) * (nat * nat) -> R), pattern_ok P Hi (Ho * Wo) -> Wo mod Wi = 0 ->
  r = compute_r_lat_up Np Wo Hi (bal Hi Np) (bal Ho Np) (offsets 0 P) (columns P) -> s < A -> ho < len_o -> wo < wid_o ->
  (forall hl wl t, hl < len_i + 2 * r -> wl < wid_i s -> r <= lo_i + hl -> lo_i + hl < r + Hi ->
     F ((hl, wl), t) = if pt_eqb (ho, wo) t then X (lo_i + hl - r) (lon_i s + wl) else 0%R) ->
  let psi := local_psi_up Wo Hi (bal Hi Np) (bal Ho Np) (offsets 0 P) (columns P) p lon_o r in
  rlsum F (chunk_trips (fst psi) (snd psi) (len_i + 2 * r) (wid_i s) (lon_i s) wid_o Wo (Wo / Wi)) =
  part s (fun pt => X (fst pt) (snd pt)) (nbrs_scatter P Hi Wi Wo (lo_o + ho) (lon_o + wo)).
Proof.
  intros X s ho wo F HP HU Hr Hs Hh Hw HF psi. unfold part. rewrite scatter_sum. cbn [fst snd].
  pose proof (chunk_bound Wi A s HA Hs) as HBi. fold (lon_i s) (wid_i s) in HBi.
  set (tgt := fun c wi => pt_eqb (lo_o + ho, lon_o + wo) (c / Wo, (c mod Wo + Wo / Wi * wi) mod Wo)).
  set (T := fun hi wi => rlsum (fun c => if tgt c wi then X hi wi else 0%R) (nth hi P [])).
  transitivity (rlsum (fun hl => if (r <=? lo_i + hl) && (lo_i + hl <? r + Hi) then rlsum (fun wl => T (lo_i + hl - r) (lon_i s + wl)) (seq 0 (wid_i s)) else 0%R) (seq 0 (len_i + 2 * r))).
  { unfold chunk_trips. rewrite (lsum_flat_map RT). apply lsum_ext. intros hl Hhl. apply in_seq in Hhl.
    assert (ER : csr_row (fst psi) (snd psi) hl = up_row P Hi r lo_i lo_o (lo_o + len_o) Wo lon_o hl).
    { unfold psi. rewrite local_psi_up_row; auto.
      - rewrite !starts_bal, !chunk_len_nth by auto. reflexivity.
      - exact (proj1 HP).
      - pose proof (chunk_bound Wo A a HA Ha). fold lon_o in H. lia.
      - rewrite chunk_len_nth by auto. fold len_i. lia. }
    rewrite ER. unfold up_row. destruct (Nat.leb_spec r (lo_i + hl)) as [V1|V1]; cbn [andb].
    2:{ cbn [flat_map]. rewrite (lsum_flat_map RT). apply rlsum_zero. intros; reflexivity. }
    destruct (Nat.ltb_spec (lo_i + hl) (r + Hi)) as [V2|V2].
    2:{ cbn [flat_map]. rewrite (lsum_flat_map RT). apply rlsum_zero. intros; reflexivity. }
    rewrite (lsum_flat_map RT). apply lsum_ext. intros wl Hwl. apply in_seq in Hwl. rewrite (lsum_flat_map RT). rewrite lsum_map, (lsum_filter RT). unfold T.
    apply lsum_ext. intros c Hc.
    assert (Hc' : c < Ho * Wo) by (eapply row_bound; eauto).
    pose proof (row_target c (lon_i s + wl) ho wo HP HU ltac:(lia) Hc' Hh Hw) as RT'. unfold tgt. rewrite <- RT'.
    destruct (keep lo_o (lo_o + len_o) Wo c); [|reflexivity].
    destruct (up_local_wo wid_o Wo (Wo / Wi) (recol lo_o Wo lon_o c mod Wo) (lon_i s + wl)) as [w|]; [|reflexivity].
    cbn [lsum_ fold_right]. rewrite HF by (auto; lia). destruct (pt_eqb _ _); ring. }
  transitivity (rlsum (fun hi => if (lo_i <=? hi + r) && (hi + r <? lo_i + (len_i + 2 * r)) then rlsum (fun wl => T hi (lon_i s + wl)) (seq 0 (wid_i s)) else 0%R) (seq 0 Hi)).
  { rewrite <- !rlsum_single. f_equal. symmetry. apply (two_windows R (fun hi => [rlsum (fun wl => T hi (lon_i s + wl)) (seq 0 (wid_i s))]) Hi r lo_i (len_i + 2 * r)). }
  apply lsum_ext. intros hi Hhi. apply in_seq in Hhi.
  assert (Z : (lo_i <=? hi + r) && (hi + r <? lo_i + (len_i + 2 * r)) = false -> forall wi, T hi wi = 0%R).
  { intros Ew wi. unfold T. apply rlsum_zero. intros c Hc. unfold tgt, pt_eqb. cbn [fst snd]. destruct (Nat.eqb_spec (lo_o + ho) (c / Wo)) as [E|]; [|reflexivity].
    exfalso. pose proof (r_lat_up_covers P Hi Ho Wo Np p hi c HNp HNi HNo HP Hp) as Q. cbv zeta in Q. rewrite <- Hr in Q. fold lo_o len_o lo_i len_i in Q.
    destruct Q as (Q1 & Q2); auto; try lia. rewrite (proj2 (Nat.leb_le _ _)), (proj2 (Nat.ltb_lt _ _)) in Ew by lia. discriminate. }
  transitivity (rlsum (fun wl => T hi (lon_i s + wl)) (seq 0 (wid_i s))).
  { destruct (_ && _) eqn:Ew; [reflexivity|]. symmetry. apply rlsum_zero. intros wl _. apply Z. reflexivity. }
  transitivity (rlsum (fun wi => if (lon_i s <=? wi) && (wi <? lon_i s + wid_i s) then T hi wi else 0%R) (seq 0 Wi)).
  - rewrite <- rlsum_single.
    rewrite (window R (fun h => if (lon_i s <=? h) && (h <? lon_i s + wid_i s) then [T hi h] else []) (lon_i s) (wid_i s) Wi); [|lia|].
    2:{ intros u. destruct (Nat.leb_spec (lon_i s) u), (Nat.ltb_spec u (lon_i s + wid_i s)); cbn [andb]; congruence || lia. }
    rewrite <- flat_map_shift, (lsum_flat_map RT). apply lsum_ext. intros wl Hwl. apply in_seq in Hwl.
    rewrite (proj2 (Nat.leb_le _ _)), (proj2 (Nat.ltb_lt _ _)) by lia. cbn [andb lsum_ fold_right]. ring.
  - apply lsum_ext. intros wi Hwi. unfold T, tgt. clear Z. destruct ((lon_i s <=? wi) && (wi <? lon_i s + wid_i s)); [reflexivity|]. symmetry. apply rlsum_zero. intros c _. destruct (pt_eqb _ _); reflexivity.
Qed.

Lemma scatter_visit : forall s b ho wo buf D N, pattern_ok P Hi (Ho * Wo) -> Wo mod Wi = 0 ->
  r = compute_r_lat_up Np Wo Hi (bal Hi Np) (bal Ho Np) (offsets 0 P) (columns P) -> s < A -> b < B -> ho < len_o -> wo < wid_o ->
  stands Cv (buf b ho wo) D N ->
  let psi := local_psi_up Wo Hi (bal Hi Np) (bal Ho Np) (offsets 0 P) (columns P) p lon_o r in
  let NB := nbrs_scatter P Hi Wi Wo (lo_o + ho) (lon_o + wo) in
  stands Cv (ring_step_up Ck quad (fst psi) (snd psi) (len_i + 2 * r) (wid_i s) (lon_i s) start len_o wid_o (kx s) (vx s) qy Wo (Wo / Wi) B buf b ho wo)
    (D + part s (wt b (lo_o + ho) (lon_o + wo)) NB)
    (fun c => (N c + part s (fun pt => wt b (lo_o + ho) (lon_o + wo) pt * vg b (fst pt) (snd pt) c) NB)%R).
Proof.
  intros s b ho wo buf D N HP HU Hr Hs Hb Hh Hw S psi NB.
  assert (SC : forall hl wl t, hl < len_i + 2 * r -> wl < wid_i s -> r <= lo_i + hl -> lo_i + hl < r + Hi -> pt_eqb (ho, wo) t = true ->
     (quad (Z.to_nat (start + Z.of_nat hl)) * exp (trip_score Ck (kx s) qy b (hl, wl, t)))%R = wt b (lo_o + ho) (lon_o + wo) (lo_i + hl - r, lon_i s + wl)).
  { intros hl wl [y x] H1 H2 H3 H4 E. apply pt_eqb_iff in E. injection E as <- <-. unfold wt, trip_score. cbn [fst snd].
    replace (Z.to_nat (start + Z.of_nat hl)) with (lo_i + hl - r) by (unfold start; lia). f_equal. f_equal. rewrite <- dot_score by auto.
    unfold dot. apply bsum_ext. intros c Hc. destruct (HK s b hl wl c) as (-> & _); auto. }
  eapply stands_ext; [| |apply (ring_step_up_cell Cv); [exact S|auto|auto|auto]].
  - f_equal. apply (trips_sum (fun h w => wt b (lo_o + ho) (lon_o + wo) (h, w))); auto. intros hl wl t H1 H2 H3 H4. cbn [fst snd].
    destruct (pt_eqb (ho, wo) t) eqn:E; [|reflexivity]. apply SC; auto.
  - intros c Hc. cbn beta. f_equal. apply (trips_sum (fun h w => (wt b (lo_o + ho) (lon_o + wo) (h, w) * vg b h w c)%R)); auto. intros hl wl t H1 H2 H3 H4. cbn [fst snd].
    destruct (pt_eqb (ho, wo) t) eqn:E; [|ring]. rewrite SC by auto. destruct (HK s b hl wl c) as (_ & ->); auto.
Qed.

(** ** Any order of the chunks *)
Lemma visits_stand : forall (step : nat -> rbuf -> rbuf) b h w (d : nat -> R) (n : nat -> nat -> R) l buf D N,
  (forall s buf D N, In s l -> stands Cv (buf b h w) D N -> stands Cv (step s buf b h w) (D + d s) (fun c => (N c + n s c)%R)) ->
  stands Cv (buf b h w) D N -> stands Cv (fold_left (fun buf s => step s buf) l buf b h w) (D + rlsum d l) (fun c => (N c + rlsum (fun s => n s c) l)%R).
Proof.
  intros step b h w d n l. induction l as [|s l IH]; intros buf D N HS S.
  - cbn [fold_left]. eapply stands_ext; [| |exact S]; intros; cbn [lsum_ fold_right]; ring.
  - cbn [fold_left]. eapply stands_ext; [| |apply IH; [intros; apply HS; auto; right; auto|apply HS; [left; auto|exact S]]].
    + rewrite rlsum_cons. ring.
    + intros c _. cbn beta. rewrite rlsum_cons. ring.
Qed.
Lemma parts_whole : forall f N l, Permutation l (seq 0 A) -> (forall pt, In pt N -> snd pt < Wi) -> rlsum (fun s => part s f N) l = rlsum f N.
Proof.
  intros f N l HL. rewrite (lsum_perm RT _ _ _ _ HL). induction N as [|pt N IH]; intros HN.
  - apply rlsum_zero. intros; reflexivity.
  - rewrite rlsum_cons, <- IH by (intros; apply HN; right; auto). rewrite <- (chunk_pick Wi A (snd pt) (f pt)) by (auto; apply HN; left; auto).
    rewrite <- (lsum_plus RT). apply lsum_ext. intros s _. unfold part. rewrite rlsum_cons. reflexivity.
Qed.
End Cell.
