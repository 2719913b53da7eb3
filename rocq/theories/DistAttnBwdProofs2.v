(** The backward ring kernels in terms of the global fields. *)
From Coq Require Import List Arith Lia Bool ZArith Reals Lra Permutation.
From Verif Require Import TensorModel TensorProofs BigSum DiscoModel PrimModel PrimSpec PrimProofs AttnModel AttnSpec AttnCoreProofs AttnKernelProofs AttnUpProofs AttnGradProofs
  DistStateModel DistAttnModel DistAttnBwdModel DistAttnProofs DistAttnProofs2 DistAttnProofs3 DistAttnBwdProofs.
Import ListNotations.
Local Open Scope nat_scope.

Section Cell.
Variables (Ck Cv : nat) (quad : nat -> R) (P : pattern) (Hi Wi Ho Wo Np A p a B r : nat).
Hypothesis (HNp : 1 <= Np) (HNi : Np <= Hi) (HNo : Np <= Ho) (Hp : p < Np) (HA : 1 <= A) (HAo : A <= Wo) (Ha : a < A) (HWi : 1 <= Wi) (HWo : 1 <= Wo).
Let lo_i := chunk_lo Hi Np p. Let len_i := chunk_len Hi Np p. Let lo_o := chunk_lo Ho Np p. Let len_o := chunk_len Ho Np p.
Let lon_o := chunk_lo Wo A a. Let wid_o := chunk_len Wo A a.
Let lon_i s := chunk_lo Wi A s. Let wid_i s := chunk_len Wi A s.
Let start := (Z.of_nat lo_i - Z.of_nat r)%Z.
Variables (kg vg qg dg : fld) (kx vx : nat -> fld) (qy dy : fld).
Hypothesis HK : forall s b hl wl d, s < A -> b < B -> hl < len_i + 2 * r -> wl < wid_i s -> r <= lo_i + hl -> lo_i + hl < r + Hi ->
  (d < Ck -> kx s b hl wl d = kg b (lo_i + hl - r) (lon_i s + wl) d) /\ (d < Cv -> vx s b hl wl d = vg b (lo_i + hl - r) (lon_i s + wl) d).
Hypothesis HQ : forall b y x d, b < B -> y < len_o -> x < wid_o -> d < Ck -> qy b y x d = qg b (lo_o + y) (lon_o + x) d.
Hypothesis HD : forall b y x d, b < B -> y < len_o -> x < wid_o -> d < Cv -> dy b y x d = dg b (lo_o + y) (lon_o + x) d.
Let Gw := wt Ck quad kg qg.

Lemma dot_gdot : forall s b ho wo hl wl, s < A -> b < B -> hl < len_i + 2 * r -> wl < wid_i s -> r <= lo_i + hl -> lo_i + hl < r + Hi -> ho < len_o -> wo < wid_o ->
  dot Cv (dy b ho wo) (vx s b hl wl) = g_dot Cv vg dg b (lo_o + ho) (lon_o + wo) (lo_i + hl - r, lon_i s + wl).
Proof. intros. unfold dot, g_dot. apply bsum_ext. intros c Hc. rewrite HD by auto. destruct (HK s b hl wl c) as (_ & ->); auto. Qed.
Lemma dot_kscore : forall s b ho wo hl wl, s < A -> b < B -> hl < len_i + 2 * r -> wl < wid_i s -> r <= lo_i + hl -> lo_i + hl < r + Hi -> ho < len_o -> wo < wid_o ->
  dot Ck (qy b ho wo) (kx s b hl wl) = score Ck (kg b) (qg b) (lo_o + ho) (lon_o + wo) (lo_i + hl - r, lon_i s + wl).
Proof. intros. unfold dot, score. apply bsum_ext. intros c Hc. rewrite HQ by auto. destruct (HK s b hl wl c) as (-> & _); auto. Qed.

(** ** Pass 1, gather direction *)
Lemma pass1_gather : forall row_idx s b ho wo buf D N, pattern_ok P Ho (Hi * Wi) -> Permutation row_idx (seq 0 len_o) ->
  r = compute_r_lat Np Wi (bal Hi Np) (bal Ho Np) (offsets 0 P) (columns P) -> s < A -> b < B -> ho < len_o -> wo < wid_o ->
  let C := 1 + 2 * Ck in
  stands C (pack Ck (buf b ho wo)) D N ->
  let psi := local_psi Wi Wo (bal Ho Np) (offsets 0 P) (columns P) p lon_o in
  let NB := nbrs_gather P Wi Wo (lo_o + ho) (lon_o + wo) in
  stands C (pack Ck (bring_step Ck Cv quad (fst psi) (snd psi) (len_i + 2 * r) (wid_i s) (lon_i s) start len_o wid_o (kx s) (vx s) qy dy Wi (Wi / Wo) row_idx B buf b ho wo))
    (D + part Wi A s (Gw b (lo_o + ho) (lon_o + wo)) NB)
    (fun c => (N c + part Wi A s (fun pt => Gw b (lo_o + ho) (lon_o + wo) pt * ext Ck (g_dot Cv vg dg b (lo_o + ho) (lon_o + wo) pt) (kg b (fst pt) (snd pt)) c) NB)%R).
Proof.
  intros row_idx s b ho wo buf D N HP HR Hr Hs Hb Hh Hw C S psi NB.
  set (vx' := fun (s b h w : nat) => ext Ck (dot Cv (dy b ho wo) (vx s b h w)) (kx s b h w)).
  set (vg' := fun (b h w : nat) => ext Ck (g_dot Cv vg dg b (lo_o + ho) (lon_o + wo) (h, w)) (kg b h w)).
  pose proof (gather_visit Ck C quad P Hi Wi Ho Wo Np A p a B r HNp HNi HNo Hp HA HAo Ha HWi HWo kg vg' qg kx vx' qy) as GV'.
  fold lo_i len_i lo_o len_o lon_o wid_o start in GV'.
  assert (HK' : forall s b hl wl d, s < A -> b < B -> hl < len_i + 2 * r -> wl < wid_i s -> r <= lo_i + hl -> lo_i + hl < r + Hi ->
    (d < Ck -> kx s b hl wl d = kg b (lo_i + hl - r) (lon_i s + wl) d) /\ (d < C -> vx' s b hl wl d = vg' b (lo_i + hl - r) (lon_i s + wl) d)).
  { intros s0 b0 hl wl d H1 H2 H3 H4 H5 H6. split; [apply HK; auto|]. intros Hd. unfold vx', vg', ext. rewrite dot_gdot by auto.
    destruct (Nat.eqb_spec d 0); [reflexivity|]. destruct (Nat.leb_spec d Ck).
    - apply HK; auto. lia.
    - f_equal. apply HK; auto. unfold C in Hd. lia. }
  specialize (GV' HK' HQ row_idx s b ho wo (fun _ _ _ => pack Ck (buf b ho wo)) D N HP HR Hr Hs Hb Hh Hw S). cbv zeta in GV'.
  rewrite bring_step_cell by auto. rewrite ring_step_cell in GV' by auto.
  eapply stands_same; [apply pack_visits, rsame_refl|]. 
  eapply stands_ext; [reflexivity| |exact GV']. intros c _. reflexivity.
Qed.
Lemma forget_gather : forall row_idx s b ho wo buf (sv : rbuf), Permutation row_idx (seq 0 len_o) -> b < B -> ho < len_o -> wo < wid_o ->
  b_sum (buf b ho wo) = r_sum (sv b ho wo) -> b_max (buf b ho wo) = r_max (sv b ho wo) -> forall roff col,
  let st := bring_step Ck Cv quad roff col (len_i + 2 * r) (wid_i s) (lon_i s) start len_o wid_o (kx s) (vx s) qy dy Wi (Wi / Wo) row_idx B buf b ho wo in
  let sv' := ring_step Ck quad roff col (len_i + 2 * r) (wid_i s) (lon_i s) start len_o wid_o (kx s) (vx s) qy Wi (Wi / Wo) row_idx B sv b ho wo in
  b_sum st = r_sum sv' /\ b_max st = r_max sv'.
Proof.
  intros row_idx s b ho wo buf sv HR Hb Hh Hw E1 E2 roff col st sv'. unfold st, sv'. rewrite bring_step_cell, ring_step_cell by auto. apply forget_visits; auto.
Qed.

(** ** Pass 1, scatter direction *)
Lemma pass1_scatter : forall s b ho wo (maxs : nat -> nat -> nat -> option R) (buf : bbuf) m, pattern_ok P Hi (Ho * Wo) -> Wo mod Wi = 0 ->
  r = compute_r_lat_up Np Wo Hi (bal Hi Np) (bal Ho Np) (offsets 0 P) (columns P) -> s < A -> b < B -> ho < len_o -> wo < wid_o -> maxs b ho wo = Some m ->
  let psi := local_psi_up Wo Hi (bal Hi Np) (bal Ho Np) (offsets 0 P) (columns P) p lon_o r in
  let NB := nbrs_scatter P Hi Wi Wo (lo_o + ho) (lon_o + wo) in
  let g := g_dot Cv vg dg b (lo_o + ho) (lon_o + wo) in let W := Gw b (lo_o + ho) (lon_o + wo) in
  let st := bring_step_up Ck Cv quad (fst psi) (snd psi) (len_i + 2 * r) (wid_i s) (lon_i s) start wid_o (kx s) (vx s) qy dy Wo (Wo / Wi) maxs B buf b ho wo in
  (b_int st * exp m = b_int (buf b ho wo) * exp m + part Wi A s (fun pt => W pt * g pt) NB)%R /\
  forall c, c < Ck -> (b_k st c * exp m = b_k (buf b ho wo) c * exp m + part Wi A s (fun pt => W pt * kg b (fst pt) (snd pt) c) NB)%R /\
    (b_kvw st c * exp m = b_kvw (buf b ho wo) c * exp m + part Wi A s (fun pt => W pt * (g pt * kg b (fst pt) (snd pt) c)) NB)%R.
Proof.
  intros s b ho wo maxs buf m HP HU Hr Hs Hb Hh Hw Hm psi NB g W st.
  pose proof (bring_step_up_cell Ck Cv quad (fst psi) (snd psi) (len_i + 2 * r) (wid_i s) (lon_i s) start wid_o (kx s) (vx s) qy dy Wo (Wo / Wi) maxs B buf b ho wo m Hb Hm) as Q.
  cbv zeta in Q. destruct Q as (Q1 & Q2). fold st in Q1, Q2.
  assert (SC : forall hl wl t, hl < len_i + 2 * r -> wl < wid_i s -> r <= lo_i + hl -> lo_i + hl < r + Hi -> pt_eqb (ho, wo) t = true ->
     (quad (Z.to_nat (start + Z.of_nat hl)) * exp (trip_score Ck (kx s) qy b (hl, wl, t)))%R = W (lo_i + hl - r, lon_i s + wl)).
  { intros hl wl [y x] H1 H2 H3 H4 E. apply pt_eqb_iff in E. injection E as <- <-. unfold W, Gw, wt, trip_score. cbn [fst snd].
    replace (Z.to_nat (start + Z.of_nat hl)) with (lo_i + hl - r) by (unfold start; lia). rewrite dot_kscore by auto. reflexivity. }
  assert (GD : forall hl wl t, hl < len_i + 2 * r -> wl < wid_i s -> r <= lo_i + hl -> lo_i + hl < r + Hi -> pt_eqb (ho, wo) t = true ->
     trip_gdotv Cv (vx s) dy b (hl, wl, t) = g (lo_i + hl - r, lon_i s + wl)).
  { intros hl wl [y x] H1 H2 H3 H4 E. apply pt_eqb_iff in E. injection E as <- <-. unfold trip_gdotv. cbn [fst snd]. apply dot_gdot; auto. }
  assert (TS : forall (X : nat -> nat -> R) F,
    (forall hl wl t, hl < len_i + 2 * r -> wl < wid_i s -> r <= lo_i + hl -> lo_i + hl < r + Hi -> F ((hl, wl), t) = if pt_eqb (ho, wo) t then X (lo_i + hl - r) (lon_i s + wl) else 0%R) ->
    rlsum F (chunk_trips (fst psi) (snd psi) (len_i + 2 * r) (wid_i s) (lon_i s) wid_o Wo (Wo / Wi)) = part Wi A s (fun pt => X (fst pt) (snd pt)) NB).
  { intros X F HF. apply trips_sum with (Np := Np); auto. }
  split; [|intros c Hc; destruct (Q2 c) as (Q3 & Q4); split].
  - rewrite Q1. f_equal. rewrite (TS (fun h w => (W (h, w) * g (h, w))%R)).
    + unfold part. apply lsum_ext. intros [h w] _. reflexivity.
    + intros hl wl t H1 H2 H3 H4. cbn [fst snd]. destruct (pt_eqb (ho, wo) t) eqn:E; [|ring]. rewrite SC, GD by auto. reflexivity.
  - rewrite Q3. f_equal. rewrite (TS (fun h w => (W (h, w) * kg b h w c)%R)).
    + unfold part. apply lsum_ext. intros [h w] _. reflexivity.
    + intros hl wl t H1 H2 H3 H4. cbn [fst snd]. destruct (pt_eqb (ho, wo) t) eqn:E; [|ring]. rewrite SC by auto. destruct (HK s b hl wl c) as (-> & _); auto.
  - rewrite Q4. f_equal. rewrite (TS (fun h w => (W (h, w) * (g (h, w) * kg b h w c))%R)).
    + unfold part. apply lsum_ext. intros [h w] _. reflexivity.
    + intros hl wl t H1 H2 H3 H4. cbn [fst snd]. destruct (pt_eqb (ho, wo) t) eqn:E; [|ring]. rewrite SC, GD by auto. destruct (HK s b hl wl c) as (-> & _); auto.
Qed.

(** ** Pass 2 *)
Section Pass2.
Variables (sums : nat -> nat -> nat -> R) (maxs : nat -> nat -> nat -> option R) (inorm : nat -> nat -> nat -> R) (NB : nat -> nat -> list (nat * nat)).
Hypothesis HS : forall b y x, b < B -> y < len_o -> x < wid_o -> g_den Ck quad NB kg qg b (lo_o + y) (lon_o + x) <> 0%R /\
  inorm b y x = g_bar Ck Cv quad NB kg vg qg dg b (lo_o + y) (lon_o + x) /\
  exists m, maxs b y x = Some m /\ (sums b y x * exp m)%R = g_den Ck quad NB kg qg b (lo_o + y) (lon_o + x).
Let prob b y x pt := g_prob Ck quad NB kg qg b y x pt.
Let gwt b y x pt := g_wt Ck Cv quad NB kg vg qg dg b y x pt.
Lemma sum_inv : forall D S e sc q, D <> 0%R -> e <> 0%R -> (S * e)%R = D -> (sc / e * q * (1 / S))%R = (q * sc / D)%R.
Proof. intros D S e sc q HD' He <-. assert (S <> 0)%R by (intros Z; apply HD'; rewrite Z; ring). field. auto. Qed.
Lemma alpha_prob : forall b y x h w s, b < B -> y < len_o -> x < wid_o -> s = score Ck (kg b) (qg b) (lo_o + y) (lon_o + x) (h, w) ->
  (match maxs b y x with None => 0 | Some m => exp (s - m) end * quad h * (1 / sums b y x))%R = prob b (lo_o + y) (lon_o + x) (h, w).
Proof.
  intros b y x h w s Hb Hy Hx ->. destruct (HS b y x Hb Hy Hx) as (D0 & _ & m & -> & E). unfold prob, g_prob. cbn [fst].
  rewrite <- (sum_inv _ _ _ _ _ D0 (Rgt_not_eq _ _ (exp_pos m)) E). f_equal. f_equal.
  unfold Rminus. rewrite exp_plus, exp_Ropp. reflexivity.
Qed.
Lemma pass2_gather : forall row_idx s b hl wl ch, pattern_ok P Ho (Hi * Wi) -> Permutation row_idx (seq 0 len_o) ->
  r = compute_r_lat Np Wi (bal Hi Np) (bal Ho Np) (offsets 0 P) (columns P) -> (forall y x, NB y x = nbrs_gather P Wi Wo y x) ->
  s < A -> b < B -> hl < len_i + 2 * r -> wl < wid_i s -> r <= lo_i + hl -> lo_i + hl < r + Hi ->
  let psi := local_psi Wi Wo (bal Ho Np) (offsets 0 P) (columns P) p lon_o in
  let res := dkv_step Ck Cv quad (fst psi) (snd psi) (len_i + 2 * r) (wid_i s) (lon_i s) start len_o wid_o (kx s) (vx s) qy dy Wi (Wi / Wo) row_idx sums maxs inorm B in
  (ch < Ck -> fst res b hl wl ch = rsum len_o (fun ho => rsum wid_o (fun wo => rlsum (fun pt => if pt_eqb (lo_i + hl - r, lon_i s + wl) pt
     then (qg b (lo_o + ho)%nat (lon_o + wo)%nat ch * gwt b (lo_o + ho)%nat (lon_o + wo)%nat pt)%R else 0%R) (NB (lo_o + ho) (lon_o + wo))))) /\
  (ch < Cv -> snd res b hl wl ch = rsum len_o (fun ho => rsum wid_o (fun wo => rlsum (fun pt => if pt_eqb (lo_i + hl - r, lon_i s + wl) pt
     then (prob b (lo_o + ho)%nat (lon_o + wo)%nat pt * dg b (lo_o + ho)%nat (lon_o + wo)%nat ch)%R else 0%R) (NB (lo_o + ho) (lon_o + wo))))).
Proof.
  intros row_idx s b hl wl ch HP HR Hr HN Hs Hb Hhl Hwl V1 V2 psi res.
  pose proof (chunk_bound Ho Np p HNp Hp) as HB. fold lo_o len_o in HB.
  destruct (dkv_sum Ck Cv quad (fst psi) (snd psi) (len_i + 2 * r) (wid_i s) (lon_i s) start len_o wid_o (kx s) (vx s) qy dy Wi (Wi / Wo) row_idx sums maxs inorm B b hl wl ch HR Hb) as (E1 & E2).
  cbv zeta in E1, E2. fold res in E1, E2.
  assert (G : forall (f : nat -> nat -> nat -> nat -> nat -> R) (f' : nat -> nat -> nat * nat -> R),
    (forall ho wo, ho < len_o -> wo < wid_o -> f ho wo (lo_i + hl - r) hl wl = f' ho wo (lo_i + hl - r, lon_i s + wl)) ->
    rlsum (fun ho => rlsum (fun wo => rlsum (hits (len_i + 2 * r) (wid_i s) (lon_i s) start Wi (Wi / Wo) (f ho wo) wo hl wl) (csr_row (fst psi) (snd psi) ho)) (seq 0 wid_o)) (seq 0 len_o) =
    rsum len_o (fun ho => rsum wid_o (fun wo => rlsum (fun pt => if pt_eqb (lo_i + hl - r, lon_i s + wl) pt then f' ho wo pt else 0%R) (NB (lo_o + ho) (lon_o + wo))))).
  { intros f f' Hf. rewrite (lsum_seq RT). apply bsum_ext. intros ho Hho. rewrite (lsum_seq RT). apply bsum_ext. intros wo Hwo. rewrite HN.
    unfold psi. rewrite local_psi_row.
    2:{ rewrite starts_bal, chunk_len_nth by auto. fold lo_o len_o. rewrite (proj1 HP). lia. }
    2:{ rewrite chunk_len_nth by auto. exact Hho. }
    rewrite starts_bal by auto. fold lo_o. unfold nbrs_gather, rotated. rewrite !lsum_map. apply lsum_ext. intros c Hc.
    pose proof (r_lat_covers P Hi Ho Wi Np p (lo_o + ho) c HNp HNi HNo HP Hp) as Q. cbv zeta in Q. rewrite <- Hr in Q.
    fold lo_o len_o lo_i len_i in Q. destruct Q as (C1 & C2); auto; try lia.
    assert (Cb : c < Hi * Wi) by (eapply row_bound; eauto). destruct (col_split c Hi Wi Cb) as (C3 & C4).
    destruct (shift_col_split Wi Wo lon_o c HWi) as (F1 & F2). unfold hits, chunk_hit. cbv zeta. rewrite F1, F2.
    set (w' := (c mod Wi + Wi / Wo * (lon_o + wo)) mod Wi). unfold pt_eqb. cbn [fst snd].
    destruct (Nat.ltb_spec w' (lon_i s)); cbn [orb].
    { rewrite (proj2 (Nat.eqb_neq (lon_i s + wl) w')), andb_false_r by lia. reflexivity. }
    destruct (Nat.leb_spec (lon_i s + wid_i s) w').
    { rewrite (proj2 (Nat.eqb_neq (lon_i s + wl) w')), andb_false_r by lia. reflexivity. }
    rewrite (proj2 (Z.ltb_ge _ _)), (proj2 (Z.leb_gt _ _)) by (unfold start; lia). cbn [orb].
    replace (Z.to_nat (Z.of_nat (c / Wi) - start)) with (c / Wi + r - lo_i) by (unfold start; lia).
    destruct (Nat.eqb_spec hl (c / Wi + r - lo_i)) as [Eh|Eh].
    - rewrite (proj2 (Nat.eqb_eq (lo_i + hl - r) (c / Wi))) by lia. cbn [andb].
      destruct (Nat.eqb_spec wl (w' - lon_i s)) as [Ew|Ew].
      + rewrite (proj2 (Nat.eqb_eq (lon_i s + wl) w')) by lia.
        replace (c / Wi, w') with (lo_i + hl - r, lon_i s + wl) by (f_equal; lia). rewrite <- Hf by auto.
        rewrite <- Eh, <- Ew. f_equal. lia.
      + rewrite (proj2 (Nat.eqb_neq (lon_i s + wl) w')) by lia. reflexivity.
    - rewrite (proj2 (Nat.eqb_neq (lo_i + hl - r) (c / Wi))) by lia. reflexivity. }
  split; intros Hch; [rewrite E1|rewrite E2].
  - rewrite (G (fun ho wo hg hl wl => scale_at Ck Cv quad (kx s) (vx s) qy dy sums maxs inorm b ho wo hg hl wl * qy b ho wo ch)%R (fun ho wo pt => (qg b (lo_o + ho)%nat (lon_o + wo)%nat ch * gwt b (lo_o + ho)%nat (lon_o + wo)%nat pt)%R)); [reflexivity|].
    intros ho wo Hho Hwo. unfold scale_at, alpha_at. rewrite (alpha_prob b ho wo _ (lon_i s + wl)) by (auto; apply dot_kscore; auto).
    rewrite dot_gdot by auto. destruct (HS b ho wo Hb Hho Hwo) as (_ & -> & _). rewrite HQ by auto. unfold gwt, g_wt, prob. ring.
  - rewrite (G (fun ho wo hg hl wl => alpha_at Ck quad (kx s) qy sums maxs b ho wo hg hl wl * dy b ho wo ch)%R (fun ho wo pt => (prob b (lo_o + ho)%nat (lon_o + wo)%nat pt * dg b (lo_o + ho)%nat (lon_o + wo)%nat ch)%R)); [reflexivity|].
    intros ho wo Hho Hwo. unfold alpha_at. rewrite (alpha_prob b ho wo _ (lon_i s + wl)) by (auto; apply dot_kscore; auto).
    rewrite HD by auto. reflexivity.
Qed.
Lemma pick_pair : forall (f : nat -> nat -> R) n m i j, i < n -> j < m -> rsum n (fun x => rsum m (fun y => if pt_eqb (x, y) (i, j) then f x y else 0%R)) = f i j.
Proof.
  intros f n m i j Hi' Hj. unfold pt_eqb. cbn [fst snd].
  rewrite (bsum_ext n _ (fun x => if x =? i then rsum m (fun y => if y =? j then f x y else 0%R) else 0%R)).
  - rewrite (bsum_delta_f RT) by auto. apply (bsum_delta_f RT); auto.
  - intros x _. destruct (x =? i); cbn [andb]; [reflexivity|]. apply (bsum_zero' RT). intros; reflexivity.
Qed.
Lemma pass2_scatter : forall s b hl wl ch, pattern_ok P Hi (Ho * Wo) -> Wo mod Wi = 0 ->
  r = compute_r_lat_up Np Wo Hi (bal Hi Np) (bal Ho Np) (offsets 0 P) (columns P) -> (forall y x, NB y x = nbrs_scatter P Hi Wi Wo y x) ->
  s < A -> b < B -> hl < len_i + 2 * r -> wl < wid_i s -> r <= lo_i + hl -> lo_i + hl < r + Hi ->
  let psi := local_psi_up Wo Hi (bal Hi Np) (bal Ho Np) (offsets 0 P) (columns P) p lon_o r in
  let res := dkv_step_up Ck Cv quad (fst psi) (snd psi) (len_i + 2 * r) (wid_i s) (lon_i s) start wid_o (kx s) (vx s) qy dy Wo (Wo / Wi) sums maxs inorm B in
  (ch < Ck -> fst res b hl wl ch = rsum len_o (fun ho => rsum wid_o (fun wo => rlsum (fun pt => if pt_eqb (lo_i + hl - r, lon_i s + wl) pt
     then (qg b (lo_o + ho)%nat (lon_o + wo)%nat ch * gwt b (lo_o + ho)%nat (lon_o + wo)%nat pt)%R else 0%R) (NB (lo_o + ho) (lon_o + wo))))) /\
  (ch < Cv -> snd res b hl wl ch = rsum len_o (fun ho => rsum wid_o (fun wo => rlsum (fun pt => if pt_eqb (lo_i + hl - r, lon_i s + wl) pt
     then (prob b (lo_o + ho)%nat (lon_o + wo)%nat pt * dg b (lo_o + ho)%nat (lon_o + wo)%nat ch)%R else 0%R) (NB (lo_o + ho) (lon_o + wo))))).
Proof.
  intros s b hl wl ch HP HU Hr HN Hs Hb Hhl Hwl V1 V2 psi res.
  pose proof (chunk_bound Ho Np p HNp Hp) as HBo. fold lo_o len_o in HBo.
  pose proof (chunk_bound Wi A s HA Hs) as HBi. fold (lon_i s) (wid_i s) in HBi.
  pose proof (chunk_bound Wo A a HA Ha) as HBw. fold lon_o wid_o in HBw.
  destruct (dkv_sum_up Ck Cv quad (fst psi) (snd psi) (len_i + 2 * r) (wid_i s) (lon_i s) start wid_o (kx s) (vx s) qy dy Wo (Wo / Wi) sums maxs inorm B b hl wl ch Hb Hhl Hwl) as (E1 & E2).
  cbv zeta in E1, E2. fold res in E1, E2.
  set (h := lo_i + hl - r) in *. set (w := lon_i s + wl) in *.
  assert (G : forall (f : nat -> nat -> R) (f' : nat -> nat -> nat * nat -> R),
    (forall ho wo, ho < len_o -> wo < wid_o -> f ho wo = f' ho wo (h, w)) ->
    rlsum (up_hits (lon_i s) wid_o Wo (Wo / Wi) f wl) (csr_row (fst psi) (snd psi) hl) =
    rsum len_o (fun ho => rsum wid_o (fun wo => rlsum (fun pt => if pt_eqb (h, w) pt then f' ho wo pt else 0%R) (NB (lo_o + ho) (lon_o + wo))))).
  { intros f f' Hf.
    transitivity (rlsum (fun c => rsum len_o (fun ho => rsum wid_o (fun wo => if pt_eqb (lo_o + ho, lon_o + wo) (c / Wo, (c mod Wo + Wo / Wi * w) mod Wo) then f ho wo else 0%R))) (nth h P [])).
    - assert (ER : csr_row (fst psi) (snd psi) hl = up_row P Hi r lo_i lo_o (lo_o + len_o) Wo lon_o hl).
      { unfold psi. rewrite local_psi_up_row; auto.
        - rewrite !starts_bal, !chunk_len_nth by auto. reflexivity.
        - exact (proj1 HP).
        - lia.
        - rewrite chunk_len_nth by auto. fold len_i. lia. }
      rewrite ER. unfold up_row. rewrite (proj2 (Nat.leb_le _ _) V1), (proj2 (Nat.ltb_lt _ _) V2). cbn [andb]. fold h. rewrite lsum_map, (lsum_filter RT).
      apply lsum_ext. intros c Hc. assert (Hc' : c < Ho * Wo) by (eapply row_bound; eauto).
      pose proof (fun ho wo => row_target P Hi Wi Ho Wo Np A p a r HNp HNi HNo Hp HA HAo Ha HWi HWo c w ho wo HP HU ltac:(lia) Hc') as RT'. fold lo_o len_o lon_o wid_o in RT'.
      unfold up_hits. fold w.
      transitivity (rsum len_o (fun ho => rsum wid_o (fun wo => if (if keep lo_o (lo_o + len_o) Wo c
         then match up_local_wo wid_o Wo (Wo / Wi) (recol lo_o Wo lon_o c mod Wo) w with None => false | Some w' => pt_eqb (ho, wo) (recol lo_o Wo lon_o c / Wo, w') end
         else false) then f ho wo else 0%R))).
      2:{ apply bsum_ext. intros ho Hho. apply bsum_ext. intros wo Hwo. rewrite RT' by auto. reflexivity. }
      destruct (keep lo_o (lo_o + len_o) Wo c) eqn:EK.
      2:{ symmetry. apply (bsum_zero' RT). intros. apply (bsum_zero' RT). intros. reflexivity. }
      destruct (up_local_wo wid_o Wo (Wo / Wi) (recol lo_o Wo lon_o c mod Wo) w) as [w'|] eqn:EW.
      2:{ symmetry. apply (bsum_zero' RT). intros. apply (bsum_zero' RT). intros. reflexivity. }
      symmetry. apply (pick_pair f).
      + unfold keep in EK. apply andb_prop in EK. destruct EK as (K1 & K2). apply Nat.leb_le in K1. apply Nat.ltb_lt in K2. unfold recol.
        rewrite Nat.div_add_l by lia. rewrite (Nat.div_small (_ mod Wo)) by (apply Nat.mod_upper_bound; lia). lia.
      + unfold up_local_wo in EW. cbv zeta in EW. match type of EW with context [?x <? wid_o] => destruct (Nat.ltb_spec x wid_o); [|discriminate] end. injection EW as <-. auto.
    - rewrite (rlsum_rsum_swap _ len_o). apply bsum_ext. intros ho Hho. rewrite (rlsum_rsum_swap _ wid_o). apply bsum_ext. intros wo Hwo.
      rewrite HN, scatter_sum, (lsum_seq RT).
      assert (HH : h < Hi) by (unfold h; lia). assert (HWw : w < Wi) by (unfold w; lia).
      transitivity (rsum Hi (fun hi => rsum Wi (fun wi => if pt_eqb (hi, wi) (h, w) then
          rlsum (fun c => if pt_eqb (lo_o + ho, lon_o + wo) (c / Wo, (c mod Wo + Wo / Wi * wi) mod Wo) then f' ho wo (hi, wi) else 0%R) (nth hi P []) else 0%R))).
      + rewrite (pick_pair (fun hi wi => rlsum (fun c => if pt_eqb (lo_o + ho, lon_o + wo) (c / Wo, (c mod Wo + Wo / Wi * wi) mod Wo) then f' ho wo (hi, wi) else 0%R) (nth hi P []))) by auto.
        apply lsum_ext. intros c _. rewrite Hf by auto. reflexivity.
      + apply bsum_ext. intros hi _. rewrite (lsum_seq RT). apply bsum_ext. intros wi _.
        replace (pt_eqb (h, w) (hi, wi)) with (pt_eqb (hi, wi) (h, w)) by (unfold pt_eqb; cbn [fst snd]; rewrite (Nat.eqb_sym hi), (Nat.eqb_sym wi); reflexivity).
        destruct (pt_eqb (hi, wi) (h, w)); [reflexivity|]. symmetry. apply rlsum_zero. intros c _. destruct (pt_eqb _ _); reflexivity. }
  assert (AL : forall ho wo, ho < len_o -> wo < wid_o -> (trip_alpha Ck quad start (kx s) qy maxs b ((hl, wl), (ho, wo)) / sums b ho wo)%R = prob b (lo_o + ho) (lon_o + wo) (h, w)).
  { intros ho wo Hho Hwo. rewrite <- (alpha_prob b ho wo h w (trip_score Ck (kx s) qy b (hl, wl, (ho, wo)))) by (auto; unfold trip_score; cbn [fst snd]; apply dot_kscore; auto).
    unfold trip_alpha. cbn [fst snd]. replace (Z.to_nat (start + Z.of_nat hl)) with h by (unfold start, h; lia). unfold Rdiv. ring. }
  split; intros Hch; [rewrite E1|rewrite E2]; apply G; intros ho wo Hho Hwo; rewrite AL by auto.
  - unfold trip_gdotv. cbn [fst snd]. rewrite dot_gdot by auto. fold h w. destruct (HS b ho wo Hb Hho Hwo) as (_ & -> & _). rewrite HQ by auto. unfold gwt, g_wt, prob. ring.
  - rewrite HD by auto. reflexivity.
Qed.
End Pass2.
End Cell.
