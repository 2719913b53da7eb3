(** The backward pass of one rank: its contributions to all columns of its halo rows. *)
From Coq Require Import List Arith Lia Bool ZArith Reals Lra Permutation.
From Verif Require Import TensorModel TensorProofs BigSum AdjointProofs DiscoModel PrimModel PrimAutogradModel PrimSpec PrimProofs HaloProofs DistSHTModel DistSHTProofs DistSpectralProofs DiscoTensorProofs DistDiscoProofs
  PrimProofs2 AttnModel AttnLayerModel AttnSpec AttnLayerSpec AttnCoreProofs AttnKernelProofs AttnOpProofs AttnOpValProofs AttnUpProofs AttnGradProofs AttnBwdProofs AttnLayerProofs
  DistStateModel DistStateProofs DistAttnModel DistAttnBwdModel DistAttnProofs DistAttnProofs2 DistAttnProofs3 DistAttnProofs4 DistAttnSpec DistAttnProofs5 DistAttnBwdProofs DistAttnBwdProofs2.
Import ListNotations.
Local Open Scope nat_scope.

Lemma bvisits_stand : forall Ck C (step : nat -> bbuf -> bbuf) b h w (d : nat -> R) (n : nat -> nat -> R) l buf D N,
  (forall s buf D N, In s l -> stands C (pack Ck (buf b h w)) D N -> stands C (pack Ck (step s buf b h w)) (D + d s) (fun c => (N c + n s c)%R)) ->
  stands C (pack Ck (buf b h w)) D N -> stands C (pack Ck (fold_left (fun buf s => step s buf) l buf b h w)) (D + rlsum d l) (fun c => (N c + rlsum (fun s => n s c) l)%R).
Proof.
  intros Ck C step b h w d n l. induction l as [|s l IH]; intros buf D N HS S.
  - cbn [fold_left]. eapply stands_ext; [| |exact S]; intros; cbn [lsum_ fold_right]; ring.
  - cbn [fold_left]. eapply stands_ext; [| |apply IH; [intros; apply HS; auto; right; auto|apply HS; [left; auto|exact S]]].
    + rewrite rlsum_cons. ring.
    + intros c _. cbn beta. rewrite rlsum_cons. ring.
Qed.
Lemma fold_pair : forall X (f g : X -> fld -> fld) l a b, fold_left (fun acc s => (f s (fst acc), g s (snd acc))) l (a, b) = (fold_left (fun acc s => f s acc) l a, fold_left (fun acc s => g s acc) l b).
Proof. intros X f g l. induction l as [|x l IH]; intros a b; [reflexivity|]. cbn [fold_left fst snd]. apply IH. Qed.
Lemma fold_add_cols : forall (lo n : nat -> nat) (ch : nat -> fld) l acc b h w c,
  fold_left (fun acc s => add_cols (lo s) (n s) (ch s) acc) l acc b h w c = (acc b h w c + rlsum (fun s => if (lo s <=? w)%nat && (w <? lo s + n s)%nat then ch s b h (w - lo s)%nat c else 0) l)%R.
Proof.
  intros lo n ch l. induction l as [|s l IH]; intros acc b h w c.
  - cbn [fold_left lsum_ fold_right]. ring.
  - cbn [fold_left]. rewrite IH, rlsum_cons. unfold add_cols. destruct (_ && _); ring.
Qed.
(** the bounds of the four quantities kept per cell *)
Lemma kept_dq : forall (l : list (nat * nat)) (a g kk : nat * nat -> R) S e I K V, e <> 0%R -> rlsum a l <> 0%R -> (S * e = rlsum a l)%R -> (I * e = rlsum (fun p => a p * g p) l)%R ->
  (K * e = rlsum (fun p => a p * kk p) l)%R -> (V * e = rlsum (fun p => a p * (g p * kk p)) l)%R ->
  (1 / S * (1 / S) * (S * V - I * K))%R = rlsum (fun p => a p / rlsum a l * (g p - rlsum (fun p => a p * g p) l / rlsum a l) * kk p)%R l.
Proof.
  intros l a g kk S e I K V He HD ES EI EK EV. rewrite <- dq_formula by auto. rewrite (rlsum_ext _ (fun p => a p * kk p * g p)%R (fun p => a p * (g p * kk p))%R) by (intros; ring).
  rewrite <- ES, <- EI, <- EK, <- EV. assert (S <> 0)%R by (intros Z; apply HD; rewrite <- ES, Z; ring). field. auto.
Qed.

Lemma chunk_rsum : forall W A (G : nat -> R), 1 <= A -> rsum A (fun s => rsum (chunk_len W A s) (fun w => G (chunk_lo W A s + w))) = rsum W G.
Proof. intros W A G HA. rewrite <- !(lsum_seq RT), <- (chunk_sum W A G HA). apply rlsum_ext. intros s _. rewrite (lsum_seq RT). reflexivity. Qed.

(** the halo exchange backward, value by value *)
Lemma halo_bwd_val : forall n rl len B C W (x : fam (tensor R)) (go : nat -> tensor R) r, (forall q, q < n -> x q = Some (go q)) ->
  (forall q, q < n -> shp (go q) = [B; C; len q + 2 * rl; W]) -> (forall q, q < n -> rl <= len q) -> r < n ->
  exists dx, halo_bwd n rl len x r = Some dx /\ shp dx = [B; C; len r; W] /\
    forall b y w c, y < len r -> cf dx b y w c = (cf (go r) b (rl + y)%nat w c + (if ((0 <? r) && (y <? rl))%nat then cf (go (r - 1)%nat) b (rl + len (r - 1) + y)%nat w c else 0)
      + (if ((r <? n - 1) && (len r - rl <=? y))%nat then cf (go (r + 1)%nat) b (y - (len r - rl))%nat w c else 0))%R.
Proof.
  intros n rl len B C W x go r Hx Hg Hlen Hr. unfold halo_bwd. rewrite Hx by auto. cbn [bindo].
  assert (ND : ndim (go r) = 4) by (unfold ndim; rewrite Hg by auto; reflexivity). rewrite ND. cbn [Nat.eqb guard bindo].
  assert (D : forall q, q < n -> dimsz (go q) 2 = len q + 2 * rl) by (intros q Hq; unfold dimsz; rewrite Hg by auto; reflexivity).
  rewrite slice_spec by (rewrite D by auto; lia). set (mid := narrow 2 rl (len r) (go r)).
  assert (Smid : shp mid = [B; C; len r; W]) by (unfold mid, narrow; cbn [shp]; rewrite Hg by auto; reflexivity).
  assert (Dmid : dimsz mid 2 = len r) by (unfold dimsz; rewrite Smid; reflexivity).
  pose proof (Hlen r Hr) as Hl. rewrite Dmid.
  assert (Sbuf : upd 2 rl (shp (go r)) = [B; C; rl; W]) by (rewrite Hg by auto; reflexivity). rewrite Sbuf.
  assert (Snar : forall q off, q < n -> shp (narrow 2 off rl (go q)) = [B; C; rl; W]) by (intros q off Hq; unfold narrow; cbn [shp]; rewrite Hg by auto; reflexivity).
  set (dx1 := if 0 <? r then add_to_rows Rplus 2 0 mid (narrow 2 (rl + len (r - 1)) rl (go (r - 1))) else mid).
  match goal with |- context [bindo ?e _] => assert (E1 : e = Some dx1) end.
  { unfold dx1. destruct (Nat.ltb_spec 0 r); auto. rewrite Hx by lia. cbn [bindo].
    rewrite (slice_from_spec _ _ _ rl) by (rewrite D by lia; lia). rewrite recv_into_ok by (apply Snar; lia). cbn [bindo].
    rewrite (proj2 (Nat.leb_le _ _) Hl). reflexivity. }
  rewrite E1. cbn [bindo].
  assert (S1 : shp dx1 = [B; C; len r; W]) by (unfold dx1; destruct (0 <? r); exact Smid).
  assert (V1 : forall b y w c, y < len r -> cf dx1 b y w c = (cf (go r) b (rl + y)%nat w c + (if ((0 <? r) && (y <? rl))%nat then cf (go (r - 1)%nat) b (rl + len (r - 1) + y)%nat w c else 0))%R).
  { intros b y w c Hy. unfold dx1. destruct (Nat.ltb_spec 0 r).
    - unfold cf, add_to_rows. cbn [val upd nth Nat.leb andb]. unfold dimsz. rewrite Snar by lia. cbn [nth Nat.add andb]. unfold mid, narrow. cbn [val upd nth].
      replace (y + rl) with (rl + y) by lia. destruct (y <? rl); [|ring]. f_equal. f_equal. f_equal. f_equal. f_equal. lia.
    - cbn [andb]. unfold cf, mid, narrow. cbn [val upd nth]. replace (y + rl) with (rl + y) by lia. ring. }
  destruct (Nat.ltb_spec r (n - 1)).
  - rewrite Hx by lia. cbn [bindo]. change (slice 2 0 rl (go (r + 1))) with (slice 2 0 (0 + rl) (go (r + 1))).
    rewrite slice_spec by (rewrite D by lia; lia). rewrite recv_into_ok by (apply Snar; lia). cbn [bindo].
    rewrite (proj2 (Nat.leb_le _ _) Hl). cbn [guard bindo].
    eexists; split; [reflexivity|]. split; [exact S1|]. intros b y w c Hy. rewrite <- V1 by auto. unfold cf at 1, add_to_rows. cbn [val upd nth]. unfold dimsz. rewrite Snar by lia. cbn [nth].
    rewrite (proj2 (Nat.ltb_lt y (len r - rl + rl))) by lia. rewrite andb_true_r. cbn [andb]. fold (cf dx1 b y w c). destruct (len r - rl <=? y); [|ring]. f_equal. unfold narrow, cf. cbn [val upd nth]. f_equal. f_equal. f_equal. f_equal. lia.
  - eexists; split; [reflexivity|]. split; [exact S1|]. intros b y w c Hy. rewrite V1 by auto. cbn [andb]. ring.
Qed.
(** a sum of which only a rank and its neighbours have a part *)
Lemma near_sum : forall n r (f : nat -> R), r < n -> (forall q, q < n -> q + 1 < r \/ r + 1 < q -> f q = 0%R) ->
  rsum n f = (f r + (if (0 <? r)%nat then f (r - 1)%nat else 0) + (if (r <? n - 1)%nat then f (r + 1)%nat else 0))%R.
Proof.
  intros n r f Hr HF.
  rewrite (rsum_ext' n f (fun q => (if q =? r then f q else 0) + ((if (q =? r - 1)%nat then (if (0 <? r)%nat then f q else 0) else 0) + (if (q =? r + 1)%nat then f q else 0)))%R).
  2:{ intros q Hq. destruct (Nat.eqb_spec q r), (Nat.eqb_spec q (r - 1)), (Nat.eqb_spec q (r + 1)), (Nat.ltb_spec 0 r); try lia; try ring. all: rewrite HF by lia; ring. }
  rewrite !(bsum_plus RT).
  assert (G : forall k (g : nat -> R), rsum n (fun q => if q =? k then g q else 0%R) = if k <? n then g k else 0%R).
  { intros k g. destruct (Nat.ltb_spec k n).
    - rewrite (rsum_ext' _ _ (fun q => if q =? k then g k else 0%R)) by (intros q _; destruct (Nat.eqb_spec q k); subst; auto). apply (bsum_delta RT). auto.
    - apply (bsum_zero' RT). intros q Hq. destruct (Nat.eqb_spec q k); [lia|auto]. }
  rewrite (G r f), (G (r - 1) (fun q => if 0 <? r then f q else 0%R)), (G (r + 1) f).
  rewrite (proj2 (Nat.ltb_lt r n)), (proj2 (Nat.ltb_lt (r - 1) n)) by lia.
  destruct (Nat.ltb_spec (r + 1) n), (Nat.ltb_spec r (n - 1)); try lia; ring.
Qed.

Section Op.
Variables (argsort : list nat -> list nat) (L : weights) (B Ci Ck Cv nh Hi Wi Ho Wo : nat) (quad : nat -> R) (P : pattern) (k v q : tensor R).
Variables (Np A : nat) (ranks : nat -> list nat).
Let SL := na_layer L Hi Wi Ho Wo nh quad P.
Let obj := dist_na_init argsort Np A SL.
Hypothesis HN : na_ok B Ci nh Ck Cv Hi Wi Ho Wo quad P k v q.
Hypothesis HArg : forall l, Permutation (argsort l) (seq 0 (length l)).
Hypothesis (HNp : 1 <= Np) (HNi : Np <= Hi) (HNo : Np <= Ho) (HA : 1 <= A) (HAi : A <= Wi) (HAo : A <= Wo).
Hypothesis HS : forall a, a < A -> if Wi mod Wo =? 0 then chunk_len Wi A a = Wi / Wo * chunk_len Wo A a else chunk_len Wo A a = Wo / Wi * chunk_len Wi A a.
Hypothesis HR : forall p, p < Np -> NoDup (ranks p) /\ length (ranks p) = A.
Hypothesis HH : forall p a o, p < Np -> a < A -> obj p a = Some o -> da_r_lat o <= chunk_len Hi Np p.
Variables (KG VG QG DG : fld) (proj : pfam (tensor R * tensor R * tensor R)) (dyf : pfam (tensor R)).
Hypothesis HP : forall p a, p < Np -> a < A -> exists kt vt qt, proj p a = Some (kt, vt, qt) /\
  teq kt (shard 2 Np p (shard 3 A a (mk_cf (B * nh) Ck Hi Wi KG))) /\ teq vt (shard 2 Np p (shard 3 A a (mk_cf (B * nh) Cv Hi Wi VG))) /\
  teq qt (shard 2 Np p (shard 3 A a (mk_cf (B * nh) Ck Ho Wo QG))).
Hypothesis HDy : holds2 Np A dyf (fun p a => shard 2 Np p (shard 3 A a (mk_cf (B * nh) Cv Ho Wo DG))).

Let up := na_upsample Wi Wo.
Let rl := if up then compute_r_lat_up Np Wo Hi (bal Hi Np) (bal Ho Np) (offsets 0 P) (columns P)
          else compute_r_lat Np Wi (bal Hi Np) (bal Ho Np) (offsets 0 P) (columns P).
Let psi p a := if up then local_psi_up Wo Hi (bal Hi Np) (bal Ho Np) (offsets 0 P) (columns P) p (chunk_lo Wo A a) rl
               else local_psi Wi Wo (bal Ho Np) (offsets 0 P) (columns P) p (chunk_lo Wo A a).
Let chunk := dist_chunk Np obj proj.
Let NB := nbrs P Hi Wi Wo.

Lemma op_up : up = negb (Wi mod Wo =? 0).
Proof. exact (up_iff B Ci Ck Cv nh Hi Wi Ho Wo quad P k v q Np A HN HS). Qed.
Lemma op_init : forall p a, p < Np -> a < A -> exists row, obj p a =
  Some (mkDA SL up (bal Hi Np) (bal Wi A) (bal Ho Np) (bal Wo A) rl (fst (psi p a)) (snd (psi p a)) row) /\
  (up = false -> Permutation row (seq 0 (chunk_len Ho Np p))).
Proof. exact (init_some argsort L B Ci Ck Cv nh Hi Wi Ho Wo quad P k v q Np A HN HArg HNp HNi HNo HA HAi HAo HS). Qed.
Lemma op_halo : forall (x : pfam (tensor R)) C F, holds2 Np A x (fun p a => shard 2 Np p (shard 3 A a (mk_cf (B * nh) C Hi Wi F))) ->
  forall p a, p < Np -> a < A -> exists t, dist_halo Np obj x p a = Some t /\ shp t = [B * nh; C; chunk_len Hi Np p + 2 * rl; chunk_len Wi A a] /\
  forall b c hl wl, b < B * nh -> c < C -> hl < chunk_len Hi Np p + 2 * rl -> wl < chunk_len Wi A a -> rl <= chunk_lo Hi Np p + hl -> chunk_lo Hi Np p + hl < rl + Hi ->
    cf t b hl wl c = F b (chunk_lo Hi Np p + hl - rl) (chunk_lo Wi A a + wl) c.
Proof. exact (halo_some argsort L B Ci Ck Cv nh Hi Wi Ho Wo quad P k v q Np A HN HArg HNp HNi HNo HA HAi HAo HS HH). Qed.

Lemma op_chunk : forall p a, p < Np -> a < A -> exists kc vc, chunk p a = Some (kc, vc) /\
  shp kc = [B * nh; chunk_len Hi Np p + 2 * rl; chunk_len Wi A a; Ck] /\ shp vc = [B * nh; chunk_len Hi Np p + 2 * rl; chunk_len Wi A a; Cv] /\
  forall b hl wl d, b < B * nh -> hl < chunk_len Hi Np p + 2 * rl -> wl < chunk_len Wi A a -> rl <= chunk_lo Hi Np p + hl -> chunk_lo Hi Np p + hl < rl + Hi ->
    (d < Ck -> hwc kc b hl wl d = KG b (chunk_lo Hi Np p + hl - rl) (chunk_lo Wi A a + wl) d) /\
    (d < Cv -> hwc vc b hl wl d = VG b (chunk_lo Hi Np p + hl - rl) (chunk_lo Wi A a + wl) d).
Proof.
  intros p a Hp Ha. unfold chunk, dist_chunk, pzip.
  destruct (op_halo (pmap (fun x => Some (fst (fst x))) proj) Ck KG) with (p := p) (a := a) as (kt & -> & Sk & Vk); auto.
  { intros p' a' Hp' Ha'. destruct (HP p' a' Hp' Ha') as (k0 & v0 & q0 & E & T & _). unfold pmap. rewrite E. exists k0. split; auto. }
  destruct (op_halo (pmap (fun x => Some (snd (fst x))) proj) Cv VG) with (p := p) (a := a) as (vt & -> & Sv & Vv); auto.
  { intros p' a' Hp' Ha'. destruct (HP p' a' Hp' Ha') as (k0 & v0 & q0 & E & _ & T & _). unfold pmap. rewrite E. exists v0. split; auto. }
  cbn [bindo]. destruct (to_nhwc_val _ _ _ _ _ Sk) as (kc & -> & Skc & Vkc). destruct (to_nhwc_val _ _ _ _ _ Sv) as (vc & -> & Svc & Vvc). cbn [bindo].
  exists kc, vc. split; [reflexivity|]. split; [exact Skc|]. split; [exact Svc|]. intros b hl wl d Hb Hhl Hwl V1 V2. rewrite Vkc, Vvc. split; intros; [apply Vk|apply Vv]; auto.
Qed.

Section Rank.
Variables (p a : nat).
Hypothesis (Hp : p < Np) (Ha : a < A).
Let lo_i := chunk_lo Hi Np p. Let len_i := chunk_len Hi Np p. Let lo_o := chunk_lo Ho Np p. Let len_o := chunk_len Ho Np p.
Let lon_o := chunk_lo Wo A a. Let wid_o := chunk_len Wo A a.
Let dflt := (mk_cf 0 0 0 0 KG, mk_cf 0 0 0 0 KG).
Let c := fun s => match chunk p s with Some x => x | None => dflt end.
Let order := map (fun s => (a + s) mod A) (seq 0 A).
Let visits := map (fun s => (s, c s)) order.

Lemma rank_chunks : forall s, s < A -> chunk p s = Some (c s) /\ shp (fst (c s)) = [B * nh; len_i + 2 * rl; chunk_len Wi A s; Ck] /\
     shp (snd (c s)) = [B * nh; len_i + 2 * rl; chunk_len Wi A s; Cv] /\
     forall b hl wl d, b < B * nh -> hl < len_i + 2 * rl -> wl < chunk_len Wi A s -> rl <= lo_i + hl -> lo_i + hl < rl + Hi ->
    (d < Ck -> hwc (fst (c s)) b hl wl d = KG b (lo_i + hl - rl) (chunk_lo Wi A s + wl) d) /\
    (d < Cv -> hwc (snd (c s)) b hl wl d = VG b (lo_i + hl - rl) (chunk_lo Wi A s + wl) d).
Proof. intros s Hs. destruct (op_chunk p s Hp Hs) as (kc & vc & E & S1 & S2 & V). unfold c. rewrite E. cbn [fst snd]. auto. Qed.
Lemma order_perm : Permutation order (seq 0 A).
Proof. apply rot_perm; auto. Qed.
Lemma order_bound : forall s, In s order -> s < A.
Proof. intros s Hs. apply (Permutation_in _ order_perm) in Hs. apply in_seq in Hs. lia. Qed.
Lemma rank_visits : forall o, da_lon_in o = bal Wi A -> dist_visits ranks chunk p a o = Some visits.
Proof.
  intros o Eo. destruct (HR p Hp) as (ND & LR). unfold dist_visits, ring. rewrite Eo.
  rewrite (ring_loop_spec _ (fun c : tensor R * tensor R => dimsz (fst c) 2) (ranks p) (bal Wi A) c) with (step := 0); auto.
  - rewrite LR. unfold visits, order. rewrite map_map. reflexivity.
  - rewrite bal_length by auto. lia.
  - intros s Hs. rewrite LR in Hs. destruct (rank_chunks s Hs) as (_ & S1 & _). unfold dimsz. rewrite S1. cbn [nth].
    rewrite (nth_error_nth' _ 0) by (rewrite bal_length by auto; exact Hs). rewrite chunk_len_nth by auto. reflexivity.
  - intros s Hs. rewrite LR in *. rewrite Nat.add_0_r, Nat.mod_small by auto. apply rank_chunks. auto.
  - rewrite LR. exact Ha.
Qed.

Variables (row : list nat) (qt dyt qn dyn : tensor R).
Let o := mkDA SL up (bal Hi Np) (bal Wi A) (bal Ho Np) (bal Wo A) rl (fst (psi p a)) (snd (psi p a)) row.
Hypothesis HRow : up = false -> Permutation row (seq 0 len_o).
Hypothesis Sq : shp qn = [B * nh; len_o; wid_o; Ck].
Hypothesis Sd : shp dyn = [B * nh; len_o; wid_o; Cv].
Hypothesis Vq : forall b y x d, b < B * nh -> y < len_o -> x < wid_o -> d < Ck -> hwc qn b y x d = QG b (lo_o + y) (lon_o + x) d.
Hypothesis Vd : forall b y x d, b < B * nh -> y < len_o -> x < wid_o -> d < Cv -> hwc dyn b y x d = DG b (lo_o + y) (lon_o + x) d.

Let start := (Z.of_nat lo_i - Z.of_nat rl)%Z.
Let fstep (s : nat) (buf : rbuf) := if up
     then ring_step_up Ck quad (fst (psi p a)) (snd (psi p a)) (len_i + 2 * rl) (chunk_len Wi A s) (chunk_lo Wi A s) start
            len_o wid_o (hwc (fst (c s))) (hwc (snd (c s))) (hwc qn) Wo (Wo / Wi) (B * nh) buf
     else ring_step Ck quad (fst (psi p a)) (snd (psi p a)) (len_i + 2 * rl) (chunk_len Wi A s) (chunk_lo Wi A s) start
            len_o wid_o (hwc (fst (c s))) (hwc (snd (c s))) (hwc qn) Wi (Wi / Wo) row (B * nh) buf.
Let bstep (mx : nat -> nat -> nat -> option R) (s : nat) (buf : bbuf) := if up
     then bring_step_up Ck Cv quad (fst (psi p a)) (snd (psi p a)) (len_i + 2 * rl) (chunk_len Wi A s) (chunk_lo Wi A s) start
            wid_o (hwc (fst (c s))) (hwc (snd (c s))) (hwc qn) (hwc dyn) Wo (Wo / Wi) mx (B * nh) buf
     else bring_step Ck Cv quad (fst (psi p a)) (snd (psi p a)) (len_i + 2 * rl) (chunk_len Wi A s) (chunk_lo Wi A s) start
            len_o wid_o (hwc (fst (c s))) (hwc (snd (c s))) (hwc qn) (hwc dyn) Wi (Wi / Wo) row (B * nh) buf.
Let dstep sums mx inorm (s : nat) : fld * fld := if up
     then dkv_step_up Ck Cv quad (fst (psi p a)) (snd (psi p a)) (len_i + 2 * rl) (chunk_len Wi A s) (chunk_lo Wi A s) start
            wid_o (hwc (fst (c s))) (hwc (snd (c s))) (hwc qn) (hwc dyn) Wo (Wo / Wi) sums mx inorm (B * nh)
     else dkv_step Ck Cv quad (fst (psi p a)) (snd (psi p a)) (len_i + 2 * rl) (chunk_len Wi A s) (chunk_lo Wi A s) start
            len_o wid_o (hwc (fst (c s))) (hwc (snd (c s))) (hwc qn) (hwc dyn) Wi (Wi / Wo) row sums mx inorm (B * nh).

Lemma fold_in : forall S X (f g : S -> X -> S) l s, (forall s x, In x l -> f s x = g s x) -> fold_left f l s = fold_left g l s.
Proof. intros S X f g l. induction l as [|x l IH]; intros s H; cbn [fold_left]; [reflexivity|]. rewrite H by (left; auto). apply IH. intros; apply H; right; auto. Qed.
Lemma sv_eq : ring_state o p a visits qn (B * nh) = fold_left (fun buf s => fstep s buf) order (fun _ _ _ => rst0).
Proof.
  unfold ring_state, visits. rewrite fold_left_map. apply fold_in. intros buf s Hs. apply order_bound in Hs. unfold o.
  cbn [da_L da_lat_in da_lat_out da_lon_in da_lon_out da_r_lat da_roff da_col da_row da_up fst snd]. unfold fstep.
  destruct (rank_chunks s Hs) as (_ & S1 & S2 & _). unfold dimsz. rewrite S1, Sq. cbn [nth]. rewrite !chunk_len_nth, !starts_bal by auto. reflexivity.
Qed.
Lemma st_eq : forall sv, bwd_state o p a visits qn dyn sv (B * nh) = fold_left (fun buf s => bstep (fun b h w => r_max (sv b h w)) s buf) order (fun _ _ _ => bst0).
Proof.
  intros sv. unfold bwd_state, visits. rewrite fold_left_map. apply fold_in. intros buf s Hs. apply order_bound in Hs. unfold o.
  cbn [da_L da_lat_in da_lat_out da_lon_in da_lon_out da_r_lat da_roff da_col da_row da_up fst snd]. unfold bstep.
  destruct (rank_chunks s Hs) as (_ & S1 & S2 & _). unfold dimsz. rewrite S1, S2, Sq. cbn [nth]. rewrite !chunk_len_nth, !starts_bal by auto. reflexivity.
Qed.
Lemma full_eq : forall sv inorm, let ds := dstep (fun b h w => r_sum (sv b h w)) (fun b h w => r_max (sv b h w)) inorm in
  bwd_full o p a visits qn dyn sv inorm (B * nh) =
  (fold_left (fun acc s => add_cols (chunk_lo Wi A s) (chunk_len Wi A s) (fst (ds s)) acc) order fld0,
   fold_left (fun acc s => add_cols (chunk_lo Wi A s) (chunk_len Wi A s) (snd (ds s)) acc) order fld0).
Proof.
  intros sv inorm ds. unfold bwd_full, visits. rewrite fold_left_map. rewrite <- (fold_pair nat (fun s => add_cols (chunk_lo Wi A s) (chunk_len Wi A s) (fst (ds s))) (fun s => add_cols (chunk_lo Wi A s) (chunk_len Wi A s) (snd (ds s)))).
  apply fold_in. intros buf s Hs. apply order_bound in Hs. unfold o.
  cbn [da_L da_lat_in da_lat_out da_lon_in da_lon_out da_r_lat da_roff da_col da_row da_up fst snd].
  destruct (rank_chunks s Hs) as (_ & S1 & S2 & _). unfold dimsz. rewrite S1, S2, Sq. cbn [nth]. rewrite !chunk_len_nth, !starts_bal by auto. reflexivity.
Qed.

Let sv := fold_left (fun buf s => fstep s buf) order (fun _ _ _ => rst0).
Let st := fold_left (fun buf s => bstep (fun b h w => r_max (sv b h w)) s buf) order (fun _ _ _ => bst0).
Lemma nb_in : forall y x pt, In pt (NB y x) -> fst pt < Hi /\ snd pt < Wi.
Proof. destruct HN as [HB Hn HHi HHo HWi HWo _ _ _ Hd HPt Hqd Hne]. intros y x pt Hpt. unfold NB, nbrs in Hpt. destruct (Wi mod Wo =? 0); [eapply rotated_in; eauto|eapply scatter_in; eauto]. Qed.
Lemma KV : forall s b hl wl d, s < A -> b < B * nh -> hl < len_i + 2 * rl -> wl < chunk_len Wi A s -> rl <= lo_i + hl -> lo_i + hl < rl + Hi ->
      (d < Ck -> hwc (fst (c s)) b hl wl d = KG b (lo_i + hl - rl) (chunk_lo Wi A s + wl) d) /\
      (d < Cv -> hwc (snd (c s)) b hl wl d = VG b (lo_i + hl - rl) (chunk_lo Wi A s + wl) d).
Proof. intros s b hl wl d Hs. destruct (rank_chunks s Hs) as (_ & _ & _ & V). apply V. Qed.
Lemma parts : forall f y x, rlsum (fun s => part Wi A s f (NB y x)) order = rlsum f (NB y x).
Proof. intros. apply parts_whole; auto. - apply order_perm. - intros pt Hpt. eapply nb_in; eauto. Qed.
Lemma wo_pos : 1 <= Wi /\ 1 <= Wo.
Proof. destruct HN. auto. Qed.
Lemma dirs : (up = false /\ Wi mod Wo = 0 /\ pattern_ok P Ho (Hi * Wi) /\ rl = compute_r_lat Np Wi (bal Hi Np) (bal Ho Np) (offsets 0 P) (columns P) /\ (forall y x, NB y x = nbrs_gather P Wi Wo y x)
       /\ psi p a = local_psi Wi Wo (bal Ho Np) (offsets 0 P) (columns P) p (chunk_lo Wo A a)) \/
  (up = true /\ Wo mod Wi = 0 /\ pattern_ok P Hi (Ho * Wo) /\ rl = compute_r_lat_up Np Wo Hi (bal Hi Np) (bal Ho Np) (offsets 0 P) (columns P) /\ (forall y x, NB y x = nbrs_scatter P Hi Wi Wo y x)
       /\ psi p a = local_psi_up Wo Hi (bal Hi Np) (bal Ho Np) (offsets 0 P) (columns P) p (chunk_lo Wo A a) rl).
Proof.
  pose proof op_up as UI. destruct HN as [HB Hn HHi HHo HWi HWo _ _ _ Hd HPt Hqd Hne]. unfold NB, nbrs, psi, rl. rewrite UI in *. destruct (Wi mod Wo =? 0) eqn:EW; cbn [negb] in *.
  - left. split; [reflexivity|]. apply Nat.eqb_eq in EW. auto.
  - right. split; [reflexivity|]. apply Nat.eqb_neq in EW. destruct Hd; [contradiction|]. auto 6.
Qed.
Section CellFacts.
Variables (m y x : nat).
Hypothesis (Hm : m < B * nh) (Hy : y < len_o) (Hx : x < wid_o).
Let Y := lo_o + y. Let X := lon_o + x.
Let W := wt Ck quad KG QG m Y X.
Let g := g_dot Cv VG DG m Y X.
Lemma fwd_stands : stands Cv (sv m y x) (rlsum W (NB Y X)) (fun d => rlsum (fun pt => W pt * VG m (fst pt) (snd pt) d)%R (NB Y X)).
Proof.
  destruct wo_pos as (HWi & HWo).
  eapply stands_ext; [| |apply (visits_stand Cv fstep m y x (fun s => part Wi A s W (NB Y X)) (fun s d => part Wi A s (fun pt => W pt * VG m (fst pt) (snd pt) d)%R (NB Y X)) order (fun _ _ _ => rst0) 0%R (fun _ => 0%R))].
  - rewrite parts. ring.
  - intros d _. cbn beta. rewrite (parts (fun pt => W pt * VG m (fst pt) (snd pt) d)%R). ring.
  - intros s b0 D N Hs S. apply order_bound in Hs. unfold fstep.
    destruct dirs as [(EU & Ed & HPt & EL & EN & EPsi)|(EU & Ed & HPt & EL & EN & EPsi)]; rewrite EU, EPsi, EN.
    + specialize (HRow EU). apply (gather_visit Ck Cv quad P Hi Wi Ho Wo Np A p a (B * nh) rl) with (kg := KG) (vg := VG) (qg := QG) (kx := fun s => hwc (fst (c s))) (vx := fun s => hwc (snd (c s))); auto. exact KV.
    + apply (scatter_visit Ck Cv quad P Hi Wi Ho Wo Np A p a (B * nh) rl) with (kg := KG) (vg := VG) (qg := QG) (kx := fun s => hwc (fst (c s))) (vx := fun s => hwc (snd (c s))); auto. exact KV.
  - apply stands_init.
Qed.
Lemma den_pos : (0 < rlsum W (NB Y X))%R.
Proof.
  destruct HN as [HB Hn HHi HHo HWi HWo _ _ _ Hd HPt Hqd Hne]. pose proof (chunk_bound Ho Np p HNp Hp) as B1. pose proof (chunk_bound Wo A a HA Ha) as B2. fold lo_o len_o in B1. fold lon_o wid_o in B2.
  apply (softmax_den_pos _ (score Ck (KG m) (QG m) Y X) (fun pt => quad (fst pt))).
  - intros pt Hpt. apply Hqd. eapply nb_in; eauto.
  - apply Hne; unfold Y, X; lia.
Qed.
(** maximum, sum and the three backward sums of one cell *)
Lemma cell_facts : exists mx, r_max (sv m y x) = Some mx /\ (r_sum (sv m y x) * exp mx = rlsum W (NB Y X))%R /\
  (b_int (st m y x) * exp mx = rlsum (fun pt => W pt * g pt) (NB Y X))%R /\
  forall d, d < Ck -> (b_k (st m y x) d * exp mx = rlsum (fun pt => W pt * KG m (fst pt) (snd pt) d) (NB Y X))%R /\
    (b_kvw (st m y x) d * exp mx = rlsum (fun pt => W pt * (g pt * KG m (fst pt) (snd pt) d)) (NB Y X))%R.
Proof.
  destruct wo_pos as (HWi & HWo). pose proof den_pos as DP. pose proof fwd_stands as FS. unfold stands in FS.
  destruct (r_max (sv m y x)) as [mx|] eqn:EM; [|destruct FS as (_ & _ & Z & _); lra]. destruct FS as (FS & _). exists mx. split; [reflexivity|]. split; [exact FS|].
  destruct dirs as [(EU & Ed & HPt & EL & EN & EPsi)|(EU & Ed & HPt & EL & EN & EPsi)].
  - (* gather *)
    specialize (HRow EU).
    assert (PS : stands (1 + 2 * Ck) (pack Ck (st m y x)) (rlsum W (NB Y X)) (fun d => rlsum (fun pt => W pt * ext Ck (g pt) (KG m (fst pt) (snd pt)) d)%R (NB Y X))).
    { eapply stands_ext; [| |apply (bvisits_stand Ck (1 + 2 * Ck) (bstep (fun b h w => r_max (sv b h w))) m y x (fun s => part Wi A s W (NB Y X))
          (fun s d => part Wi A s (fun pt => W pt * ext Ck (g pt) (KG m (fst pt) (snd pt)) d)%R (NB Y X)) order (fun _ _ _ => bst0) 0%R (fun _ => 0%R))].
      - rewrite parts. ring.
      - intros d _. cbn beta. rewrite (parts (fun pt => W pt * ext Ck (g pt) (KG m (fst pt) (snd pt)) d)%R). ring.
      - intros s b0 D N Hs S. apply order_bound in Hs. unfold bstep. rewrite EU, EPsi, EN.
        apply (pass1_gather Ck Cv quad P Hi Wi Ho Wo Np A p a (B * nh) rl) with (kg := KG) (vg := VG) (qg := QG) (dg := DG) (kx := fun s => hwc (fst (c s))) (vx := fun s => hwc (snd (c s))); auto. exact KV.
      - eapply stands_same; [|apply stands_init]. split; [reflexivity|]. split; [reflexivity|]. intros d. cbn. destruct (d =? 0); [reflexivity|]. destruct (d <=? Ck); reflexivity. }
    assert (FG : b_sum (st m y x) = r_sum (sv m y x) /\ b_max (st m y x) = r_max (sv m y x)).
    { unfold st. set (mm := fun b h w => r_max (sv b h w)). unfold sv. clearbody mm.
      assert (G : forall l (b0 : bbuf) (f0 : rbuf), b_sum (b0 m y x) = r_sum (f0 m y x) -> b_max (b0 m y x) = r_max (f0 m y x) ->
        b_sum (fold_left (fun buf s => bstep mm s buf) l b0 m y x) = r_sum (fold_left (fun buf s => fstep s buf) l f0 m y x) /\
        b_max (fold_left (fun buf s => bstep mm s buf) l b0 m y x) = r_max (fold_left (fun buf s => fstep s buf) l f0 m y x)).
      { induction l as [|s l IH]; intros b0 f0 G1 G2; [split; auto|]. cbn [fold_left]. apply IH; unfold bstep, fstep; rewrite EU; apply (forget_gather Ck Cv quad Hi Wi Ho Wo Np A p a (B * nh) rl (fun s => hwc (fst (c s))) (fun s => hwc (snd (c s)))); auto. }
      apply G; reflexivity. }
    destruct FG as (FG1 & FG2). unfold stands in PS. change (r_max (pack Ck (st m y x))) with (b_max (st m y x)) in PS. rewrite FG2, EM in PS. destruct PS as (_ & PS).
    split; [|intros d Hd; split].
    + specialize (PS 0 ltac:(lia)). exact PS.
    + specialize (PS (1 + d) ltac:(lia)). unfold pack, ext in PS. cbn [r_acc Nat.add Nat.eqb] in PS. rewrite (proj2 (Nat.leb_le (S d) Ck)) in PS by lia.
      replace (S d - 1) with d in PS by lia. exact PS.
    + specialize (PS (1 + Ck + d) ltac:(lia)). unfold pack, ext in PS. cbn [r_acc Nat.add Nat.eqb] in PS. rewrite (proj2 (Nat.leb_gt (S (Ck + d)) Ck)) in PS by lia.
      replace (S (Ck + d) - 1 - Ck) with d in PS by lia. exact PS.
  - (* scatter *)
    unfold st. set (mm := fun b h w => r_max (sv b h w)).
    assert (Em : mm m y x = Some mx) by exact EM. clearbody mm.
    assert (G : forall l (b0 : bbuf), (forall s, In s l -> s < A) -> let f := fold_left (fun buf s => bstep mm s buf) l b0 m y x in
      (b_int f * exp mx = b_int (b0 m y x) * exp mx + rlsum (fun s => part Wi A s (fun pt => W pt * g pt) (NB Y X)) l)%R /\
      forall d, d < Ck -> (b_k f d * exp mx = b_k (b0 m y x) d * exp mx + rlsum (fun s => part Wi A s (fun pt => W pt * KG m (fst pt) (snd pt) d) (NB Y X)) l)%R /\
        (b_kvw f d * exp mx = b_kvw (b0 m y x) d * exp mx + rlsum (fun s => part Wi A s (fun pt => W pt * (g pt * KG m (fst pt) (snd pt) d)) (NB Y X)) l)%R).
    { induction l as [|s l IH]; intros b0 Hl f.
      - unfold f. cbn [fold_left lsum_ fold_right]. split; [ring|]. intros d _. split; ring.
      - unfold f. cbn [fold_left]. destruct (IH (bstep mm s b0) (fun s Hs => Hl s (or_intror Hs))) as (I1 & I2).
        pose proof (pass1_scatter Ck Cv quad P Hi Wi Ho Wo Np A p a (B * nh) rl HNp HNi HNo Hp HA HAo Ha HWi HWo KG VG QG DG (fun s => hwc (fst (c s))) (fun s => hwc (snd (c s))) (hwc qn) (hwc dyn) KV Vq Vd
          s m y x mm b0 mx HPt Ed EL (Hl s (or_introl eq_refl)) Hm Hy Hx Em) as Q. cbv zeta in Q. rewrite <- EPsi, <- EN in Q.
        assert (EB : bstep mm s b0 m y x = bring_step_up Ck Cv quad (fst (psi p a)) (snd (psi p a)) (len_i + 2 * rl) (chunk_len Wi A s) (chunk_lo Wi A s) start
            wid_o (hwc (fst (c s))) (hwc (snd (c s))) (hwc qn) (hwc dyn) Wo (Wo / Wi) mm (B * nh) b0 m y x) by (unfold bstep; rewrite EU; reflexivity).
        rewrite EB in I1, I2. destruct Q as (Q1 & Q2). split; [|intros d Hd; destruct (I2 d Hd) as (I3 & I4), (Q2 d Hd) as (Q3 & Q4); split]; rewrite rlsum_cons.
        + rewrite I1. etransitivity; [apply f_equal2; [exact Q1|reflexivity]|]. fold lo_o lon_o Y X. unfold W, g. ring.
        + rewrite I3. etransitivity; [apply f_equal2; [exact Q3|reflexivity]|]. fold lo_o lon_o Y X. unfold W, g. ring.
        + rewrite I4. etransitivity; [apply f_equal2; [exact Q4|reflexivity]|]. fold lo_o lon_o Y X. unfold W, g. ring. }
    destruct (G order (fun _ _ _ => bst0) order_bound) as (G1 & G2). split; [|intros d Hd; destruct (G2 d Hd) as (G3 & G4); split].
    + rewrite G1, (parts (fun pt => W pt * g pt)%R). cbn [b_int bst0]. ring.
    + rewrite G3, (parts (fun pt => W pt * KG m (fst pt) (snd pt) d)%R). cbn [b_k bst0]. ring.
    + rewrite G4, (parts (fun pt => W pt * (g pt * KG m (fst pt) (snd pt) d))%R). cbn [b_kvw bst0]. ring.
Qed.
Lemma cell_dq : forall d, d < Ck -> (let i := 1 / r_sum (sv m y x) in i * i * (r_sum (sv m y x) * b_kvw (st m y x) d - b_int (st m y x) * b_k (st m y x) d))%R =
  GQ Ck Cv quad NB KG VG QG DG m Y X d.
Proof.
  intros d Hd. cbv zeta. destruct cell_facts as (mx & _ & F1 & F2 & F3). destruct (F3 d Hd) as (F4 & F5). pose proof den_pos as DP.
  rewrite (kept_dq (NB Y X) W g (fun pt => KG m (fst pt) (snd pt) d) _ (exp mx) _ _ _ (Rgt_not_eq _ _ (exp_pos mx)) (Rgt_not_eq _ _ DP) F1 F2 F4 F5).
  unfold GQ. apply rlsum_ext. intros pt _. f_equal. unfold g_wt, g_prob, g_bar, g_den, softmax_den. fold g.
  change (rlsum (fun p0 : nat * nat => (quad (fst p0) * exp (score Ck (KG m) (QG m) Y X p0))%R) (NB Y X)) with (rlsum W (NB Y X)). f_equal. f_equal.
  unfold Rdiv. rewrite <- rlsum_scal_r. apply rlsum_ext. intros pt' _. unfold g_prob, g_den, softmax_den.
  change (rlsum (fun p0 : nat * nat => (quad (fst p0) * exp (score Ck (KG m) (QG m) Y X p0))%R) (NB Y X)) with (rlsum W (NB Y X)). fold g. unfold W, wt, Rdiv. ring.
Qed.
Lemma cell_bar : (b_int (st m y x) * (1 / r_sum (sv m y x)))%R = g_bar Ck Cv quad NB KG VG QG DG m Y X.
Proof.
  destruct cell_facts as (mx & _ & F1 & F2 & _). pose proof den_pos as DP. pose proof (exp_pos mx) as EP.
  assert (S0 : r_sum (sv m y x) <> 0%R) by (intros Z; rewrite Z in F1; lra).
  unfold g_bar. transitivity (rlsum (fun pt => W pt * g pt)%R (NB Y X) / rlsum W (NB Y X))%R.
  - rewrite <- F1, <- F2. field. split; lra || auto.
  - unfold Rdiv. rewrite <- rlsum_scal_r. apply rlsum_ext. intros pt' _. unfold g_prob, g_den, softmax_den.
    change (rlsum (fun p0 : nat * nat => (quad (fst p0) * exp (score Ck (KG m) (QG m) Y X p0))%R) (NB Y X)) with (rlsum W (NB Y X)). fold g. unfold W, wt, Rdiv. ring.
Qed.
End CellFacts.

Let inorm := fun b h w => (b_int (st b h w) * (1 / r_sum (sv b h w)))%R.
Let full := bwd_full o p a visits qn dyn sv inorm (B * nh).
(** the contributions of the rank's outputs to one point of its halo rows *)
Definition contrib (t : nat -> nat -> nat * nat -> R) (h w : nat) : R :=
  rsum len_o (fun ho => rsum wid_o (fun wo => rlsum (fun pt => if pt_eqb (h, w) pt then t (lo_o + ho) (lon_o + wo) pt else 0%R) (NB (lo_o + ho) (lon_o + wo)))).
Lemma full_val : forall b hl w ch, b < B * nh -> hl < len_i + 2 * rl -> w < Wi -> rl <= lo_i + hl -> lo_i + hl < rl + Hi ->
  (ch < Ck -> fst full b hl w ch = contrib (fun y x pt => (QG b y x ch * g_wt Ck Cv quad NB KG VG QG DG b y x pt)%R) (lo_i + hl - rl) w) /\
  (ch < Cv -> snd full b hl w ch = contrib (fun y x pt => (g_prob Ck quad NB KG QG b y x pt * DG b y x ch)%R) (lo_i + hl - rl) w).
Proof.
  intros b hl w ch Hb Hhl Hw V1 V2. destruct wo_pos as (HWi & HWo).
  assert (PP : forall s wl, s < A -> wl < chunk_len Wi A s -> let ds := dstep (fun b h w => r_sum (sv b h w)) (fun b h w => r_max (sv b h w)) inorm s in
    (ch < Ck -> fst ds b hl wl ch = contrib (fun y x pt => (QG b y x ch * g_wt Ck Cv quad NB KG VG QG DG b y x pt)%R) (lo_i + hl - rl) (chunk_lo Wi A s + wl)) /\
    (ch < Cv -> snd ds b hl wl ch = contrib (fun y x pt => (g_prob Ck quad NB KG QG b y x pt * DG b y x ch)%R) (lo_i + hl - rl) (chunk_lo Wi A s + wl))).
  { intros s wl Hs Hwl ds.
    assert (HSV : forall b y x, b < B * nh -> y < len_o -> x < wid_o -> g_den Ck quad NB KG QG b (lo_o + y) (lon_o + x) <> 0%R /\
      inorm b y x = g_bar Ck Cv quad NB KG VG QG DG b (lo_o + y) (lon_o + x) /\
      exists m, r_max (sv b y x) = Some m /\ (r_sum (sv b y x) * exp m)%R = g_den Ck quad NB KG QG b (lo_o + y) (lon_o + x)).
    { intros b0 y x H1 H2 H3. split; [apply Rgt_not_eq; exact (den_pos b0 y x H1 H2 H3)|]. split; [apply cell_bar; auto|].
      destruct (cell_facts b0 y x H1 H2 H3) as (mx & F1 & F2 & _). exists mx. split; [exact F1|exact F2]. }
    unfold ds, dstep. destruct dirs as [(EU & Ed & HPt & EL & EN & EPsi)|(EU & Ed & HPt & EL & EN & EPsi)]; rewrite EU, EPsi.
    - apply (pass2_gather Ck Cv quad P Hi Wi Ho Wo Np A p a (B * nh) rl HNp HNi HNo Hp HA HAo Ha HWi HWo KG VG QG DG (fun s => hwc (fst (c s))) (fun s => hwc (snd (c s))) (hwc qn) (hwc dyn) KV Vq Vd
         (fun b h w => r_sum (sv b h w)) (fun b h w => r_max (sv b h w)) inorm NB HSV row s b hl wl ch); auto.
    - apply (pass2_scatter Ck Cv quad P Hi Wi Ho Wo Np A p a (B * nh) rl HNp HNi HNo Hp HA HAo Ha HWi HWo KG VG QG DG (fun s => hwc (fst (c s))) (fun s => hwc (snd (c s))) (hwc qn) (hwc dyn) KV Vq Vd
         (fun b h w => r_sum (sv b h w)) (fun b h w => r_max (sv b h w)) inorm NB HSV s b hl wl ch); auto. }
  unfold full. rewrite full_eq. cbn [fst snd]. rewrite !fold_add_cols. unfold fld0. rewrite !Rplus_0_l.
  assert (CP : forall (f : nat -> R) (G : nat -> R), (forall s, s < A -> chunk_lo Wi A s <= w -> w < chunk_lo Wi A s + chunk_len Wi A s -> f s = G w) ->
    rlsum (fun s => if (chunk_lo Wi A s <=? w) && (w <? chunk_lo Wi A s + chunk_len Wi A s) then f s else 0%R) order = G w).
  { intros f G Hf. rewrite (lsum_perm RT _ _ _ _ order_perm). rewrite <- (chunk_pick Wi A w (G w) HA Hw) at 1. apply rlsum_ext. intros s Hs. apply in_seq in Hs.
    destruct (Nat.leb_spec (chunk_lo Wi A s) w), (Nat.ltb_spec w (chunk_lo Wi A s + chunk_len Wi A s)); cbn [andb]; auto. apply Hf; auto. lia. }
  split; intros Hch.
  - apply (CP _ (fun w => contrib (fun y x pt => (QG b y x ch * g_wt Ck Cv quad NB KG VG QG DG b y x pt)%R) (lo_i + hl - rl) w)). intros s Hs W1 W2.
    destruct (PP s (w - chunk_lo Wi A s) Hs ltac:(lia)) as (Q & _). rewrite Q by auto. f_equal. lia.
  - apply (CP _ (fun w => contrib (fun y x pt => (g_prob Ck quad NB KG QG b y x pt * DG b y x ch)%R) (lo_i + hl - rl) w)). intros s Hs W1 W2.
    destruct (PP s (w - chunk_lo Wi A s) Hs ltac:(lia)) as (_ & Q). rewrite Q by auto. f_equal. lia.
Qed.
Hypothesis (Eqn : to_nhwc qt = Some qn) (Edn : to_nhwc dyt = Some dyn) (Sqt : shp qt = [B * nh; Ck; len_o; wid_o]) (Sdt : shp dyt = [B * nh; Cv; len_o; wid_o]).
Lemma sum_nz : forallb (fun t => let '(b, h, w) := t in nz (r_sum (sv b h w))) (cells3 len_o wid_o (B * nh)) = true.
Proof.
  apply forallb_forall. intros ((b, h), w) Hc. apply cells3_in in Hc. destruct Hc as (H1 & H2 & H3). apply nz_true.
  destruct (stands_final _ _ _ _ (fwd_stands b h w H1 H2 H3)) as (F1 & _); [apply Rgt_not_eq, (den_pos b h w H1 H2 H3)|exact F1].
Qed.
Lemma rank_fwd : exists out, ring_output o p a visits qt = Some out /\ shp out = [B * nh; Cv; len_o; wid_o] /\
  forall b y x d, b < B * nh -> y < len_o -> x < wid_o -> d < Cv -> cf out b y x d = attn_at Ck quad (NB (lo_o + y) (lon_o + x)) (KG b) (VG b) (QG b) (lo_o + y) (lon_o + x) d.
Proof.
  unfold ring_output. rewrite Eqn. cbn [bindo].
  assert (D0 : dimsz qt 0 = B * nh) by (unfold dimsz; rewrite Sqt; reflexivity).
  assert (ECv : match visits with (_, (_, v)) :: _ => dimsz v 3 | [] => 0 end = Cv).
  { unfold visits. pose proof order_perm as OP. pose proof order_bound as OB. destruct order as [|s l]; [apply Permutation_length in OP; rewrite seq_length in OP; cbn in OP; lia|]. cbn [map].
    destruct (rank_chunks s (OB s (or_introl eq_refl))) as (_ & _ & S2 & _). destruct (c s) as (k1, v1). cbn [snd] in S2. unfold dimsz. rewrite S2. reflexivity. }
  rewrite ECv, D0, sv_eq. fold sv. unfold o at 1 2 3 4. cbn [da_lat_out da_lon_out]. rewrite !chunk_len_nth by auto. fold len_o wid_o. rewrite guard_true by apply sum_nz. cbn [bindo].
  match goal with |- context [to_nchw ?t] => destruct (to_nchw_val t (B * nh) Cv len_o wid_o eq_refl) as (out & EOut & Sout & Vout) end.
  exists out. split; [exact EOut|]. split; [exact Sout|].
  intros b y x d Hb Hy Hx Hd'. rewrite Vout. unfold hwc, mk_hwc. cbn [val nth].
  destruct (stands_final _ _ _ _ (fwd_stands b y x Hb Hy Hx)) as (_ & F2); [apply Rgt_not_eq, (den_pos b y x Hb Hy Hx)|]. rewrite F2 by auto. reflexivity.
Qed.
Lemma rank_bwd : forall own Wx, shp (fst own) = [B * nh; len_i + 2 * rl; Wx; Ck] -> shp (snd own) = [B * nh; len_i + 2 * rl; Wx; Cv] ->
  exists dqt, ring_bwd_local o p a visits own qt dyt = Some (mk_hwc (B * nh) (len_i + 2 * rl) Wi Ck (fst full), mk_hwc (B * nh) (len_i + 2 * rl) Wi Cv (snd full), dqt) /\
  shp dqt = [B * nh; Ck; len_o; wid_o] /\
  forall b y x d, b < B * nh -> y < len_o -> x < wid_o -> d < Ck -> cf dqt b y x d = GQ Ck Cv quad NB KG VG QG DG b (lo_o + y) (lon_o + x) d.
Proof.
  intros own Wx So1 So2. unfold ring_bwd_local.
  assert (D0 : dimsz qt 0 = B * nh) by (unfold dimsz; rewrite Sqt; reflexivity).
  assert (D1 : dimsz (fst own) 3 = Ck) by (unfold dimsz; rewrite So1; reflexivity). assert (D2 : dimsz (snd own) 3 = Cv) by (unfold dimsz; rewrite So2; reflexivity).
  assert (D3 : dimsz (fst own) 1 = len_i + 2 * rl) by (unfold dimsz; rewrite So1; reflexivity).
  assert (NO : nth p (da_lat_out o) 0 = len_o) by (unfold o; cbn [da_lat_out]; rewrite chunk_len_nth by auto; reflexivity).
  assert (NW : nth a (da_lon_out o) 0 = wid_o) by (unfold o; cbn [da_lon_out]; rewrite chunk_len_nth by auto; reflexivity).
  assert (TW : sum_list (da_lon_in o) = Wi).
  { unfold o. cbn [da_lon_in]. rewrite <- (firstn_all (bal Wi A)), bal_length, chunk_lo_sum, chunk_lo_total by auto. reflexivity. }
  rewrite D0, D1, D2, D3, NO, NW, TW, Sdt, guard_true by (apply shape_eqb_true; reflexivity). cbn [bindo]. rewrite Eqn, Edn. cbn [bindo]. rewrite sv_eq. fold sv. rewrite guard_true by apply sum_nz. cbn [bindo].
  rewrite st_eq. fold st. fold inorm. fold full.
  match goal with |- context [to_nchw ?t] => destruct (to_nchw_val t (B * nh) Ck len_o wid_o eq_refl) as (out & EOut & Sout & Vout) end.
  exists out. rewrite EOut. cbn [bindo]. split; [reflexivity|]. split; [exact Sout|].
  intros b y x d Hb Hy Hx Hd'. rewrite Vout. unfold hwc, mk_hwc. cbn [val nth]. apply (cell_dq b y x Hb Hy Hx d Hd').
Qed.
End Rank.

(** ** All ranks *)
Definition rowc (t : nat -> nat -> nat * nat -> R) (p h w : nat) : R :=
  rsum (chunk_len Ho Np p) (fun ho => rsum Wo (fun wo => rlsum (fun pt => if pt_eqb (h, w) pt then t (chunk_lo Ho Np p + ho) wo pt else 0%R) (NB (chunk_lo Ho Np p + ho) wo))).
Let tK b ch := fun y x pt => (QG b y x ch * g_wt Ck Cv quad NB KG VG QG DG b y x pt)%R.
Let tV b ch := fun y x pt => (g_prob Ck quad NB KG QG b y x pt * DG b y x ch)%R.
Lemma op_local : forall p a, p < Np -> a < A -> exists dk dv dq, dist_op_local Np ranks obj proj dyf p a = Some (dk, dv, dq) /\
  shp dk = [B * nh; chunk_len Hi Np p + 2 * rl; Wi; Ck] /\ shp dv = [B * nh; chunk_len Hi Np p + 2 * rl; Wi; Cv] /\ shp dq = [B * nh; Ck; chunk_len Ho Np p; chunk_len Wo A a] /\
  (forall b hl w ch, b < B * nh -> hl < chunk_len Hi Np p + 2 * rl -> w < Wi -> rl <= chunk_lo Hi Np p + hl -> chunk_lo Hi Np p + hl < rl + Hi ->
    (ch < Ck -> hwc dk b hl w ch = contrib p a (tK b ch) (chunk_lo Hi Np p + hl - rl) w) /\ (ch < Cv -> hwc dv b hl w ch = contrib p a (tV b ch) (chunk_lo Hi Np p + hl - rl) w)) /\
  forall b y x d, b < B * nh -> y < chunk_len Ho Np p -> x < chunk_len Wo A a -> d < Ck -> cf dq b y x d = GQ Ck Cv quad NB KG VG QG DG b (chunk_lo Ho Np p + y) (chunk_lo Wo A a + x) d.
Proof.
  intros p a Hp Ha. destruct (op_init p a Hp Ha) as (row & EO & HRow). destruct (HP p a Hp Ha) as (kt & vt & qt & EP & _ & _ & Tq). destruct (HDy p a Hp Ha) as (dyt & ED & Td).
  destruct (shard_cf Hi Wi Ho Wo P Np A HNp HNi HNo HA HAi HAo qt (mk_cf (B * nh) Ck Ho Wo QG) _ _ _ _ p a eq_refl Tq) as (Sq & Vq).
  destruct (shard_cf Hi Wi Ho Wo P Np A HNp HNi HNo HA HAi HAo dyt (mk_cf (B * nh) Cv Ho Wo DG) _ _ _ _ p a eq_refl Td) as (Sd & Vd).
  destruct (to_nhwc_val _ _ _ _ _ Sq) as (qn & EQ & Sqn & Vqn). destruct (to_nhwc_val _ _ _ _ _ Sd) as (dyn & EDn & Sdn & Vdn).
  unfold dist_op_local. rewrite EO, EP, ED. cbn [bindo]. destruct (op_chunk p a Hp Ha) as (kc & vc & EC & S1 & S2 & _). fold chunk. rewrite EC. cbn [bindo].
  rewrite (rank_visits p a Hp Ha) by reflexivity. cbn [bindo snd].
  assert (QV : forall b y x d, b < B * nh -> y < chunk_len Ho Np p -> x < chunk_len Wo A a -> d < Ck -> hwc qn b y x d = QG b (chunk_lo Ho Np p + y) (chunk_lo Wo A a + x) d) by (intros; rewrite Vqn, Vq by auto; reflexivity).
  assert (DV : forall b y x d, b < B * nh -> y < chunk_len Ho Np p -> x < chunk_len Wo A a -> d < Cv -> hwc dyn b y x d = DG b (chunk_lo Ho Np p + y) (chunk_lo Wo A a + x) d) by (intros; rewrite Vdn, Vd by auto; reflexivity).
  destruct (rank_bwd p a Hp Ha row qt dyt qn dyn HRow Sqn QV DV EQ EDn Sq Sd (kc, vc) _ S1 S2) as (dqt & E & Sdq & Vdq).
  rewrite E. do 3 eexists. split; [reflexivity|]. split; [reflexivity|]. split; [reflexivity|]. split; [exact Sdq|]. split; [|exact Vdq].
  intros b hl w ch Hb Hhl Hw V1 V2. exact (full_val p a Hp Ha row qn dyn HRow Sqn QV DV b hl w ch Hb Hhl Hw V1 V2).
Qed.
Lemma op_forward : holds2 Np A (dist_op Np ranks obj proj) (fun p a => shard 2 Np p (shard 3 A a (mk_cf (B * nh) Cv Ho Wo (fun b y x d => attn_at Ck quad (NB y x) (KG b) (VG b) (QG b) y x d)))).
Proof.
  intros p a Hp Ha. destruct (op_init p a Hp Ha) as (row & EO & HRow). destruct (HP p a Hp Ha) as (kt & vt & qt & EP & _ & _ & Tq).
  destruct (shard_cf Hi Wi Ho Wo P Np A HNp HNi HNo HA HAi HAo qt (mk_cf (B * nh) Ck Ho Wo QG) _ _ _ _ p a eq_refl Tq) as (Sq & Vq).
  destruct (to_nhwc_val _ _ _ _ _ Sq) as (qn & EQ & Sqn & Vqn).
  assert (QV : forall b y x d, b < B * nh -> y < chunk_len Ho Np p -> x < chunk_len Wo A a -> d < Ck -> hwc qn b y x d = QG b (chunk_lo Ho Np p + y) (chunk_lo Wo A a + x) d) by (intros; rewrite Vqn, Vq by auto; reflexivity).
  unfold dist_op. rewrite EO, EP. cbn [bindo]. fold chunk. rewrite (rank_visits p a Hp Ha) by reflexivity. cbn [bindo snd].
  destruct (rank_fwd p a Hp Ha row qt qn qn HRow Sqn QV EQ Sq) as (out & E & So & Vo). exists out. split; [exact E|].
  apply (cf_shard Hi Wi Ho Wo P Np A HNp HNi HNo HA HAi HAo) with (B0 := B * nh) (C0 := Cv) (H0 := Ho) (W0 := Wo); [reflexivity|exact So|].
  intros b y x d Hb Hc Hy Hx. rewrite Vo by auto. reflexivity.
Qed.
Lemma op_dq : holds2 Np A (snd (dist_op_bwd Np ranks obj proj dyf)) (fun p a => shard 2 Np p (shard 3 A a (mk_cf (B * nh) Ck Ho Wo (GQ Ck Cv quad NB KG VG QG DG)))).
Proof.
  intros p a Hp Ha. destruct (op_local p a Hp Ha) as (dk & dv & dq & E & _ & _ & S & _ & V). exists dq. split.
  - unfold dist_op_bwd, pmap. cbn [snd]. rewrite E. reflexivity.
  - apply (cf_shard Hi Wi Ho Wo P Np A HNp HNi HNo HA HAi HAo) with (B0 := B * nh) (C0 := Ck) (H0 := Ho) (W0 := Wo); [reflexivity|exact S|]. intros b y x d Hb Hc Hy Hx. rewrite V by auto. reflexivity.
Qed.
(** the sum over the azimuth group: all outputs of the polar rank *)
Lemma own_val : forall (loc : pfam (tensor R)) C (T : nat -> nat -> nat -> nat -> nat * nat -> R),
  (forall p a, p < Np -> a < A -> exists d, loc p a = Some d /\ shp d = [B * nh; chunk_len Hi Np p + 2 * rl; Wi; C] /\
    forall b hl w ch, b < B * nh -> hl < chunk_len Hi Np p + 2 * rl -> w < Wi -> rl <= chunk_lo Hi Np p + hl -> chunk_lo Hi Np p + hl < rl + Hi -> ch < C ->
      hwc d b hl w ch = contrib p a (T b ch) (chunk_lo Hi Np p + hl - rl) w) ->
  forall p a, p < Np -> a < A -> exists d, bwd_own ranks obj loc p a = Some d /\ shp d = [B * nh; C; chunk_len Hi Np p + 2 * rl; chunk_len Wi A a] /\
    forall b hl wl ch, b < B * nh -> hl < chunk_len Hi Np p + 2 * rl -> wl < chunk_len Wi A a -> rl <= chunk_lo Hi Np p + hl -> chunk_lo Hi Np p + hl < rl + Hi -> ch < C ->
      cf d b hl wl ch = rowc (T b ch) p (chunk_lo Hi Np p + hl - rl) (chunk_lo Wi A a + wl).
Proof.
  intros loc C T HL p a Hp Ha. destruct (op_init p a Hp Ha) as (row & EO & _). unfold bwd_own. rewrite EO. cbn [bindo da_lon_in].
  destruct (HR p Hp) as (_ & LR). rewrite LR, starts_bal, chunk_len_nth by auto.
  set (u := fun s => match loc p s with Some d => d | None => const_t 0%R [] end).
  assert (HU : forall s, s < A -> loc p s = Some (u s) /\ shp (u s) = [B * nh; chunk_len Hi Np p + 2 * rl; Wi; C] /\
    forall b hl w ch, b < B * nh -> hl < chunk_len Hi Np p + 2 * rl -> w < Wi -> rl <= chunk_lo Hi Np p + hl -> chunk_lo Hi Np p + hl < rl + Hi -> ch < C ->
      hwc (u s) b hl w ch = contrib p s (T b ch) (chunk_lo Hi Np p + hl - rl) w).
  { intros s Hs. destruct (HL p s Hp Hs) as (d & E & S). unfold u. rewrite E. auto. }
  destruct (reduce_holds 0%R Rplus Rplus_0_r A (fun a => loc p a) u HA) with (r := a) as (t & Et & TS & TV); auto.
  { intros r Hr. destruct (HU r Hr) as (_ & -> & _). destruct (HU 0 HA) as (_ & -> & _). reflexivity. }
  { intros s Hs. exists (u s). split; [apply HU; auto|apply teq_refl]. }
  unfold rreduce. rewrite Et. cbn [bindo]. assert (ST : shp t = [B * nh; chunk_len Hi Np p + 2 * rl; Wi; C]) by (rewrite TS; cbn [tsum shp]; apply HU; auto).
  match goal with |- context [to_nchw ?t] => destruct (to_nchw_val t (B * nh) C (chunk_len Hi Np p + 2 * rl) (chunk_len Wi A a)) as (d & Ed & Sd & Vd) end.
  { unfold narrow. cbn [shp]. rewrite ST. reflexivity. }
  exists d. split; [exact Ed|]. split; [exact Sd|]. intros b hl wl ch Hb Hhl Hwl V1 V2 Hch. rewrite Vd. unfold hwc, narrow. cbn [val upd nth].
  pose proof (chunk_bound Wi A a HA Ha) as BW. replace (wl + chunk_lo Wi A a) with (chunk_lo Wi A a + wl) by lia.
  rewrite TV by (rewrite ST; apply valid4_intro; auto; lia). cbn [tsum val].
  rewrite fsum_rsum. transitivity (rsum A (fun s => contrib p s (T b ch) (chunk_lo Hi Np p + hl - rl) (chunk_lo Wi A a + wl))).
  { apply rsum_ext'. intros s Hs. apply (HU s Hs); auto; lia. }
  unfold contrib, rowc. rewrite (bsum_swap RT). apply rsum_ext'. intros ho _.
  apply (chunk_rsum Wo A (fun wo => rlsum (fun pt => if pt_eqb (chunk_lo Hi Np p + hl - rl, chunk_lo Wi A a + wl) pt then T b ch (chunk_lo Ho Np p + ho) wo pt else 0%R) (NB (chunk_lo Ho Np p + ho) wo))). auto.
Qed.
Lemma rl_le : forall p, p < Np -> rl <= chunk_len Hi Np p.
Proof. intros p Hp. destruct (op_init p 0 Hp HA) as (row & EO & _). pose proof (HH p 0 _ Hp HA EO) as Q. exact Q. Qed.
Lemma rl_single : Np = 1 -> rl = 0.
Proof. intros E. unfold rl, compute_r_lat_up, compute_r_lat. rewrite E. destruct up; reflexivity. Qed.
Lemma radius_rl : radius_suffices P Hi Wi Ho Wo Np rl.
Proof. destruct HN as [HB Hn HHi HHo HWi HWo _ _ _ Hd HPt Hqd Hne]. apply (radius_ok P Hi Wi Ho Wo Np); auto. Qed.
Lemma rowc_zero : forall t p h w, p < Np -> (h + rl < chunk_lo Hi Np p \/ chunk_lo Hi Np p + chunk_len Hi Np p + rl <= h) -> rowc t p h w = 0%R.
Proof.
  intros t p h w Hp Hfar. unfold rowc. apply (bsum_zero' RT). intros ho Hho.
  apply (bsum_zero' RT). intros wo Hwo.
  apply rlsum_zero. intros pt Hpt. destruct (pt_eqb (h, w) pt) eqn:E; [|reflexivity]. exfalso. apply pt_eqb_iff in E. subst pt.
  pose proof (radius_rl p (chunk_lo Ho Np p + ho) wo (h, w) Hp ltac:(lia) Hwo Hpt) as Q. cbn [fst] in Q. lia.
Qed.
Lemma halo_sum : forall t p y w, p < Np -> y < chunk_len Hi Np p -> let h := chunk_lo Hi Np p + y in
  (rowc t p h w + (if ((0 <? p) && (y <? rl))%nat then rowc t (p - 1) h w else 0) + (if ((p <? Np - 1) && (chunk_len Hi Np p - rl <=? y))%nat then rowc t (p + 1) h w else 0))%R =
  rsum Ho (fun ho => rsum Wo (fun wo => rlsum (fun pt => if pt_eqb (h, w) pt then t ho wo pt else 0%R) (NB ho wo))).
Proof.
  intros t p y w Hp Hy h. rewrite <- (chunk_rsum Ho Np) by auto.
  transitivity (rsum Np (fun p => rowc t p h w)); [|reflexivity].
  assert (NX : forall qq, qq < Np -> chunk_lo Hi Np (S qq) = chunk_lo Hi Np qq + chunk_len Hi Np qq) by (intros qq _; unfold chunk_len; pose proof (chunk_lo_mono Hi Np qq); lia).
  rewrite (near_sum Np p (fun p => rowc t p h w)).
  - f_equal; [f_equal|].
    + destruct (Nat.ltb_spec 0 p); cbn [andb]; [|reflexivity]. destruct (Nat.ltb_spec y rl); [reflexivity|]. symmetry. apply rowc_zero; [lia|]. right.
      pose proof (NX (p - 1) ltac:(lia)) as Q. replace (S (p - 1)) with p in Q by lia. unfold h. lia.
    + destruct (Nat.ltb_spec p (Np - 1)); cbn [andb]; [|reflexivity]. destruct (Nat.leb_spec (chunk_len Hi Np p - rl) y); [reflexivity|]. symmetry. apply rowc_zero; [lia|]. left.
      pose proof (NX p ltac:(lia)) as Q. replace (p + 1) with (S p) by lia. unfold h. lia.
  - auto.
  - intros qq Hq [Hf|Hf].
    + apply rowc_zero; auto. right. pose proof (NX qq Hq). pose proof (NX (p - 1) ltac:(lia)) as Q. replace (S (p - 1)) with p in Q by lia.
      pose proof (chunk_lo_mono_le Hi Np (S qq) (p - 1) ltac:(lia)). pose proof (rl_le (p - 1) ltac:(lia)). unfold h. lia.
    + apply rowc_zero; auto. left. pose proof (NX p Hp). pose proof (NX (p + 1) ltac:(lia)) as Q. replace (p + 1) with (S p) in Q by lia.
      pose proof (chunk_lo_mono_le Hi Np (S (S p)) qq ltac:(lia)). pose proof (rl_le (p + 1) ltac:(lia)) as Q'. replace (p + 1) with (S p) in Q' by lia. unfold h. lia.
Qed.
Lemma halo_own : forall (x : pfam (tensor R)) C (T : nat -> nat -> nat -> nat -> nat * nat -> R),
  (forall p a, p < Np -> a < A -> exists d, x p a = Some d /\ shp d = [B * nh; C; chunk_len Hi Np p + 2 * rl; chunk_len Wi A a] /\
    forall b hl wl ch, b < B * nh -> hl < chunk_len Hi Np p + 2 * rl -> wl < chunk_len Wi A a -> rl <= chunk_lo Hi Np p + hl -> chunk_lo Hi Np p + hl < rl + Hi -> ch < C ->
      cf d b hl wl ch = rowc (T b ch) p (chunk_lo Hi Np p + hl - rl) (chunk_lo Wi A a + wl)) ->
  holds2 Np A (dist_halo_bwd Np obj x) (fun p a => shard 2 Np p (shard 3 A a (mk_cf (B * nh) C Hi Wi (fun b h w ch =>
    rsum Ho (fun ho => rsum Wo (fun wo => rlsum (fun pt => if pt_eqb (h, w) pt then T b ch ho wo pt else 0%R) (NB ho wo))))))).
Proof.
  intros x C T HX p a Hp Ha. destruct (op_init p a Hp Ha) as (row & EO & _). unfold dist_halo_bwd. rewrite EO. cbn [bindo da_r_lat da_lat_in].
  pose proof (chunk_bound Hi Np p HNp Hp) as BH.
  assert (G : exists dx, (if (0 <? rl) && (1 <? Np) then halo_bwd Np rl (fun p => nth p (bal Hi Np) 0) (fun p => x p a) p else x p a) = Some dx /\
    shp dx = [B * nh; C; chunk_len Hi Np p; chunk_len Wi A a] /\
    forall b y w c, b < B * nh -> y < chunk_len Hi Np p -> w < chunk_len Wi A a -> c < C ->
      cf dx b y w c = rsum Ho (fun ho => rsum Wo (fun wo => rlsum (fun pt => if pt_eqb (chunk_lo Hi Np p + y, chunk_lo Wi A a + w) pt then T b c ho wo pt else 0%R) (NB ho wo)))).
  { destruct (Nat.ltb_spec 0 rl) as [R1|R1], (Nat.ltb_spec 1 Np) as [N1|N1]; cbn [andb].
    - set (go := fun qq => match x qq a with Some d => d | None => const_t 0%R [] end).
      assert (HG : forall qq, qq < Np -> x qq a = Some (go qq) /\ shp (go qq) = [B * nh; C; nth qq (bal Hi Np) 0 + 2 * rl; chunk_len Wi A a] /\
        forall b hl wl ch, b < B * nh -> hl < chunk_len Hi Np qq + 2 * rl -> wl < chunk_len Wi A a -> rl <= chunk_lo Hi Np qq + hl -> chunk_lo Hi Np qq + hl < rl + Hi -> ch < C ->
          cf (go qq) b hl wl ch = rowc (T b ch) qq (chunk_lo Hi Np qq + hl - rl) (chunk_lo Wi A a + wl)).
      { intros qq Hq. destruct (HX qq a Hq Ha) as (d & E & S & V). unfold go. rewrite E, chunk_len_nth by auto. auto. }
      destruct (halo_bwd_val Np rl (fun p => nth p (bal Hi Np) 0) (B * nh) C (chunk_len Wi A a) (fun p => x p a) go p) as (dx & E & Sx & V); auto.
      { intros; apply HG; auto. } { intros; apply HG; auto. } { intros qq Hq. rewrite chunk_len_nth by auto. apply rl_le; auto. }
      rewrite chunk_len_nth in Sx by auto. exists dx. split; [exact E|]. split; [exact Sx|]. intros b y w c Hb Hy Hw Hc. rewrite V by (rewrite chunk_len_nth by auto; auto).
      rewrite <- halo_sum by auto. rewrite (chunk_len_nth Hi Np p) by auto.
      assert (NX : forall qq, qq < Np -> chunk_lo Hi Np (S qq) = chunk_lo Hi Np qq + chunk_len Hi Np qq) by (intros qq _; unfold chunk_len; pose proof (chunk_lo_mono Hi Np qq); lia).
      f_equal; [f_equal|].
      + destruct (HG p Hp) as (_ & _ & W1). rewrite W1 by (auto; lia). f_equal. lia.
      + destruct (Nat.ltb_spec 0 p); cbn [andb]; [|reflexivity]. destruct (Nat.ltb_spec y rl); [|reflexivity]. rewrite chunk_len_nth by (auto; lia).
        pose proof (NX (p - 1) ltac:(lia)) as Q. replace (S (p - 1)) with p in Q by lia. destruct (HG (p - 1) ltac:(lia)) as (_ & _ & W1). rewrite W1 by (auto; lia). f_equal. lia.
      + destruct (Nat.ltb_spec p (Np - 1)); cbn [andb]; [|reflexivity]. destruct (Nat.leb_spec (chunk_len Hi Np p - rl) y); [|reflexivity].
        pose proof (NX p ltac:(lia)) as Q. replace (p + 1) with (S p) by lia. destruct (HG (S p) ltac:(lia)) as (_ & _ & W1). pose proof (rl_le p Hp). pose proof (chunk_bound Hi Np (S p) HNp ltac:(lia)).
        rewrite W1 by (auto; lia). f_equal. lia.
    - exfalso. rewrite rl_single in R1 by lia. lia.
    - destruct (HX p a Hp Ha) as (d & E & S & V). exists d. assert (R0 : rl = 0) by lia. split; [exact E|]. split; [rewrite S, R0, Nat.mul_0_r, Nat.add_0_r; reflexivity|].
      intros b y w c Hb Hy Hw Hc. rewrite V by (auto; lia). rewrite <- halo_sum by auto. rewrite R0, !Nat.sub_0_r. rewrite (proj2 (Nat.leb_gt (chunk_len Hi Np p) y)) by lia. rewrite !andb_false_r. cbn [Nat.ltb Nat.leb]. ring.
    - destruct (HX p a Hp Ha) as (d & E & S & V). exists d. assert (R0 : rl = 0) by lia. split; [exact E|]. split; [rewrite S, R0, Nat.mul_0_r, Nat.add_0_r; reflexivity|].
      intros b y w c Hb Hy Hw Hc. rewrite V by (auto; lia). rewrite <- halo_sum by auto. rewrite R0, !Nat.sub_0_r. rewrite (proj2 (Nat.leb_gt (chunk_len Hi Np p) y)) by lia. rewrite !andb_false_r. cbn [Nat.ltb Nat.leb]. ring. }
  destruct G as (dx & E & Sx & V). exists dx. split; [exact E|].
  apply (cf_shard Hi Wi Ho Wo P Np A HNp HNi HNo HA HAi HAo) with (B0 := B * nh) (C0 := C) (H0 := Hi) (W0 := Wi); [reflexivity|exact Sx|]. intros b y w c Hb Hc Hy Hw. rewrite V by auto. reflexivity.
Qed.
Lemma op_dk : holds2 Np A (fst (fst (dist_op_bwd Np ranks obj proj dyf))) (fun p a => shard 2 Np p (shard 3 A a (mk_cf (B * nh) Ck Hi Wi (GK Ck Cv Ho Wo quad NB KG VG QG DG)))).
Proof.
  apply (halo_own _ Ck tK). apply own_val. intros p a Hp Ha. destruct (op_local p a Hp Ha) as (dk & dv & dq & E & S & _ & _ & V & _). exists dk. split; [unfold pmap; rewrite E; reflexivity|]. split; [exact S|].
  intros b hl w ch Hb Hhl Hw V1 V2 Hch. apply V; auto.
Qed.
Lemma op_dv : holds2 Np A (snd (fst (dist_op_bwd Np ranks obj proj dyf))) (fun p a => shard 2 Np p (shard 3 A a (mk_cf (B * nh) Cv Hi Wi (GV Ck Ho Wo quad NB KG QG DG)))).
Proof.
  apply (halo_own _ Cv tV). apply own_val. intros p a Hp Ha. destruct (op_local p a Hp Ha) as (dk & dv & dq & E & _ & S & _ & V & _). exists dv. split; [unfold pmap; rewrite E; reflexivity|]. split; [exact S|].
  intros b hl w ch Hb Hhl Hw V1 V2 Hch. apply V; auto.
Qed.
End Op.
