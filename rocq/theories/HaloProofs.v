(** Halo exchange: forward result and adjointness of the backward pass. *)
From Coq Require Import List Arith Lia Bool Reals Lra.
From Verif Require Import TensorModel TensorProofs PrimModel PrimSpec PrimProofs PrimProofs2
  PrimAutogradModel BigSum AdjointProofs.
Import ListNotations.

Lemma narrow_cat2_l : forall A d (a b : tensor A), d < ndim a ->
  teq (narrow d 0 (dimsz a d) (cat2 d a b)) a.
Proof.
  intros A d a b Hd. unfold ndim in Hd. split; simpl.
  - rewrite upd_upd_same. unfold dimsz. now apply upd_nth_id.
  - intros i Hi. rewrite upd_upd_same in Hi. pose proof (valid_len _ _ Hi) as Hl. rewrite upd_length in Hl.
    pose proof (valid_upd_bound _ _ _ _ Hd Hi). rewrite Nat.add_0_r. rewrite nth_upd_same by lia.
    rewrite (proj2 (Nat.ltb_lt _ _) H). rewrite upd_nth_id; auto; lia.
Qed.
Lemma narrow_cat2_r : forall A d (a b : tensor A) off len, d < ndim a -> upd d 0 (shp a) = upd d 0 (shp b) ->
  teq (narrow d (dimsz a d + off) len (cat2 d a b)) (narrow d off len b).
Proof.
  intros A d a b off len Hd Hs. unfold ndim in Hd. split; simpl.
  - rewrite upd_upd_same. now apply upd0_eq.
  - intros i Hi. rewrite upd_upd_same in Hi. pose proof (valid_len _ _ Hi) as Hl. rewrite upd_length in Hl.
    rewrite nth_upd_same by lia. destruct (Nat.ltb_spec (nth d i 0 + (dimsz a d + off)) (dimsz a d)). lia.
    rewrite upd_upd_same. f_equal. f_equal. lia.
Qed.

Lemma torch_cat3 : forall A d s na nb nc (a b c : tensor A), d < length s ->
  shp a = upd d na s -> shp b = upd d nb s -> shp c = upd d nc s ->
  exists u, torch_cat d [a; b; c] = Some u /\ shp u = upd d (na + nb + nc) s /\
    teq (narrow d 0 na u) a /\ teq (narrow d na nb u) b /\ teq (narrow d (na + nb) nc u) c.
Proof.
  intros A d s na nb nc a b c Hd Ha Hb Hc.
  assert (La : d < ndim a) by (unfold ndim; rewrite Ha, upd_length; auto).
  assert (Lb : d < ndim b) by (unfold ndim; rewrite Hb, upd_length; auto).
  assert (Lc : d < ndim c) by (unfold ndim; rewrite Hc, upd_length; auto).
  assert (Da : dimsz a d = na) by (unfold dimsz; rewrite Ha, nth_upd_same; auto).
  assert (Db : dimsz b d = nb) by (unfold dimsz; rewrite Hb, nth_upd_same; auto).
  assert (Dc : dimsz c d = nc) by (unfold dimsz; rewrite Hc, nth_upd_same; auto).
  assert (Ebc : upd d 0 (shp b) = upd d 0 (shp c)) by (rewrite Hb, Hc, !upd_upd_same; auto).
  assert (Eabc : upd d 0 (shp a) = upd d 0 (shp (cat2 d b c))) by (simpl; rewrite Ha, Hb, !upd_upd_same; auto).
  cbn [torch_cat].
  rewrite (proj2 (Nat.ltb_lt _ _) Lc), (proj2 (Nat.ltb_lt _ _) Lb), (proj2 (shape_eqb_true _ _) Ebc). cbn [andb].
  rewrite (proj2 (Nat.ltb_lt _ _) La), (proj2 (shape_eqb_true _ _) Eabc). cbn [andb].
  eexists; split; eauto. split.
  { cbn [shp cat2]. rewrite Da. unfold dimsz at 1. cbn [shp cat2]. rewrite Ha, Hb, !upd_upd_same, Db, Dc.
    rewrite nth_upd_same; auto. f_equal. lia. }
  split. { rewrite <- Da. apply narrow_cat2_l; auto. }
  split.
  - rewrite <- Da at 1. replace (dimsz a d) with (dimsz a d + 0) by lia.
    eapply teq_trans. apply narrow_cat2_r; auto. rewrite <- Db. apply narrow_cat2_l; auto.
  - rewrite <- Da at 1. eapply teq_trans. apply narrow_cat2_r; auto.
    rewrite <- Db. replace (dimsz b d) with (dimsz b d + 0) by lia.
    eapply teq_trans. apply narrow_cat2_r; auto. rewrite <- Dc. apply narrow_all; auto.
Qed.

(** A tensor is determined by consecutive slices. *)
Lemma teq_by_parts : forall A d l (t u : tensor A), d < ndim t -> shp t = shp u -> sum_list l = dimsz t d ->
  (forall r, r < length l -> teq (shard_by l d r t) (shard_by l d r u)) -> teq t u.
Proof.
  intros A d l t u Hd Hs Hl H. split; auto. intros i Hi. unfold ndim in Hd.
  assert (Hb : nth d i 0 < sum_list l). { rewrite Hl. unfold dimsz. destruct Hi as [_ Hi]. apply Hi; auto. }
  assert (forall l k, k < sum_list l -> exists r j, r < length l /\ j < nth r l 0 /\ k = sum_list (firstn r l) + j) as Hloc.
  { clear. induction l; simpl; intros k Hk. lia.
    destruct (Nat.lt_ge_cases k a). exists 0, k; simpl; repeat split; auto; lia.
    destruct (IHl (k - a)) as (r & j & H1 & H2 & H3). lia. exists (S r), j. simpl. repeat split; auto; lia. }
  destruct (Hloc _ _ Hb) as (r & j & Hr & Hj & Hk). destruct (H r Hr) as [_ Hv].
  pose proof (valid_len _ _ Hi) as Hlen.
  specialize (Hv (upd d j i)). cbn [shp narrow shard_by val] in Hv.
  rewrite nth_upd_same in Hv by lia. rewrite upd_upd_same in Hv.
  replace (j + sum_list (firstn r l)) with (nth d i 0) in Hv by lia.
  rewrite upd_nth_id in Hv by lia. apply Hv.
  apply valid_upd_iff; auto. rewrite upd_length, nth_upd_same by lia. repeat split; auto.
  intros e He Hne. rewrite nth_upd_other by auto. destruct Hi as [_ Hi]. apply Hi; auto.
Qed.

Lemma recv_into_ok : forall s m, shp m = s -> recv_into s (Some m) = Some m.
Proof. intros. unfold recv_into. cbn [bindo]. rewrite (proj2 (shape_eqb_true _ _) H). auto. Qed.

Lemma slice_last_spec : forall (t : tensor R) d r, 1 <= r -> r <= dimsz t d ->
  slice_last d r t = narrow d (dimsz t d - r) r t.
Proof.
  intros. unfold slice_last. destruct (Nat.eqb_spec r 0). lia. f_equal. lia.
Qed.
Lemma slice_to_spec : forall (t : tensor R) d r, r <= dimsz t d -> slice_to d r t = narrow d 0 r t.
Proof. intros. unfold slice_to. f_equal. lia. Qed.

(** Local characterisation of the forward pass, arbitrary block heights. *)
Lemma halo_fwd_local : forall n rl s len (x : nat -> tensor R), length s = 4 -> 1 <= rl ->
  (forall r, r < n -> shp (x r) = upd 2 (len r) s) -> (forall r, r < n -> rl <= len r) ->
  forall r, r < n -> exists y, halo_fwd n rl (fun q => Some (x q)) r = Some y /\
    shp y = upd 2 (rl + len r + rl) s /\
    teq (narrow 2 0 rl y) (if 0 <? r then narrow 2 (len (r - 1) - rl) rl (x (r - 1)) else const_t 0%R (upd 2 rl s)) /\
    teq (narrow 2 rl (len r) y) (x r) /\
    teq (narrow 2 (rl + len r) rl y) (if r <? n - 1 then narrow 2 0 rl (x (r + 1)) else const_t 0%R (upd 2 rl s)).
Proof.
  intros n rl s len x Hs Hrl Hx Hlen r Hr. unfold halo_fwd. cbn [bindo].
  unfold ndim. rewrite (Hx r Hr), upd_length, Hs. cbn [Nat.eqb guard bindo].
  set (top := if 0 <? r then narrow 2 (len (r - 1) - rl) rl (x (r - 1)) else const_t 0%R (upd 2 rl s)).
  set (bot := if r <? n - 1 then narrow 2 0 rl (x (r + 1)) else const_t 0%R (upd 2 rl s)).
  assert (D : forall q, q < n -> dimsz (x q) 2 = len q)
    by (intros; unfold dimsz; rewrite Hx, nth_upd_same by lia; auto).
  cbn [shp const_t]. rewrite upd_upd_same.
  assert (Et : (if 0 <? r then recv_into (upd 2 rl s) (Some (slice_last 2 rl (x (r - 1)))) else Some (const_t 0%R (upd 2 rl s))) = Some top).
  { unfold top. destruct (Nat.ltb_spec 0 r); auto.
    rewrite slice_last_spec; auto. 2: rewrite D; [apply Hlen|]; lia. rewrite D by lia.
    apply recv_into_ok. cbn [shp narrow]. rewrite Hx by lia. now rewrite upd_upd_same. }
  rewrite Et. cbn [bindo].
  assert (Eb : (if r <? n - 1 then recv_into (upd 2 rl s) (Some (slice_to 2 rl (x (r + 1)))) else Some (const_t 0%R (upd 2 rl s))) = Some bot).
  { unfold bot. destruct (Nat.ltb_spec r (n - 1)); auto.
    rewrite slice_to_spec; auto. 2: rewrite D; [apply Hlen|]; lia.
    apply recv_into_ok. cbn [shp narrow]. rewrite Hx by lia. now rewrite upd_upd_same. }
  rewrite Eb. cbn [bindo].
  apply torch_cat3; auto. lia.
  - unfold top. destruct (Nat.ltb_spec 0 r); auto. cbn [shp narrow]. rewrite Hx by lia. now rewrite upd_upd_same.
  - unfold bot. destruct (Nat.ltb_spec r (n - 1)); auto. cbn [shp narrow]. rewrite Hx by lia. now rewrite upd_upd_same.
Qed.

Lemma narrow_zero_pad_in : forall (t : tensor R) d rl off len, d < ndim t -> rl <= off -> off + len <= rl + dimsz t d ->
  teq (narrow d off len (zero_pad 0%R d rl t)) (narrow d (off - rl) len t).
Proof.
  intros t d rl off len Hd H1 H2. unfold ndim in Hd. split; simpl. now rewrite upd_upd_same.
  intros i Hi. rewrite upd_upd_same in Hi. pose proof (valid_len _ _ Hi) as Hl. rewrite upd_length in Hl.
  pose proof (valid_upd_bound _ _ _ _ Hd Hi). rewrite nth_upd_same by lia.
  destruct (Nat.leb_spec rl (nth d i 0 + off)); [|lia].
  destruct (Nat.ltb_spec (nth d i 0 + off) (rl + dimsz t d)); [|lia]. simpl.
  rewrite upd_upd_same. f_equal. f_equal. lia.
Qed.
Lemma narrow_zero_pad_out : forall (t : tensor R) d rl off len, d < ndim t ->
  (off + len <= rl \/ rl + dimsz t d <= off) ->
  teq (narrow d off len (zero_pad 0%R d rl t)) (const_t 0%R (upd d len (shp t))).
Proof.
  intros t d rl off len Hd H. unfold ndim in Hd. split; simpl. now rewrite upd_upd_same.
  intros i Hi. rewrite upd_upd_same in Hi. pose proof (valid_len _ _ Hi) as Hl. rewrite upd_length in Hl.
  pose proof (valid_upd_bound _ _ _ _ Hd Hi). rewrite nth_upd_same by lia.
  destruct (Nat.leb_spec rl (nth d i 0 + off)); destruct (Nat.ltb_spec (nth d i 0 + off) (rl + dimsz t d)); simpl; auto; lia.
Qed.

(** Global form: every rank obtains its rows and [rl] neighbouring rows on both
    sides of the zero-extended global tensor. *)
Theorem halo_forward : forall n rl (X : tensor R) (x : fam (tensor R)), 1 <= n -> ndim X = 4 -> n <= dimsz X 2 -> 1 <= rl ->
  (forall r, r < n -> rl <= chunk_len (dimsz X 2) n r) ->
  holds n x (fun r => shard 2 n r X) ->
  holds n (halo_fwd n rl x)
    (fun r => narrow 2 (chunk_lo (dimsz X 2) n r) (rl + chunk_len (dimsz X 2) n r + rl) (zero_pad 0%R 2 rl X)).
Proof.
  intros n rl X x Hn Hd Hsz Hrl Hlen Hx r Hr.
  destruct (holds_get _ _ _ _ Hx) as (v & Hv).
  assert (Hsv : forall q, q < n -> shp (v q) = upd 2 (chunk_len (dimsz X 2) n q) (shp X)).
  { intros q Hq. destruct (Hv q Hq) as (_ & Ht). now rewrite (teq_shp _ _ _ Ht). }
  destruct (halo_fwd_local n rl (shp X) (chunk_len (dimsz X 2) n) v Hd Hrl Hsv Hlen r Hr)
    as (y & Hy & Hys & Htop & Hmid & Hbot).
  assert (E : halo_fwd n rl x r = halo_fwd n rl (fun q => Some (v q)) r).
  { unfold halo_fwd. rewrite (proj1 (Hv r Hr)). cbn [bindo].
    destruct (Nat.ltb_spec 0 r); destruct (Nat.ltb_spec r (n - 1));
      repeat match goal with |- context [x ?q] => rewrite (proj1 (Hv q ltac:(lia))) end; reflexivity. }
  rewrite E, Hy. apply returns_Some.
  set (H := dimsz X 2) in *.
  assert (Hlo : forall q, q < n -> chunk_lo H n q + chunk_len H n q = chunk_lo H n (S q)).
  { intros q Hq. unfold chunk_len. pose proof (chunk_lo_mono H n q). lia. }
  assert (Hle : forall q, q <= n -> chunk_lo H n q <= H).
  { intros q Hq. transitivity (chunk_lo H n n). apply chunk_lo_mono_le; lia. now rewrite chunk_lo_total. }
  assert (Hpart : forall q off m, q < n -> off + m <= chunk_len H n q ->
            teq (narrow 2 off m (v q)) (narrow 2 (chunk_lo H n q + off) m X)).
  { intros q off m Hq Hm. eapply teq_trans. apply narrow_proper; [apply (proj2 (Hv q Hq))|].
    - unfold dimsz. rewrite Hsv, nth_upd_same by (auto; unfold ndim in Hd; lia). auto.
    - unfold shard. apply narrow_narrow_same. lia. }
  apply (teq_by_parts _ 2 [rl; chunk_len H n r; rl]).
  - unfold ndim. rewrite Hys, upd_length. unfold ndim in Hd; lia.
  - rewrite Hys. cbn [shp narrow zero_pad]. now rewrite upd_upd_same.
  - unfold dimsz. rewrite Hys, nth_upd_same by (unfold ndim in Hd; lia). simpl; lia.
  - assert (HZd : 2 < ndim (zero_pad 0%R 2 rl X)) by (unfold ndim in *; cbn [shp zero_pad]; rewrite upd_length; lia).
    intros k Hk. destruct k as [|[|[|k]]]; [| | |simpl in Hk; lia];
      unfold shard_by; cbn [firstn nth]; cbn [sum_list fold_right]; rewrite ?Nat.add_0_r.
    + eapply teq_trans. apply Htop. apply teq_sym. eapply teq_trans. apply narrow_narrow_same. lia.
      rewrite Nat.add_0_r. destruct (Nat.ltb_spec 0 r).
      * eapply teq_trans. apply narrow_zero_pad_in. lia.
        { replace r with (S (r - 1)) by lia. rewrite <- Hlo by lia. specialize (Hlen (r-1)). lia. }
        { specialize (Hle r). fold H. lia. }
        apply teq_sym. eapply teq_trans. apply Hpart. lia. specialize (Hlen (r-1)). lia.
        replace (chunk_lo H n (r - 1) + (chunk_len H n (r - 1) - rl)) with (chunk_lo H n r - rl); auto.
        specialize (Hlo (r-1)). specialize (Hlen (r-1)). replace (S (r-1)) with r in Hlo by lia. lia.
      * assert (r = 0) by lia; subst r. replace (chunk_lo H n 0) with 0 by (unfold chunk_lo; lia).
        apply narrow_zero_pad_out; auto. lia.
    + eapply teq_trans. apply Hmid. apply teq_sym. eapply teq_trans. apply narrow_narrow_same. lia.
      eapply teq_trans. apply narrow_zero_pad_in; try lia. fold H. specialize (Hlo r Hr). specialize (Hle (S r)). lia.
      eapply teq_trans. 2: apply teq_sym, (proj2 (Hv r Hr)). unfold shard. fold H.
      replace (chunk_lo H n r + rl - rl) with (chunk_lo H n r) by lia. auto.
    + eapply teq_trans. apply Hbot. apply teq_sym. eapply teq_trans. apply narrow_narrow_same. lia.
      specialize (Hlo r Hr) as Hlor.
      destruct (Nat.ltb_spec r (n - 1)).
      * eapply teq_trans. apply narrow_zero_pad_in; try lia.
        { fold H. specialize (Hlo (r+1)). specialize (Hle (S (r+1))). specialize (Hlen (r+1)).
          replace (r + 1) with (S r) in * by lia. lia. }
        apply teq_sym. eapply teq_trans. apply Hpart. lia. specialize (Hlen (r+1)). lia.
        replace (chunk_lo H n (r + 1) + 0) with (chunk_lo H n r + (rl + chunk_len H n r) - rl); auto.
        replace (r + 1) with (S r) by lia. lia.
      * assert (r = n - 1) by lia. subst r.
        apply narrow_zero_pad_out; auto. lia. fold H. right.
        replace (S (n - 1)) with n in Hlor by lia. rewrite chunk_lo_total in Hlor by lia. lia.
Qed.

(** Failure cases. *)
Lemma recv_into_bad : forall s m, shp m <> s -> recv_into s (Some m) = None.
Proof.
  intros. unfold recv_into. cbn [bindo]. destruct (shape_eqb (shp m) s) eqn:E; auto.
  apply shape_eqb_true in E. congruence.
Qed.
Theorem halo_zero_fails : forall n (x : nat -> tensor R) r, 0 < r -> r < n ->
  ndim (x (r - 1)) = 4 -> ndim (x r) = 4 -> 0 < dimsz (x (r - 1)) 2 ->
  halo_fwd n 0 (fun q => Some (x q)) r = None.
Proof.
  intros n x r H0 Hr Hd1 Hd Hp. unfold halo_fwd. cbn [bindo]. rewrite Hd. cbn [Nat.eqb guard bindo].
  rewrite (proj2 (Nat.ltb_lt _ _) H0). rewrite recv_into_bad; auto.
  unfold slice_last. cbn [Nat.eqb]. cbn [shp const_t]. intros E. unfold dimsz in Hp.
  apply (f_equal (fun l => nth 2 l 0)) in E. unfold ndim in *. rewrite nth_upd_same in E by lia. lia.
Qed.
Theorem halo_too_wide_fails : forall n rl (x : nat -> tensor R) r, 0 < r -> r < n -> 1 <= rl ->
  ndim (x (r - 1)) = 4 -> ndim (x r) = 4 -> dimsz (x (r - 1)) 2 < rl ->
  halo_fwd n rl (fun q => Some (x q)) r = None.
Proof.
  intros n rl x r H0 Hr Hrl Hd1 Hd Hp. unfold halo_fwd. cbn [bindo]. rewrite Hd. cbn [Nat.eqb guard bindo].
  rewrite (proj2 (Nat.ltb_lt _ _) H0). rewrite recv_into_bad; auto.
  unfold slice_last. destruct (Nat.eqb_spec rl 0); [lia|]. cbn [shp narrow const_t]. intros E.
  apply (f_equal (fun l => nth 2 l 0)) in E. unfold ndim in *. rewrite !nth_upd_same in E by lia. lia.
Qed.

(** ** Adjointness *)
Local Open Scope R_scope.

Lemma dot_zero_l : forall t u, (forall i, valid (shp t) i -> val t i = 0) -> dot t u = 0.
Proof.
  intros t u H. unfold dot. erewrite isum_ext. apply isum_zero. intros i Hi. simpl. rewrite H by auto. ring.
Qed.

Lemma dot_add_rows : forall d lo s m k (x t u : tensor R), (d < length s)%nat ->
  shp x = upd d m s -> shp t = upd d m s -> shp u = upd d k s -> (lo + k <= m)%nat ->
  dot x (add_to_rows Rplus d lo t u) = dot x t + dot (narrow d lo k x) u.
Proof.
  intros d lo s m k x t u Hd Hx Ht Hu Hb. unfold dot. cbn [shp narrow]. rewrite Hx, upd_upd_same.
  rewrite !(isum_dim (upd d m s) d), (isum_dim (upd d k s) d) by (rewrite upd_length; auto).
  rewrite !nth_upd_same by auto. rewrite !upd_upd_same.
  assert (Du : dimsz u d = k) by (unfold dimsz; rewrite Hu, nth_upd_same; auto).
  replace m with (lo + (k + (m - lo - k)))%nat by lia. set (m' := (m - lo - k)%nat).
  rewrite !(bsum_split RT lo), !(bsum_split RT k). 
  assert (E1 : forall j, (j < lo)%nat -> isum (upd d 1 s) (fun i => val x (upd d j i) * val (add_to_rows Rplus d lo t u) (upd d j i))
      = isum (upd d 1 s) (fun i => val x (upd d j i) * val t (upd d j i))).
  { intros j Hj. apply isum_ext. intros i Hi. apply valid_len in Hi. rewrite upd_length in Hi. f_equal.
    cbn [val add_to_rows]. rewrite nth_upd_same by lia. destruct (Nat.leb_spec lo j); [lia|]. auto. }
  rewrite (bsum_ext lo _ _ E1). clear E1.
  assert (E3 : forall j, (j < m')%nat -> isum (upd d 1 s) (fun i => val x (upd d (lo + (k + j)) i) * val (add_to_rows Rplus d lo t u) (upd d (lo + (k + j)) i))
      = isum (upd d 1 s) (fun i => val x (upd d (lo + (k + j)) i) * val t (upd d (lo + (k + j)) i))).
  { intros j Hj. apply isum_ext. intros i Hi. apply valid_len in Hi. rewrite upd_length in Hi. f_equal.
    cbn [val add_to_rows]. rewrite nth_upd_same by lia. rewrite Du.
    destruct (Nat.ltb_spec (lo + (k + j)) (lo + k)); [lia|]. now rewrite andb_false_r. }
  rewrite (bsum_ext m' _ _ E3). clear E3.
  assert (E2 : forall j, (j < k)%nat -> isum (upd d 1 s) (fun i => val x (upd d (lo + j) i) * val (add_to_rows Rplus d lo t u) (upd d (lo + j) i))
      = isum (upd d 1 s) (fun i => val x (upd d (lo + j) i) * val t (upd d (lo + j) i)) +
        isum (upd d 1 s) (fun i => val (narrow d lo k x) (upd d j i) * val u (upd d j i))).
  { intros j Hj. rewrite <- isum_plus. apply isum_ext. intros i Hi. apply valid_len in Hi. rewrite upd_length in Hi.
    cbn [val add_to_rows narrow]. rewrite !nth_upd_same by lia. rewrite Du.
    destruct (Nat.leb_spec lo (lo + j)); [|lia]. destruct (Nat.ltb_spec (lo + j) (lo + k)); [|lia]. cbn [andb].
    rewrite !upd_upd_same. replace (lo + j - lo)%nat with j by lia. rewrite (Nat.add_comm j lo). ring. }
  rewrite (bsum_ext k _ _ E2). rewrite (bsum_plus RT). ring.
Qed.

Lemma rsum_shift : forall n (F : nat -> nat -> R), 
  rsum n (fun r => if (0 <? r)%nat then F (r - 1)%nat r else 0) =
  rsum n (fun r => if (r <? n - 1)%nat then F r (r + 1)%nat else 0).
Proof.
  intros n F. destruct n as [|n]. reflexivity.
  rewrite (bsum_S_l RT). simpl (if (0 <? 0)%nat then _ else _).
  change (rsum (S n) ?f) with (rsum n f + f n). cbv beta.
  replace (n <? S n - 1)%nat with false by (symmetry; apply Nat.ltb_ge; lia).
  rewrite Rplus_0_l, Rplus_0_r. apply bsum_ext. intros k Hk.
  replace (k <? S n - 1)%nat with true by (symmetry; apply Nat.ltb_lt; lia).
  replace (0 <? S k)%nat with true by reflexivity. f_equal; lia.
Qed.

Lemma slice_spec : forall (t : tensor R) d lo k, (lo + k <= dimsz t d)%nat -> slice d lo (lo + k) t = narrow d lo k t.
Proof. intros. unfold slice. f_equal; lia. Qed.
Lemma slice_from_spec : forall (t : tensor R) d lo k, dimsz t d = (lo + k)%nat -> slice_from d lo t = narrow d lo k t.
Proof. intros. unfold slice_from. rewrite H. apply slice_spec. lia. Qed.

(** Local form of the backward pass. *)
Lemma halo_bwd_local : forall n rl s len (go : nat -> tensor R), length s = 4%nat ->
  (forall r, (r < n)%nat -> shp (go r) = upd 2 (rl + len r + rl)%nat s) -> (forall r, (r < n)%nat -> (rl <= len r)%nat) ->
  forall r, (r < n)%nat -> exists dx, halo_bwd n rl len (fun q => Some (go q)) r = Some dx /\
    shp dx = upd 2 (len r) s /\
    forall x, shp x = upd 2 (len r) s ->
      dot x dx = dot x (narrow 2 rl (len r) (go r))
        + (if (0 <? r)%nat then dot (narrow 2 0 rl x) (narrow 2 (rl + len (r - 1)%nat) rl (go (r - 1)%nat)) else 0)
        + (if (r <? n - 1)%nat then dot (narrow 2 (len r - rl) rl x) (narrow 2 0 rl (go (r + 1)%nat)) else 0).
Proof.
  intros n rl s len go Hs Hg Hlen r Hr. unfold halo_bwd. cbn [bindo].
  unfold ndim. rewrite (Hg r Hr), upd_length, Hs. cbn [Nat.eqb guard bindo].
  assert (D : forall q, (q < n)%nat -> dimsz (go q) 2 = (rl + len q + rl)%nat)
    by (intros; unfold dimsz; rewrite Hg, nth_upd_same by lia; auto).
  rewrite slice_spec by (rewrite D; lia). set (mid := narrow 2 rl (len r) (go r)).
  assert (Smid : shp mid = upd 2 (len r) s) by (unfold mid; cbn [shp narrow]; rewrite Hg, upd_upd_same by auto; auto).
  assert (Dmid : dimsz mid 2 = len r) by (unfold dimsz; rewrite Smid, nth_upd_same by lia; auto).
  rewrite upd_upd_same, Dmid. pose proof (Hlen r Hr) as Hl.
  assert (Snar : forall q off, (q < n)%nat -> shp (narrow 2 off rl (go q)) = upd 2 rl s)
    by (intros; cbn [shp narrow]; rewrite Hg, upd_upd_same by auto; auto).
  set (dx1 := if (0 <? r)%nat then add_to_rows Rplus 2 0 mid (narrow 2 (rl + len (r - 1)%nat) rl (go (r - 1)%nat)) else mid).
  assert (E1 : (if (0 <? r)%nat then do m <- recv_into (upd 2 rl s) (Some (slice_from 2 (rl + len (r - 1)%nat) (go (r - 1)%nat)));
      do _ <- guard (rl <=? len r)%nat; Some (add_to_rows Rplus 2 0 mid m) else Some mid) = Some dx1).
  { unfold dx1. destruct (Nat.ltb_spec 0 r); auto.
    rewrite (slice_from_spec _ _ _ rl) by (rewrite D; lia). rewrite recv_into_ok by (apply Snar; lia). cbn [bindo].
    rewrite (proj2 (Nat.leb_le _ _) Hl). reflexivity. }
  rewrite E1. cbn [bindo].
  assert (S1 : shp dx1 = upd 2 (len r) s) by (unfold dx1; destruct (0 <? r)%nat; auto).
  assert (P1 : forall x, shp x = upd 2 (len r) s -> dot x dx1 = dot x mid +
     (if (0 <? r)%nat then dot (narrow 2 0 rl x) (narrow 2 (rl + len (r - 1)%nat) rl (go (r - 1)%nat)) else 0)).
  { intros x Hx. unfold dx1. destruct (Nat.ltb_spec 0 r).
    - apply (dot_add_rows 2 0 s (len r) rl); auto; try lia. apply Snar; lia.
    - ring. }
  destruct (Nat.ltb_spec r (n - 1)).
  - change (slice 2 0 rl (go (r + 1)%nat)) with (slice 2 0 (0 + rl) (go (r + 1)%nat)).
    rewrite slice_spec by (rewrite D; lia). rewrite recv_into_ok by (apply Snar; lia). cbn [bindo].
    rewrite (proj2 (Nat.leb_le _ _) Hl). cbn [guard bindo].
    eexists; split; [reflexivity|]. split; auto. intros x Hx. rewrite <- P1 by auto.
    apply (dot_add_rows 2 (len r - rl) s (len r) rl); auto; try lia. apply Snar; lia.
  - eexists; split; [reflexivity|]. split; auto. intros x Hx. rewrite P1 by auto. ring.
Qed.

Theorem halo_adjoint : forall n rl s len (x go : nat -> tensor R), length s = 4%nat -> (1 <= rl)%nat ->
  (forall r, (r < n)%nat -> (rl <= len r)%nat) ->
  (forall r, (r < n)%nat -> shp (x r) = upd 2 (len r) s) ->
  (forall r, (r < n)%nat -> shp (go r) = upd 2 (rl + len r + rl)%nat s) ->
  exists y dx, outs n (halo_fwd n rl (fun r => Some (x r))) y /\
    outs n (halo_bwd n rl len (fun r => Some (go r))) dx /\
    (forall r, (r < n)%nat -> shp (y r) = shp (go r) /\ shp (dx r) = shp (x r)) /\
    rsum n (fun r => dot (y r) (go r)) = rsum n (fun r => dot (x r) (dx r)).
Proof.
  intros n rl s len x go Hs Hrl Hlen Hx Hg.
  assert (Hf := halo_fwd_local n rl s len x Hs Hrl Hx Hlen).
  assert (Hb := halo_bwd_local n rl s len go Hs Hg Hlen).
  assert (CF : forall m (Q : nat -> tensor R -> Prop), (forall r, (r < m)%nat -> exists y, Q r y) -> exists f, forall r, (r < m)%nat -> Q r (f r)).
  { clear. induction m; intros Q H. exists (fun _ => const_t 0 []). intros; lia.
    destruct (IHm Q) as (f & Hf). intros; apply H; lia. destruct (H m) as (y & Hy). lia.
    exists (fun r => if Nat.eq_dec r m then y else f r). intros r Hr. destruct Nat.eq_dec; subst; auto. apply Hf; lia. }
  apply CF in Hf. destruct Hf as (y & Hy). apply CF in Hb. destruct Hb as (dx & Hdx).
  exists y, dx. split. intros r Hr; apply Hy; auto. split. intros r Hr; apply Hdx; auto. split.
  { intros r Hr. destruct (Hy r Hr) as (_ & H1 & _). destruct (Hdx r Hr) as (_ & H2 & _). rewrite H1, H2, Hx, Hg; auto. }
  set (F := fun a b => dot (narrow 2 (len a - rl) rl (x a)) (narrow 2 0 rl (go b))).
  set (G := fun a b => dot (narrow 2 0 rl (x b)) (narrow 2 (rl + len a) rl (go a))).
  transitivity (rsum n (fun r => dot (x r) (narrow 2 rl (len r) (go r)) + (if (0 <? r)%nat then F (r - 1)%nat r else 0)
      + (if (r <? n - 1)%nat then G r (r + 1)%nat else 0))).
  - apply bsum_ext. intros r Hr. destruct (Hy r Hr) as (_ & Hys & Ht & Hm & Hbt).
    assert (2 < length s)%nat by lia.
    assert (Sn : forall q off m, (q < n)%nat -> shp (narrow 2 off m (go q)) = upd 2 m s)
      by (intros; cbn [shp narrow]; rewrite Hg, upd_upd_same by auto; auto).
    rewrite (dot_shards_by [rl; len r; rl] 2).
    2: unfold ndim; rewrite Hys, upd_length; auto. 2: rewrite Hys, Hg; auto.
    2: unfold dimsz; rewrite Hys, nth_upd_same by lia; simpl; lia.
    simpl length. unfold bsum_. unfold shard_by. cbn [firstn nth]. cbn [sum_list fold_right]. rewrite !Nat.add_0_r.
    rewrite (dot_proper (narrow 2 rl (len r) (y r)) (x r) (narrow 2 rl (len r) (go r)) (narrow 2 rl (len r) (go r))); auto.
    2: rewrite Sn by auto; cbn [shp narrow]; rewrite Hys, upd_upd_same; auto.
    assert (E1 : dot (narrow 2 0 rl (y r)) (narrow 2 0 rl (go r)) = if (0 <? r)%nat then F (r - 1)%nat r else 0).
    { rewrite (dot_proper _ _ _ _ Ht (teq_refl _ _)).
      2: rewrite Sn by auto; cbn [shp narrow]; rewrite Hys, upd_upd_same; auto.
      destruct (0 <? r)%nat; auto. apply dot_zero_l. auto. }
    assert (E2 : dot (narrow 2 (rl + len r) rl (y r)) (narrow 2 (rl + len r) rl (go r)) = if (r <? n - 1)%nat then G r (r + 1)%nat else 0).
    { rewrite (dot_proper _ _ _ _ Hbt (teq_refl _ _)).
      2: rewrite Sn by auto; cbn [shp narrow]; rewrite Hys, upd_upd_same; auto.
      destruct (r <? n - 1)%nat; auto. apply dot_zero_l. auto. }
    rewrite E1, E2. ring.
  - transitivity (rsum n (fun r => dot (x r) (narrow 2 rl (len r) (go r)) + (if (0 <? r)%nat then G (r - 1)%nat r else 0)
      + (if (r <? n - 1)%nat then F r (r + 1)%nat else 0))).
    + rewrite !(bsum_plus RT). rewrite (rsum_shift n F), (rsum_shift n G). ring.
    + apply bsum_ext. intros r Hr. destruct (Hdx r Hr) as (_ & _ & H). rewrite (H (x r)) by auto. reflexivity.
Qed.
