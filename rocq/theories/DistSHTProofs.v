(** Locality of the transforms and the distributed = serial proofs. *)
From Coq Require Import List Arith Lia Bool Reals.
From Coquelicot Require Import Coquelicot.
From Verif Require Import TensorModel TensorProofs BigSum FFTModel TruncModel LegendreModel QuadModel SHTModel
  PrimModel PrimSpec PrimProofs PrimProofs2 DistSHTModel.
Import ListNotations.
Local Open Scope nat_scope.

(** ** 2-D families *)
Definition holds2 {B} (P A : nat) (x : pfam (tensor B)) (g : nat -> nat -> tensor B) : Prop :=
  forall p a, p < P -> a < A -> returns (x p a) (g p a).

Lemma dimsz_shard_other : forall B d e n r (t : tensor B), d <> e -> dimsz (shard d n r t) e = dimsz t e.
Proof. intros. unfold shard, dimsz, narrow; simpl. now rewrite nth_upd_other. Qed.
Lemma ndim_shard : forall B d n r (t : tensor B), ndim (shard d n r t) = ndim t.
Proof. intros. unfold shard, ndim, narrow; simpl. now rewrite upd_length. Qed.

Lemma shard_comm : forall B d e n k r s (t : tensor B), d <> e ->
  1 <= n -> 1 <= k -> r < n -> s < k ->
  teq (shard d n r (shard e k s t)) (shard e k s (shard d n r t)).
Proof.
  intros. unfold shard at 1 3. rewrite !dimsz_shard_other by auto. unfold shard.
  apply narrow_comm; auto.
Qed.

Lemma az_transpose_ok : forall B debug P A d0 d1 sizes (x : pfam (tensor B)) (T : nat -> tensor B),
  1 <= A -> d0 <> d1 ->
  (forall p, p < P -> d0 < ndim (T p) /\ d1 < ndim (T p) /\ A <= dimsz (T p) d0 /\
     forall a, a < A -> 1 < A -> exists sz, sizes p a = Some sz /\ compute_split_shapes (dimsz (T p) d1) A = Some sz) ->
  holds2 P A x (fun p a => shard d1 A a (T p)) ->
  holds2 P A (az_transpose debug A d0 d1 sizes x) (fun p a => shard d0 A a (T p)).
Proof.
  intros B debug P A d0 d1 sizes x T HA Hne HT Hx p a Hp Ha.
  destruct (HT p Hp) as (H0 & H1 & Hs & Hsz). unfold az_transpose.
  destruct (Nat.ltb_spec 1 A) as [Hl|Hl].
  - destruct (Hsz a Ha Hl) as (sz & -> & Hc). cbn [bindo].
    apply (distributed_transpose_balanced B debug A d0 d1 sz (T p) (fun a => x p a)); auto.
    intros r Hr. apply Hx; auto.
  - assert (A = 1) by lia. subst A. assert (a = 0) by lia; subst a.
    eapply returns_teq. apply Hx; auto.
    eapply teq_trans. apply shard_one; auto. apply teq_sym. apply shard_one; auto.
Qed.
Lemma po_transpose_ok : forall B debug P A d0 d1 sizes (x : pfam (tensor B)) (T : nat -> tensor B),
  1 <= P -> d0 <> d1 ->
  (forall a, a < A -> d0 < ndim (T a) /\ d1 < ndim (T a) /\ P <= dimsz (T a) d0 /\
     forall p, p < P -> 1 < P -> exists sz, sizes p a = Some sz /\ compute_split_shapes (dimsz (T a) d1) P = Some sz) ->
  holds2 P A x (fun p a => shard d1 P p (T a)) ->
  holds2 P A (po_transpose debug P d0 d1 sizes x) (fun p a => shard d0 P p (T a)).
Proof.
  intros B debug P A d0 d1 sizes x T HA Hne HT Hx p a Hp Ha.
  destruct (HT a Ha) as (H0 & H1 & Hs & Hsz). unfold po_transpose.
  destruct (Nat.ltb_spec 1 P) as [Hl|Hl].
  - destruct (Hsz p Hp Hl) as (sz & -> & Hc). cbn [bindo].
    apply (distributed_transpose_balanced B debug P d0 d1 sz (T a) (fun p => x p a)); auto.
    intros r Hr. apply Hx; auto.
  - assert (P = 1) by lia. subst P. assert (p = 0) by lia; subst p.
    eapply returns_teq. apply Hx; auto.
    eapply teq_trans. apply shard_one; auto. apply teq_sym. apply shard_one; auto.
Qed.

Lemma holds2_teq : forall B P A (x : pfam (tensor B)) g h, holds2 P A x g ->
  (forall p a, p < P -> a < A -> teq (g p a) (h p a)) -> holds2 P A x h.
Proof. intros B P A x g h Hx H p a Hp Ha. eapply returns_teq; eauto. Qed.

(** ** Locality of [along] *)
Lemma along_proper : forall X Y d n (f g : list nat -> (nat -> X) -> Y) (t u : tensor X),
  teq t u ->
  (forall i v w, valid (upd d n (shp t)) i -> (forall j, j < dimsz t d -> v j = w j) -> f i v = g i w) ->
  teq (along d n f t) (along d n g u).
Proof.
  intros X Y d n f g t u H Hf. pose proof (teq_shp _ _ _ H) as Hs. split; simpl. now rewrite Hs.
  intros i Hi. apply Hf; auto. intros j Hj. apply H.
  pose proof (valid_len _ _ Hi) as Hl. rewrite upd_length in Hl.
  split. now rewrite upd_length. intros e He.
  destruct (Nat.eq_dec e d) as [->|Hne].
  - rewrite nth_upd_same by lia. apply Hj.
  - rewrite nth_upd_other by auto. destruct Hi as [_ Hi]. specialize (Hi e). rewrite upd_length in Hi.
    rewrite nth_upd_other in Hi by auto. auto.
Qed.

Lemma along_narrow : forall X Y d e n off len (f g : list nat -> (nat -> X) -> Y) (t : tensor X),
  d <> e ->
  (forall i v w, valid (upd e len (upd d n (shp t))) i -> (forall j, j < dimsz t d -> v j = w j) ->
     f i v = g (upd e (nth e i 0 + off) i) w) ->
  teq (along d n f (narrow e off len t)) (narrow e off len (along d n g t)).
Proof.
  intros X Y d e n off len f g t Hne Hf. split; simpl. apply upd_comm; auto.
  intros i Hi. apply Hf. rewrite upd_comm; auto. intros j Hj.
  rewrite nth_upd_other by auto. f_equal. apply upd_comm; auto.
Qed.

Lemma along_shard : forall X Y d e n N r (f g : list nat -> (nat -> X) -> Y) (t : tensor X),
  d <> e ->
  (forall i v w, valid (upd e (chunk_len (dimsz t e) N r) (upd d n (shp t))) i -> (forall j, j < dimsz t d -> v j = w j) ->
     f i v = g (upd e (nth e i 0 + chunk_lo (dimsz t e) N r) i) w) ->
  teq (along d n f (shard e N r t)) (shard e N r (along d n g t)).
Proof.
  intros. unfold shard at 2. replace (dimsz (along d n g t) e) with (dimsz t e).
  apply along_narrow; auto. unfold dimsz; simpl. now rewrite nth_upd_other by auto.
Qed.

(** Vector functions of the FFT wrappers only look at the first n entries. *)
Lemma torch_rfft_ext : forall nm n x y k, (forall j, j < n -> x j = y j) -> torch_rfft nm n x k = torch_rfft nm n y k.
Proof. intros. unfold torch_rfft. f_equal. apply bsum_ext. intros i Hi. now rewrite H. Qed.
Lemma rfft_size : forall nm q n x, fst (rfft nm (Some q) n x) = q.
Proof.
  intros. unfold rfft. destruct (Nat.ltb_spec (torch_rfft_size n) q); auto.
  destruct (Nat.ltb_spec q (torch_rfft_size n)); simpl; lia.
Qed.
Lemma rfft_ext : forall nm q n x y k, (forall j, j < n -> x j = y j) -> snd (rfft nm q n x) k = snd (rfft nm q n y) k.
Proof.
  intros. unfold rfft. destruct q as [q|]. 2: now apply torch_rfft_ext.
  destruct (torch_rfft_size n <? q); simpl. unfold pad_dim_right. destruct (k <? _); auto using torch_rfft_ext.
  destruct (q <? torch_rfft_size n); simpl; now apply torch_rfft_ext.
Qed.
Lemma irfft_ext : forall nm n sz x y j, (forall k, k < sz -> x k = y k) -> irfft nm n sz x j = irfft nm n sz y j.
Proof.
  intros. unfold irfft, irfft_with, torch_irfft. f_equal. f_equal. apply bsum_ext. intros i Hi. f_equal.
  unfold hermitian. destruct (i <=? _). destruct (Nat.ltb_spec i sz); auto. now rewrite H.
  f_equal. destruct (Nat.ltb_spec (irfft_n n sz - i) sz); auto. now rewrite H.
Qed.

Lemma rfft_dim_eq : forall q d x, rfft_dim q d x =
  along d q (fun i v => Cmult (RtoC (2 * PI)) (snd (rfft NForward (Some q) (dimsz x d) v) (nth d i 0))) x.
Proof.
  intros. unfold rfft_dim. destruct (rfft NForward (Some q) (dimsz x d) (fun _ => 0%R)) as [s f] eqn:E.
  pose proof (rfft_size NForward q (dimsz x d) (fun _ => 0%R)) as H. rewrite E in H; simpl in H. now subst.
Qed.
Lemma rfft_dim_shard : forall q d e N r x, d <> e -> 
  teq (rfft_dim q d (shard e N r x)) (shard e N r (rfft_dim q d x)).
Proof.
  intros. rewrite !rfft_dim_eq. rewrite dimsz_shard_other by auto. apply along_shard; auto.
  intros i v w Hi Hv. rewrite nth_upd_other by auto. f_equal. now apply rfft_ext.
Qed.
Lemma rfft_dim_proper : forall q d x y, teq x y -> teq (rfft_dim q d x) (rfft_dim q d y).
Proof.
  intros. rewrite !rfft_dim_eq. rewrite (teq_dimsz _ _ _ d H). apply along_proper; auto.
  intros i v w Hi Hv. f_equal. apply rfft_ext. now rewrite <- (teq_dimsz _ _ _ d H).
Qed.
Lemma irfft_dim_shard : forall q d e N r x, d <> e -> 
  teq (irfft_dim q d (shard e N r x)) (shard e N r (irfft_dim q d x)).
Proof.
  intros. unfold irfft_dim. rewrite dimsz_shard_other by auto. apply along_shard; auto.
  intros i v w Hi Hv. rewrite nth_upd_other by auto. now apply irfft_ext.
Qed.
Lemma irfft_dim_proper : forall q d x y, teq x y -> teq (irfft_dim q d x) (irfft_dim q d y).
Proof.
  intros. unfold irfft_dim. rewrite (teq_dimsz _ _ _ d H). apply along_proper; auto.
  intros i v w Hi Hv. apply irfft_ext. now rewrite <- (teq_dimsz _ _ _ d H).
Qed.

(** ** Flattened views *)
Definition flat_of {X} (lead tl : list nat) (x x1 : tensor X) : Prop :=
  shp x = lead ++ tl /\ (exists N, prod_list lead <= N /\ shp x1 = N :: tl) /\
  forall c j, c < prod_list lead -> valid tl j -> val x1 (c :: j) = val x (unravel lead c ++ j).

Lemma upd_app_r : forall l l' k v, upd (length l + k) v (l ++ l') = l ++ upd k v l'.
Proof. induction l; simpl; intros; auto. now rewrite IHl. Qed.
Lemma nth_app_r : forall (l l' : list nat) k, nth (length l + k) (l ++ l') 0 = nth k l' 0.
Proof. intros. rewrite app_nth2 by lia. f_equal; lia. Qed.
Lemma upd_unravel : forall lead c k v j, upd (length lead + k) v (unravel lead c ++ j) = unravel lead c ++ upd k v j.
Proof. intros. rewrite <- (unravel_length lead c) at 1. apply upd_app_r. Qed.
Lemma nth_unravel : forall lead c k j, nth (length lead + k) (unravel lead c ++ j) 0 = nth k j 0.
Proof. intros. rewrite <- (unravel_length lead c) at 1. apply nth_app_r. Qed.

Lemma valid_narrow_in : forall s e off len j, off + len <= nth e s 0 -> e < length s -> valid (upd e len s) j ->
  valid s (upd e (nth e j 0 + off) j).
Proof.
  intros s e off len j Ho He Hj. pose proof (valid_len _ _ Hj) as Hl. rewrite upd_length in Hl.
  destruct Hj as [_ Hj]. split. now rewrite upd_length. intros d Hd.
  specialize (Hj d). rewrite upd_length in Hj. specialize (Hj Hd).
  destruct (Nat.eq_dec d e) as [->|Hne].
  - rewrite nth_upd_same in Hj |- * by lia. lia.
  - rewrite nth_upd_other in Hj |- * by auto. auto.
Qed.

Lemma flat_narrow : forall X lead tl e off len (x x1 : tensor X),
  e < length tl -> off + len <= nth e tl 0 ->
  flat_of lead tl x x1 ->
  flat_of lead (upd e len tl) (narrow (length lead + e) off len x) (narrow (S e) off len x1).
Proof.
  intros X lead tl e off len x x1 He Ho (Hx & (N & HN & H1) & Hv). split; [|split].
  - simpl. rewrite Hx. apply upd_app_r.
  - exists N. split; auto. simpl. now rewrite H1.
  - intros c j Hc Hj. simpl. rewrite Hv; auto. 2: now apply valid_narrow_in with len.
    now rewrite upd_unravel, nth_unravel.
Qed.

Lemma flat_shard : forall X lead tl e n r (x x1 : tensor X),
  e < length tl -> 1 <= n -> r < n ->
  flat_of lead tl x x1 ->
  flat_of lead (upd e (chunk_len (nth e tl 0) n r) tl) (shard (length lead + e) n r x) (shard (S e) n r x1).
Proof.
  intros X lead tl e n r x x1 He Hn Hr H. pose proof H as (Hx & (N & HN & H1) & Hv).
  assert (E1 : dimsz x (length lead + e) = nth e tl 0) by (unfold dimsz; rewrite Hx; apply nth_app_r).
  assert (E2 : dimsz x1 (S e) = nth e tl 0) by (unfold dimsz; now rewrite H1).
  unfold shard. rewrite E1, E2. apply flat_narrow; auto. apply chunk_bound; auto.
Qed.

Lemma flat_along : forall X Y lead tl e n (f f1 : list nat -> (nat -> X) -> Y) (x x1 : tensor X),
  e < length tl ->
  (forall c j v w, c < prod_list lead -> valid (upd e n tl) j -> (forall k, k < nth e tl 0 -> v k = w k) ->
     f1 (c :: j) v = f (unravel lead c ++ j) w) ->
  flat_of lead tl x x1 ->
  flat_of lead (upd e n tl) (along (length lead + e) n f x) (along (S e) n f1 x1).
Proof.
  intros X Y lead tl e n f f1 x x1 He Hf (Hx & (N & HN & H1) & Hv). split; [|split].
  - simpl. rewrite Hx. apply upd_app_r.
  - exists N. split; auto. simpl. now rewrite H1.
  - intros c j Hc Hj. simpl. apply Hf; auto. intros k Hk.
    rewrite Hv; auto. f_equal. now rewrite upd_unravel.
    pose proof (valid_len _ _ Hj) as Hl. rewrite upd_length in Hl. destruct Hj as [_ Hj].
    split. now rewrite upd_length. intros d Hd. destruct (Nat.eq_dec d e) as [->|Hne].
    rewrite nth_upd_same by lia. auto. rewrite nth_upd_other by auto.
    specialize (Hj d). rewrite upd_length in Hj. rewrite nth_upd_other in Hj; auto.
Qed.

Lemma flat_teq_r : forall X lead tl (x x1 y1 : tensor X), flat_of lead tl x x1 -> teq x1 y1 -> flat_of lead tl x y1.
Proof.
  intros X lead tl x x1 y1 (Hx & (N & HN & H1) & Hv) H. split; auto. split.
  exists N. split; auto. now rewrite <- (teq_shp _ _ _ H).
  intros c j Hc Hj. rewrite <- Hv; auto. symmetry. apply H. rewrite H1. apply valid_cons. split; auto. lia.
Qed.

(** The padded flattening of [x]. *)
Definition padflat {X} (z : X) (lead tl : list nat) (mn : nat) (x : tensor X) : tensor X :=
  mkT (Nat.max mn (prod_list lead) :: tl)
      (fun i => match i with
                | [] => z
                | c :: j => if c <? prod_list lead then val x (unravel lead c ++ j) else z
                end).

Lemma padflat_ok : forall X (z : X) lead tl mn (x : tensor X),
  shp x = lead ++ tl ->
  exists p, flatten_and_pad_leading_dims z x mn (length tl) = Some (p, lead, prod_list lead) /\
            teq p (padflat z lead tl mn x).
Proof.
  intros X z lead tl mn x Hx.
  assert (Hn : ndim x = length lead + length tl) by (unfold ndim; rewrite Hx, app_length; auto).
  destruct (flatten_pad_spec X z x mn (length tl)) as (p & E & Es & Ev). lia.
  replace (ndim x - length tl) with (length lead + 0) in * by lia.
  rewrite Hx, firstn_app_2 in *. simpl in *. rewrite app_nil_r in *.
  replace (skipn (length lead + 0) (lead ++ tl)) with tl in *
    by (rewrite Nat.add_0_r, skipn_app, skipn_all, Nat.sub_diag; reflexivity).
  exists p. split; auto. split; simpl; auto. intros i Hi.
  destruct i as [|c j]. destruct Hi as [Hi _]. rewrite Es in Hi. discriminate.
  now rewrite Ev.
Qed.

Lemma padflat_flat : forall X (z : X) lead tl mn x, shp x = lead ++ tl -> flat_of lead tl x (padflat z lead tl mn x).
Proof.
  intros. split; auto. split. exists (Nat.max mn (prod_list lead)). split; auto. lia.
  intros c j Hc Hj. simpl. now rewrite (proj2 (Nat.ltb_lt _ _) Hc).
Qed.

Lemma unravel_app_valid : forall lead tl c j, c < prod_list lead -> valid tl j -> valid (lead ++ tl) (unravel lead c ++ j).
Proof.
  intros. apply valid_app; auto using unravel_length. split; auto.
  now apply unravel_valid.
Qed.

Lemma padflat_proper : forall X (z : X) lead tl mn x y, shp x = lead ++ tl -> teq x y ->
  teq (padflat z lead tl mn x) (padflat z lead tl mn y).
Proof.
  intros. split; simpl; auto. intros i Hi. destruct i as [|c j]; auto.
  destruct (Nat.ltb_spec c (prod_list lead)); auto. apply H0. rewrite H.
  apply valid_cons in Hi. apply unravel_app_valid; tauto.
Qed.

Lemma padflat_shard : forall X (z : X) lead tl mn e n r (x : tensor X), shp x = lead ++ tl ->
  e < length tl -> 1 <= n -> r < n ->
  teq (padflat z lead (upd e (chunk_len (nth e tl 0) n r) tl) mn (shard (length lead + e) n r x))
      (shard (S e) n r (padflat z lead tl mn x)).
Proof.
  intros X z lead tl mn e n r x Hx He Hn Hr.
  assert (E1 : dimsz x (length lead + e) = nth e tl 0) by (unfold dimsz; rewrite Hx; apply nth_app_r).
  unfold shard. rewrite E1. unfold dimsz. cbn [shp padflat nth]. split; simpl; auto.
  intros i Hi. destruct i as [|c j]; auto.
  destruct (Nat.ltb_spec c (prod_list lead)); auto.
  now rewrite upd_unravel, nth_unravel.
Qed.

Lemma unpad_flat : forall X lead tl (y : tensor X) y1 t, flat_of lead tl y y1 -> teq t y1 ->
  returns (unpad_and_unflatten_leading_dims t lead (prod_list lead)) y.
Proof.
  intros X lead tl y y1 t H Ht. apply flat_teq_r with (y1 := t) in H; [|now apply teq_sym].
  clear y1 Ht. destruct H as (Hy & (N & HN & H1) & Hv).
  unfold unpad_and_unflatten_leading_dims, torch_unflatten_lead.
  assert (Hd : dimsz t 0 = N) by (unfold dimsz; now rewrite H1). rewrite Hd.
  rewrite (proj2 (Nat.leb_le _ _)) by lia. cbn [bindo guard].
  assert (dimsz (narrow 0 0 (prod_list lead) t) 0 = prod_list lead) as ->.
  { unfold dimsz; simpl. rewrite H1. reflexivity. }
  rewrite Nat.eqb_refl. apply returns_Some. split; simpl.
  - rewrite H1. simpl. auto.
  - rewrite H1. simpl. intros i Hi. rewrite Nat.add_0_r.
    assert (Hk : length lead <= length (lead ++ tl)) by (rewrite app_length; lia).
    destruct (firstn_skipn_valid _ _ _ Hi Hk) as [V1 V2].
    rewrite firstn_app, Nat.sub_diag, firstn_O, app_nil_r, firstn_all in V1.
    rewrite skipn_app, Nat.sub_diag, skipn_all in V2. simpl in V2.
    rewrite Hv; auto using ravel_lt. rewrite unravel_ravel by auto. now rewrite firstn_skipn.
Qed.
