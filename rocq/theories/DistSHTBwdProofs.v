(** Gradients of the distributed transforms = shards of the serial gradients. *)
From Coq Require Import List Arith Lia Bool Reals.
From Coquelicot Require Import Coquelicot.
From Verif Require Import TensorModel TensorProofs BigSum FFTModel TruncModel LegendreModel QuadModel SHTModel
  PrimModel PrimSpec PrimProofs PrimProofs2 DistSHTModel DistSHTProofs DistSHTProofs2 DistSHTProofs3 DistSHTProofs4
  SHTGradModel SHTGradProofs DistSHTBwdModel.
Import ListNotations.
Local Open Scope nat_scope.

(** ** Collectives *)
Lemma az_tr_bwd_ok : forall X Y debug P A d0 d1 (x : pfam (tensor X)) (g : pfam (tensor Y)) (S T : nat -> nat -> tensor X) (U : nat -> tensor Y),
  1 <= A -> d0 <> d1 ->
  (forall p, p < P -> d0 < ndim (U p) /\ d1 < ndim (U p) /\ A <= dimsz (U p) d0 /\ A <= dimsz (U p) d1 /\
     forall a, a < A -> dimsz (S p a) d0 = dimsz (U p) d0) ->
  holds2 P A x S -> holds2 P A g (fun p a => shard d0 A a (U p)) ->
  holds2 P A (az_tr_bwd debug A d0 d1 x g) (fun p a => shard d1 A a (U p)).
Proof.
  intros X Y debug P A d0 d1 x g S T U HA Hne HU Hx Hg.
  assert (E : forall p a, az_tr_bwd debug A d0 d1 x g p a = az_transpose debug A d1 d0 (pmap (fun t => compute_split_shapes (dimsz t d0) A) x) g p a).
  { intros p a. unfold az_tr_bwd, az_transpose. destruct (1 <? A); [|reflexivity]. unfold pmap, distributed_transpose_bwd. destruct (x p a) as [t|]; reflexivity. }
  assert (Q : holds2 P A (az_transpose debug A d1 d0 (pmap (fun t => compute_split_shapes (dimsz t d0) A) x) g) (fun p a => shard d1 A a (U p))).
  { apply az_transpose_ok; auto. intros p Hp. destruct (HU p Hp) as (H0 & H1 & H2 & H3 & H4). split; auto. split; auto. split; auto.
    intros a Ha _. destruct (Hx p a Hp Ha) as (t & Et & Ht). unfold pmap. rewrite Et. cbn [bindo].
    rewrite (teq_dimsz _ _ _ d0 Ht), (H4 a Ha), css_some by auto. eauto. }
  intros p a Hp Ha. rewrite E. apply Q; auto.
Qed.
Lemma po_tr_bwd_ok : forall X Y debug P A d0 d1 (x : pfam (tensor X)) (g : pfam (tensor Y)) (S T : nat -> nat -> tensor X) (U : nat -> tensor Y),
  1 <= P -> d0 <> d1 ->
  (forall a, a < A -> d0 < ndim (U a) /\ d1 < ndim (U a) /\ P <= dimsz (U a) d0 /\ P <= dimsz (U a) d1 /\
     forall p, p < P -> dimsz (S p a) d0 = dimsz (U a) d0) ->
  holds2 P A x S -> holds2 P A g (fun p a => shard d0 P p (U a)) ->
  holds2 P A (po_tr_bwd debug P d0 d1 x g) (fun p a => shard d1 P p (U a)).
Proof.
  intros X Y debug P A d0 d1 x g S T U HA Hne HU Hx Hg.
  assert (E : forall p a, po_tr_bwd debug P d0 d1 x g p a = po_transpose debug P d1 d0 (pmap (fun t => compute_split_shapes (dimsz t d0) P) x) g p a).
  { intros p a. unfold po_tr_bwd, po_transpose. destruct (1 <? P); [|reflexivity]. unfold pmap, distributed_transpose_bwd. destruct (x p a) as [t|]; reflexivity. }
  assert (Q : holds2 P A (po_transpose debug P d1 d0 (pmap (fun t => compute_split_shapes (dimsz t d0) P) x) g) (fun p a => shard d1 P p (U a))).
  { apply po_transpose_ok; auto. intros a Ha. destruct (HU a Ha) as (H0 & H1 & H2 & H3 & H4). split; auto. split; auto. split; auto.
    intros p Hp _. destruct (Hx p a Hp Ha) as (t & Et & Ht). unfold pmap. rewrite Et. cbn [bindo].
    rewrite (teq_dimsz _ _ _ d0 Ht), (H4 p Hp), css_some by auto. eauto. }
  intros p a Hp Ha. rewrite E. apply Q; auto.
Qed.

(** ** The gradients of the FFTs act on one dimension *)
Lemma torch_rfft_bwd_ext : forall nm n g h j, (forall k, k < torch_rfft_size n -> g k = h k) -> torch_rfft_bwd nm n g j = torch_rfft_bwd nm n h j.
Proof.
  intros nm n g h j H. unfold torch_rfft_bwd. f_equal. f_equal. apply bsum_ext. intros k _.
  destruct (Nat.ltb_spec k (torch_rfft_size n)); auto. now rewrite H.
Qed.
Lemma rfft_bwd_ext : forall nm q n g h j, (forall k, k < q -> g k = h k) -> rfft_bwd nm q n g j = rfft_bwd nm q n h j.
Proof.
  intros nm q n g h j H. unfold rfft_bwd. destruct (Nat.ltb_spec (torch_rfft_size n) q). apply torch_rfft_bwd_ext; intros; apply H; lia.
  destruct (Nat.ltb_spec q (torch_rfft_size n)); apply torch_rfft_bwd_ext; intros k Hk. destruct (Nat.ltb_spec k q); auto. apply H; lia.
Qed.
Lemma irfft_bwd_ext : forall nm n sz g h k, (forall j, j < n -> g j = h j) -> irfft_bwd nm n sz g k = irfft_bwd nm n sz h k.
Proof.
  intros nm n sz g h k H. unfold irfft_bwd, torch_irfft_bwd.
  rewrite (bsum_ext n (fun j => Cmult (RtoC (g j)) _) (fun j => Cmult (RtoC (h j)) (cis (- (2 * PI * INR j * INR k / INR n))%R))). reflexivity.
  intros j Hj. now rewrite H.
Qed.

Lemma rfft_dim_bwd_proper : forall q n d x y, dimsz x d = q -> teq x y -> teq (rfft_dim_bwd q n d x) (rfft_dim_bwd q n d y).
Proof.
  intros q n d x y Hq H. apply along_proper; auto. intros i v w Hi Hv. apply rfft_bwd_ext. intros k Hk. rewrite Hv; auto. lia.
Qed.
Lemma rfft_dim_bwd_shard : forall q n d e N r x, d <> e -> dimsz x d = q ->
  teq (rfft_dim_bwd q n d (shard e N r x)) (shard e N r (rfft_dim_bwd q n d x)).
Proof.
  intros q n d e N r x Hne Hq. apply along_shard; auto. intros i v w Hi Hv. rewrite nth_upd_other by auto.
  apply rfft_bwd_ext. intros k Hk. rewrite Hv; auto. lia.
Qed.
Lemma irfft_dim_bwd_proper : forall q n d x y, dimsz x d = n -> teq x y -> teq (irfft_dim_bwd n q d x) (irfft_dim_bwd n q d y).
Proof.
  intros q n d x y Hq H. apply along_proper; auto. intros i v w Hi Hv. apply irfft_bwd_ext. intros k Hk. apply Hv; auto. lia.
Qed.
Lemma irfft_dim_bwd_shard : forall q n d e N r x, d <> e -> dimsz x d = n ->
  teq (irfft_dim_bwd n q d (shard e N r x)) (shard e N r (irfft_dim_bwd n q d x)).
Proof.
  intros q n d e N r x Hne Hq. apply along_shard; auto. intros i v w Hi Hv. rewrite nth_upd_other by auto.
  apply irfft_bwd_ext. intros k Hk. apply Hv; auto. lia.
Qed.
Lemma flat_rfft_bwd : forall lead pre q n L x x1,
  flat_of lead (pre ++ [L; q]) x x1 ->
  flat_of lead (pre ++ [L; n]) (rfft_dim_bwd q n (length lead + S (length pre)) x) (rfft_dim_bwd q n (S (S (length pre))) x1).
Proof.
  intros lead pre q n L x x1 H. unfold rfft_dim_bwd.
  rewrite <- (upd_pre1 pre L q n). apply flat_along; auto.
  rewrite app_length; simpl; lia. rewrite nth_pre1.
  intros c j v u Hc Hj Hv. rewrite !nth_unravel. simpl nth. apply rfft_bwd_ext. intros k Hk. now rewrite Hv.
Qed.
Lemma flat_irfft_bwd : forall lead pre q n L x x1,
  flat_of lead (pre ++ [L; n]) x x1 ->
  flat_of lead (pre ++ [L; q]) (irfft_dim_bwd n q (length lead + S (length pre)) x) (irfft_dim_bwd n q (S (S (length pre))) x1).
Proof.
  intros lead pre q n L x x1 H. unfold irfft_dim_bwd.
  rewrite <- (upd_pre1 pre L n q). apply flat_along; auto.
  rewrite app_length; simpl; lia. rewrite nth_pre1.
  intros c j v u Hc Hj Hv. rewrite !nth_unravel. simpl nth. apply irfft_bwd_ext. intros k Hk. now rewrite Hv.
Qed.

(** ** Zero padding of the output gradient *)
Lemma padflat_max : forall X (z : X) lead tl mn G, padflat z lead tl (Nat.max mn (prod_list lead)) G = padflat z lead tl mn G.
Proof. intros. unfold padflat. f_equal. f_equal. lia. Qed.
Section Core.
Context (P A : nat) (HP : 1 <= P) (HA : 1 <= A).
Context (lead pre : list nat).
Notation e1 := (length pre).
Notation e2 := (S (length pre)).
Notation k := (length lead).
Lemma unpad_bwd_local : forall (X : Type) (zero : X) (H W mn : nat) (x : pfam (tensor X)) (G : tensor X),
  shp G = lead ++ pre ++ [H; W] ->
  holds2 P A x (fun p a => shard (k + e1) P p (shard (k + e2) A a G)) ->
  forall p a, p < P -> a < A ->
  exists t, x p a = Some t /\ returns (unpad_bwd zero (Nat.max mn (prod_list lead)) (S (S (length pre))) t)
     (shard (S e1) P p (shard (S e2) A a (padflat zero lead (pre ++ [H; W]) mn G))).
Proof.
  intros X zero H W mn x G HG Hx p a Hp Ha. destruct (Hx p a Hp Ha) as (t & E & Ht).
  pose proof (local_shp P A lead pre X H W x G HG Hx p a t Hp Ha E) as Hs.
  destruct (padflat_ok X zero lead (pre ++ [chunk_len H P p; chunk_len W A a]) (Nat.max mn (prod_list lead)) t Hs) as (q & Eq & Hq).
  rewrite padflat_max in Hq.
  exists t. split; auto. unfold unpad_bwd.
  assert (L0 : length (pre ++ [chunk_len H P p; chunk_len W A a]) = S (S (length pre))) by (rewrite app_length; simpl; lia).
  rewrite L0 in Eq. rewrite Eq. cbn [bindo fst]. apply returns_Some.
  eapply teq_trans; [exact Hq|].
  eapply teq_trans. apply padflat_proper; [exact Hs|exact Ht].
  assert (L : length (pre ++ [H; W]) = S (S (length pre))) by (rewrite app_length; simpl; lia).
  pose proof (padflat_shard X zero lead (pre ++ [H; W]) mn e2 A a G HG ltac:(lia) HA Ha) as E2.
  rewrite nth_pre1, upd_pre1 in E2.
  assert (HG' : shp (shard (k + e2) A a G) = lead ++ pre ++ [H; chunk_len W A a]).
  { unfold shard, narrow, dimsz. cbn [shp]. rewrite HG, nth_app_r, upd_app_r, nth_pre1, upd_pre1. auto. }
  assert (L' : length (pre ++ [H; chunk_len W A a]) = S (S (length pre))) by (rewrite app_length; simpl; lia).
  pose proof (padflat_shard X zero lead (pre ++ [H; chunk_len W A a]) mn e1 P p _ HG' ltac:(lia) HP Hp) as E1.
  rewrite nth_pre0, upd_pre0 in E1. eapply teq_trans; [exact E1|]. apply shard_proper; auto.
Qed.
End Core.

Section Bwd.
Context (P A : nat) (HP : 1 <= P) (HA : 1 <= A) (lead pre : list nat) (s : sht) (obj : pfam dsht) (debug : bool).
Notation e1 := (length pre).
Notation e2 := (S (length pre)).
Notation k := (length lead).
Notation tr := (S (S (length pre))).
Context (Hobj : obj_ok P A s obj).
Context (Plat : P <= s_nlat s) (Alon : A <= s_nlon s) (Pl : P <= s_lmax s) (Am : A <= s_mmax s).
Context (contract contract_bwd : dsht -> tensor C -> option (tensor C)).

Theorem dist_forward_bwd_ok : forall (check : nat -> nat -> nat -> tensor R -> option unit) (K Kb : tensor C -> tensor C)
    (x : pfam (tensor R)) (g : pfam (tensor C)) (X : tensor R) (G : tensor C) (D : tensor R),
  shp X = lead ++ pre ++ [s_nlat s; s_nlon s] ->
  holds2 P A x (fun p a => shard (k + e1) P p (shard (k + e2) A a X)) ->
  shp G = lead ++ pre ++ [s_lmax s; s_mmax s] ->
  holds2 P A g (fun p a => shard (k + e1) P p (shard (k + e2) A a G)) ->
  (forall p a t, p < P -> a < A ->
     shp t = lead ++ pre ++ [chunk_len (s_nlat s) P p; chunk_len (s_nlon s) A a] ->
     check (chunk_len (s_nlat s) P p) (chunk_len (s_nlon s) A a) (tr + 1) t = Some tt) ->
  (forall N Z, Nat.max P A <= N -> shp Z = N :: pre ++ [s_nlat s; s_mmax s] ->
     shp (K Z) = N :: pre ++ [s_lmax s; s_mmax s] /\
     forall p a o t, p < P -> a < A -> obj p a = Some o ->
       teq t (shard 0 P p (shard (S e2) A a Z)) ->
       returns (contract o t) (shard 0 P p (shard (S e2) A a (K Z)))) ->
  (forall N Z, Nat.max P A <= N -> shp Z = N :: pre ++ [s_lmax s; s_mmax s] ->
     shp (Kb Z) = N :: pre ++ [s_nlat s; s_mmax s] /\
     forall p a o t, p < P -> a < A -> obj p a = Some o ->
       teq t (shard 0 P p (shard (S e2) A a Z)) ->
       returns (contract_bwd o t) (shard 0 P p (shard (S e2) A a (Kb Z)))) ->
  flat_of lead (pre ++ [s_nlat s; s_nlon s]) D
    (rfft_dim_bwd (s_mmax s) (s_nlon s) (S e2) (Kb (padflat (RtoC 0) lead (pre ++ [s_lmax s; s_mmax s]) (Nat.max P A) G))) ->
  holds2 P A (dist_forward_bwd tr check contract contract_bwd debug P A obj x g)
    (fun p a => shard (k + e1) P p (shard (k + e2) A a D)).
Proof.
  intros check K Kb x g X G D HX Hx HG Hg Hcheck HK HKb HD.
  pose proof (dist_forward_steps_ok P A HP HA lead pre s obj debug Hobj Plat Alon Pl Am contract check K x X HX Hx Hcheck HK) as ST.
  cbv zeta in ST.
  set (st := dist_forward_steps tr check contract debug P A obj x) in *.
  set (X1 := padflat 0%R lead (pre ++ [s_nlat s; s_nlon s]) (Nat.max P A) X) in *.
  set (F := rfft_dim (s_mmax s) (S e2) X1) in *.
  set (G7 := padflat (RtoC 0) lead (pre ++ [s_lmax s; s_mmax s]) (Nat.max P A) G) in *.
  set (N := Nat.max (Nat.max P A) (prod_list lead)).
  assert (SX1 : shp X1 = N :: pre ++ [s_nlat s; s_nlon s]) by reflexivity.
  assert (SG7 : shp G7 = N :: pre ++ [s_lmax s; s_mmax s]) by reflexivity.
  assert (SF : shp F = N :: pre ++ [s_nlat s; s_mmax s]).
  { unfold F. rewrite rfft_dim_eq. cbn [shp along]. rewrite SX1. cbn [upd]. f_equal. apply upd_pre1. }
  destruct (HK N F ltac:(unfold N; lia) SF) as (SK & _).
  destruct (HKb N G7 ltac:(unfold N; lia) SG7) as (SKb & HKbG).
  set (E := Kb G7) in *.
  set (D1 := rfft_dim_bwd (s_mmax s) (s_nlon s) (S e2) E) in *.
  assert (SD : shp D1 = N :: pre ++ [s_nlat s; s_nlon s]).
  { unfold D1, rfft_dim_bwd. cbn [shp along]. rewrite SKb. cbn [upd]. f_equal. apply upd_pre1. }
  destruct ST as (Hflat & H1 & H2 & H3 & H4 & H5 & H6 & H7).
  assert (DZ : forall B (T : tensor B) L M, shp T = N :: pre ++ [L; M] ->
     ndim T = S tr /\ dimsz T 0 = N /\ dimsz T (S e1) = L /\ dimsz T (S e2) = M).
  { intros B T L M E'. unfold ndim, dimsz. rewrite E'. simpl. rewrite app_length. simpl.
    rewrite nth_pre0, nth_pre1. repeat split; lia. }
  destruct (DZ _ _ _ _ SX1) as (D10 & D11 & D12 & D13).
  destruct (DZ _ _ _ _ SF) as (D20 & D21 & D22 & D23).
  destruct (DZ _ _ _ _ SK) as (D30 & D31 & D32 & D33).
  destruct (DZ _ _ _ _ SG7) as (D40 & D41 & D42 & D43).
  destruct (DZ _ _ _ _ SKb) as (D50 & D51 & D52 & D53).
  destruct (DZ _ _ _ _ SD) as (D60 & D61 & D62 & D63).
  clear DZ. unfold dist_forward_bwd. fold st.
  set (g7 := pzip _ (st_x7 st) g).
  assert (Q7 : holds2 P A g7 (fun p a => shard (S e1) P p (shard (S e2) A a G7))).
  { intros p a Hp Ha. destruct (H7 p a Hp Ha) as (t & Et & Ht). unfold g7, pzip. rewrite Et. cbn [bindo].
    assert (Dt : dimsz t 0 = N) by (rewrite (teq_dimsz _ _ _ 0 Ht), !dimsz_shard_other, D31 by lia; auto).
    destruct (unpad_bwd_local P A HP HA lead pre C (RtoC 0) _ _ (Nat.max P A) g G HG Hg p a Hp Ha) as (u & Eu & Hu).
    rewrite Eu. cbn [bindo]. rewrite Dt. exact Hu. }
  clearbody g7.
  set (g6 := po_tr_bwd debug P (tr - 1) 0 _ g7).
  assert (Q6 : holds2 P A g6 (fun p a => shard 0 P p (shard (S e2) A a G7))).
  { unfold g6. replace (tr - 1) with (S e1) by lia.
    apply (po_tr_bwd_ok _ _ debug P A (S e1) 0 (st_x6 st) g7 (fun p a => shard 0 P p (shard (S e2) A a (K F))) (fun _ _ => K F)); auto.
    intros a Ha. rewrite ndim_shard, D40, !dimsz_shard_other, D41, D42 by lia.
    split; [lia|]. split; [lia|]. split; [lia|]. split; [unfold N; lia|].
    intros p Hp. rewrite !dimsz_shard_other, D32 by lia. auto. }
  clearbody g6.
  set (g5 := pzip contract_bwd obj g6).
  assert (Q5 : holds2 P A g5 (fun p a => shard 0 P p (shard (S e2) A a E))).
  { intros p a Hp Ha. destruct (Hobj p a Hp Ha) as (o & Eo & _).
    destruct (Q6 p a Hp Ha) as (t & Et & Ht). unfold g5, pzip. rewrite Eo, Et. cbn [bindo]. eauto. }
  clearbody g5.
  set (g4 := po_tr_bwd debug P 0 (tr - 1) _ g5).
  assert (Q4 : holds2 P A g4 (fun p a => shard (S e1) P p (shard (S e2) A a E))).
  { unfold g4. replace (tr - 1) with (S e1) by lia.
    apply (po_tr_bwd_ok _ _ debug P A 0 (S e1) (st_x4 st) g5 (fun p a => shard (S e2) A a (shard (S e1) P p F)) (fun _ _ => K F)); auto.
    intros a Ha. rewrite ndim_shard, D50, !dimsz_shard_other, D51, D52 by lia.
    split; [lia|]. split; [lia|]. split; [unfold N; lia|]. split; [lia|].
    intros p Hp. rewrite !dimsz_shard_other, D21 by lia. auto. }
  clearbody g4.
  set (g3 := az_tr_bwd debug A tr 0 _ g4).
  assert (Q3 : holds2 P A g3 (fun p a => shard 0 A a (shard (S e1) P p E))).
  { unfold g3.
    apply (az_tr_bwd_ok _ _ debug P A (S e2) 0 (st_x3 st) g4 (fun p a => shard 0 A a (shard (S e1) P p F)) (fun _ _ => K F) (fun p => shard (S e1) P p E)); auto.
    - intros p Hp. rewrite ndim_shard, D50, !dimsz_shard_other, D51, D53 by lia.
      split; [lia|]. split; [lia|]. split; [lia|]. split; [unfold N; lia|].
      intros a Ha. rewrite !dimsz_shard_other, D23 by lia. auto.
    - eapply holds2_teq. exact Q4. intros. apply shard_comm; auto. }
  clearbody g3.
  set (g2 := pzip _ (st_x2 st) g3).
  assert (Q2 : holds2 P A g2 (fun p a => shard 0 A a (shard (S e1) P p D1))).
  { intros p a Hp Ha. destruct (H2 p a Hp Ha) as (t & Et & Ht).
    destruct (Q3 p a Hp Ha) as (u & Eu & Hu). unfold g2, pzip. rewrite Et, Eu. cbn [bindo].
    rewrite (teq_dimsz _ _ _ tr Ht), !dimsz_shard_other, D13 by lia.
    assert (Du : dimsz u tr = s_mmax s) by (rewrite (teq_dimsz _ _ _ tr Hu), !dimsz_shard_other, D53 by lia; auto).
    rewrite Du. apply returns_Some. eapply teq_trans. apply rfft_dim_bwd_proper; [exact Du|exact Hu].
    eapply teq_trans. apply rfft_dim_bwd_shard; auto. rewrite dimsz_shard_other, D53 by lia; auto.
    apply shard_proper; auto. apply rfft_dim_bwd_shard; auto. }
  clearbody g2.
  set (g1 := az_tr_bwd debug A 0 tr _ g2).
  assert (Q1 : holds2 P A g1 (fun p a => shard (S e1) P p (shard (S e2) A a D1))).
  { eapply holds2_teq with (g := fun p a => shard (S e2) A a (shard (S e1) P p D1)).
    2: intros; apply shard_comm; auto.
    unfold g1.
    apply (az_tr_bwd_ok _ _ debug P A 0 (S e2) (st_x1 st) g2 (fun p a => shard (S e2) A a (shard (S e1) P p X1)) (fun _ _ => X) (fun p => shard (S e1) P p D1)); auto.
    intros p Hp. rewrite ndim_shard, D60, !dimsz_shard_other, D61, D63 by lia.
    split; [lia|]. split; [lia|]. split; [unfold N; lia|]. split; [lia|].
    intros a Ha. rewrite !dimsz_shard_other, D11 by lia. auto. }
  clearbody g1.
  pose proof (unflat_local P A HP HA lead pre R g1 D D1 _ _ HD Q1) as HF.
  intros p a Hp Ha. specialize (HF p a Hp Ha). unfold pzip, pad_bwd.
  destruct (Hflat p a Hp Ha) as (q & ->). cbn [bindo fst snd]. exact HF.
Qed.

Theorem dist_inverse_bwd_ok : forall (check : nat -> nat -> nat -> tensor C -> option unit) (K Kb : tensor C -> tensor C)
    (x : pfam (tensor C)) (g : pfam (tensor R)) (X : tensor C) (G : tensor R) (D : tensor C),
  shp X = lead ++ pre ++ [s_lmax s; s_mmax s] ->
  holds2 P A x (fun p a => shard (k + e1) P p (shard (k + e2) A a X)) ->
  shp G = lead ++ pre ++ [s_nlat s; s_nlon s] ->
  holds2 P A g (fun p a => shard (k + e1) P p (shard (k + e2) A a G)) ->
  (forall p a t, p < P -> a < A ->
     shp t = lead ++ pre ++ [chunk_len (s_lmax s) P p; chunk_len (s_mmax s) A a] ->
     check (chunk_len (s_lmax s) P p) (chunk_len (s_mmax s) A a) (tr + 1) t = Some tt) ->
  (forall N Z, Nat.max P A <= N -> shp Z = N :: pre ++ [s_lmax s; s_mmax s] ->
     shp (K Z) = N :: pre ++ [s_nlat s; s_mmax s] /\
     forall p a o t, p < P -> a < A -> obj p a = Some o ->
       teq t (shard 0 P p (shard (S e2) A a Z)) ->
       returns (contract o t) (shard 0 P p (shard (S e2) A a (K Z)))) ->
  (forall N Z, Nat.max P A <= N -> shp Z = N :: pre ++ [s_nlat s; s_mmax s] ->
     shp (Kb Z) = N :: pre ++ [s_lmax s; s_mmax s] /\
     forall p a o t, p < P -> a < A -> obj p a = Some o ->
       teq t (shard 0 P p (shard (S e2) A a Z)) ->
       returns (contract_bwd o t) (shard 0 P p (shard (S e2) A a (Kb Z)))) ->
  flat_of lead (pre ++ [s_lmax s; s_mmax s]) D
    (Kb (irfft_dim_bwd (s_nlon s) (s_mmax s) (S e2) (padflat 0%R lead (pre ++ [s_nlat s; s_nlon s]) (Nat.max P A) G))) ->
  holds2 P A (dist_inverse_bwd tr check contract contract_bwd debug P A obj x g)
    (fun p a => shard (k + e1) P p (shard (k + e2) A a D)).
Proof.
  intros check K Kb x g X G D HX Hx HG Hg Hcheck HK HKb HD.
  pose proof (dist_inverse_steps_ok P A HP HA lead pre s obj debug Hobj Plat Alon Pl Am contract check K x X HX Hx Hcheck HK) as ST.
  cbv zeta in ST.
  set (st := dist_inverse_steps tr check contract debug P A obj x) in *.
  set (X1 := padflat (RtoC 0) lead (pre ++ [s_lmax s; s_mmax s]) (Nat.max P A) X) in *.
  set (F := irfft_dim (s_nlon s) (S e2) (K X1)) in *.
  set (G7 := padflat 0%R lead (pre ++ [s_nlat s; s_nlon s]) (Nat.max P A) G) in *.
  set (N := Nat.max (Nat.max P A) (prod_list lead)).
  assert (SX1 : shp X1 = N :: pre ++ [s_lmax s; s_mmax s]) by reflexivity.
  assert (SG7 : shp G7 = N :: pre ++ [s_nlat s; s_nlon s]) by reflexivity.
  destruct (HK N X1 ltac:(unfold N; lia) SX1) as (SK & _).
  assert (SF : shp F = N :: pre ++ [s_nlat s; s_nlon s]).
  { unfold F, irfft_dim. cbn [shp along]. rewrite SK. cbn [upd]. f_equal. apply upd_pre1. }
  set (E := irfft_dim_bwd (s_nlon s) (s_mmax s) (S e2) G7) in *.
  assert (SE : shp E = N :: pre ++ [s_nlat s; s_mmax s]).
  { unfold E, irfft_dim_bwd. cbn [shp along]. rewrite SG7. cbn [upd]. f_equal. apply upd_pre1. }
  destruct (HKb N E ltac:(unfold N; lia) SE) as (SKb & HKbE).
  set (D1 := Kb E) in *.
  destruct ST as (Hflat & H1 & H2 & H3 & H4 & H5 & H6 & H7).
  assert (DZ : forall B (T : tensor B) L M, shp T = N :: pre ++ [L; M] ->
     ndim T = S tr /\ dimsz T 0 = N /\ dimsz T (S e1) = L /\ dimsz T (S e2) = M).
  { intros B T L M E'. unfold ndim, dimsz. rewrite E'. simpl. rewrite app_length. simpl.
    rewrite nth_pre0, nth_pre1. repeat split; lia. }
  destruct (DZ _ _ _ _ SX1) as (D10 & D11 & D12 & D13).
  destruct (DZ _ _ _ _ SF) as (D20 & D21 & D22 & D23).
  destruct (DZ _ _ _ _ SK) as (D30 & D31 & D32 & D33).
  destruct (DZ _ _ _ _ SG7) as (D40 & D41 & D42 & D43).
  destruct (DZ _ _ _ _ SE) as (D50 & D51 & D52 & D53).
  destruct (DZ _ _ _ _ SKb) as (D60 & D61 & D62 & D63).
  clear DZ. unfold dist_inverse_bwd. fold st.
  set (g7 := pzip _ (st_x7 st) g).
  assert (Q7 : holds2 P A g7 (fun p a => shard (S e2) A a (shard (S e1) P p G7))).
  { intros p a Hp Ha. destruct (H7 p a Hp Ha) as (t & Et & Ht). unfold g7, pzip. rewrite Et. cbn [bindo].
    assert (Dt : dimsz t 0 = N) by (rewrite (teq_dimsz _ _ _ 0 Ht), !dimsz_shard_other, D21 by lia; auto).
    destruct (unpad_bwd_local P A HP HA lead pre R 0%R _ _ (Nat.max P A) g G HG Hg p a Hp Ha) as (u & Eu & Hu).
    rewrite Eu. cbn [bindo]. rewrite Dt. eapply returns_teq. exact Hu. apply shard_comm; auto. }
  clearbody g7.
  set (g6 := az_tr_bwd debug A tr 0 _ g7).
  assert (Q6 : holds2 P A g6 (fun p a => shard 0 A a (shard (S e1) P p G7))).
  { unfold g6.
    apply (az_tr_bwd_ok _ _ debug P A (S e2) 0 (st_x6 st) g7 (fun p a => shard 0 A a (shard (S e1) P p F)) (fun _ _ => F) (fun p => shard (S e1) P p G7)); auto.
    intros p Hp. rewrite ndim_shard, D40, !dimsz_shard_other, D41, D43 by lia.
    split; [lia|]. split; [lia|]. split; [lia|]. split; [unfold N; lia|].
    intros a Ha. rewrite !dimsz_shard_other, D23 by lia. auto. }
  clearbody g6.
  set (g5 := pzip _ (st_x5 st) g6).
  assert (Q5 : holds2 P A g5 (fun p a => shard 0 A a (shard (S e1) P p E))).
  { intros p a Hp Ha. destruct (H5 p a Hp Ha) as (t & Et & Ht).
    destruct (Q6 p a Hp Ha) as (u & Eu & Hu). unfold g5, pzip. rewrite Et, Eu. cbn [bindo].
    rewrite (teq_dimsz _ _ _ tr Ht), !dimsz_shard_other, D33 by lia.
    assert (Du : dimsz u tr = s_nlon s) by (rewrite (teq_dimsz _ _ _ tr Hu), !dimsz_shard_other, D43 by lia; auto).
    rewrite Du. apply returns_Some. eapply teq_trans. apply irfft_dim_bwd_proper; [exact Du|exact Hu].
    eapply teq_trans. apply irfft_dim_bwd_shard; auto. rewrite dimsz_shard_other, D43 by lia; auto.
    apply shard_proper; auto. apply irfft_dim_bwd_shard; auto. }
  clearbody g5.
  set (g4 := az_tr_bwd debug A 0 tr _ g5).
  assert (Q4 : holds2 P A g4 (fun p a => shard (S e1) P p (shard (S e2) A a E))).
  { eapply holds2_teq with (g := fun p a => shard (S e2) A a (shard (S e1) P p E)).
    2: intros; apply shard_comm; auto.
    unfold g4.
    apply (az_tr_bwd_ok _ _ debug P A 0 (S e2) (st_x4 st) g5 (fun p a => shard (S e1) P p (shard (S e2) A a (K X1))) (fun _ _ => X) (fun p => shard (S e1) P p E)); auto.
    intros p Hp. rewrite ndim_shard, D50, !dimsz_shard_other, D51, D53 by lia.
    split; [lia|]. split; [lia|]. split; [unfold N; lia|]. split; [lia|].
    intros a Ha. rewrite !dimsz_shard_other, D31 by lia. auto. }
  clearbody g4.
  set (g3 := po_tr_bwd debug P (tr - 1) 0 _ g4).
  assert (Q3 : holds2 P A g3 (fun p a => shard 0 P p (shard (S e2) A a E))).
  { unfold g3. replace (tr - 1) with (S e1) by lia.
    apply (po_tr_bwd_ok _ _ debug P A (S e1) 0 (st_x3 st) g4 (fun p a => shard 0 P p (shard (S e2) A a (K X1))) (fun _ _ => X)); auto.
    intros a Ha. rewrite ndim_shard, D50, !dimsz_shard_other, D51, D52 by lia.
    split; [lia|]. split; [lia|]. split; [lia|]. split; [unfold N; lia|].
    intros p Hp. rewrite !dimsz_shard_other, D32 by lia. auto. }
  clearbody g3.
  set (g2 := pzip contract_bwd obj g3).
  assert (Q2 : holds2 P A g2 (fun p a => shard 0 P p (shard (S e2) A a D1))).
  { intros p a Hp Ha. destruct (Hobj p a Hp Ha) as (o & Eo & _).
    destruct (Q3 p a Hp Ha) as (t & Et & Ht). unfold g2, pzip. rewrite Eo, Et. cbn [bindo]. eauto. }
  clearbody g2.
  set (g1 := po_tr_bwd debug P 0 (tr - 1) _ g2).
  assert (Q1 : holds2 P A g1 (fun p a => shard (S e1) P p (shard (S e2) A a D1))).
  { unfold g1. replace (tr - 1) with (S e1) by lia.
    apply (po_tr_bwd_ok _ _ debug P A 0 (S e1) (st_x1 st) g2 (fun p a => shard (S e1) P p (shard (S e2) A a X1)) (fun _ _ => X)); auto.
    intros a Ha. rewrite ndim_shard, D60, !dimsz_shard_other, D61, D62 by lia.
    split; [lia|]. split; [lia|]. split; [unfold N; lia|]. split; [lia|].
    intros p Hp. rewrite !dimsz_shard_other, D11 by lia. auto. }
  clearbody g1.
  pose proof (unflat_local P A HP HA lead pre C g1 D D1 _ _ HD Q1) as HF.
  intros p a Hp Ha. specialize (HF p a Hp Ha). unfold pzip, pad_bwd.
  destruct (Hflat p a Hp Ha) as (q & ->). cbn [bindo fst snd]. exact HF.
Qed.
End Bwd.
