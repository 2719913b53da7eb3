(** Distributed transforms = shards of the serial transform. *)
From Coq Require Import List Arith Lia Bool Reals.
From Coquelicot Require Import Coquelicot.
From Verif Require Import TensorModel TensorProofs BigSum FFTModel TruncModel LegendreModel QuadModel SHTModel
  PrimModel PrimSpec PrimProofs PrimProofs2 DistSHTModel DistSHTProofs.
Import ListNotations.
Local Open Scope nat_scope.

Lemma nth_pre0 : forall (pre : list nat) a b, nth (length pre) (pre ++ [a; b]) 0 = a.
Proof. intros. rewrite app_nth2, Nat.sub_diag by lia. auto. Qed.
Lemma nth_pre1 : forall (pre : list nat) a b, nth (S (length pre)) (pre ++ [a; b]) 0 = b.
Proof. intros. rewrite app_nth2 by lia. replace (S (length pre) - length pre) with 1 by lia. auto. Qed.
Lemma upd_pre0 : forall (pre : list nat) a b v, upd (length pre) v (pre ++ [a; b]) = pre ++ [v; b].
Proof. intros. rewrite <- (Nat.add_0_r (length pre)) at 1. now rewrite upd_app_r. Qed.
Lemma upd_pre1 : forall (pre : list nat) a b v, upd (S (length pre)) v (pre ++ [a; b]) = pre ++ [a; v].
Proof. intros. replace (S (length pre)) with (length pre + 1) by lia. now rewrite upd_app_r. Qed.

Lemma holds2_local : forall X Y P A (x : pfam (tensor X)) (g : nat -> nat -> tensor X) (f : nat -> nat -> tensor X -> option (tensor Y)) h (y : pfam (tensor Y)),
  holds2 P A x g ->
  (forall p a, p < P -> a < A -> y p a = bindo (x p a) (f p a)) ->
  (forall p a t, p < P -> a < A -> teq t (g p a) -> returns (f p a t) (h p a)) ->
  holds2 P A y h.
Proof.
  intros X Y P A x g f h y Hx Hy Hf p a Hp Ha. rewrite Hy by auto.
  destruct (Hx p a Hp Ha) as (t & -> & Ht). simpl. auto.
Qed.

Section Core.
Context (P A : nat) (HP : 1 <= P) (HA : 1 <= A).
Context (lead pre : list nat).
Notation e1 := (length pre).
Notation e2 := (S (length pre)).
Notation k := (length lead).

Section Flat.
Context (X : Type) (zero : X) (H W : nat) (x : pfam (tensor X)) (G : tensor X).
Context (HG : shp G = lead ++ pre ++ [H; W]).
Context (Hx : holds2 P A x (fun p a => shard (k + e1) P p (shard (k + e2) A a G))).

Let G1 := padflat zero lead (pre ++ [H; W]) (Nat.max P A) G.

Lemma local_shp : forall p a t, p < P -> a < A -> x p a = Some t ->
  shp t = lead ++ pre ++ [chunk_len H P p; chunk_len W A a].
Proof.
  intros p a t Hp Ha E. destruct (Hx p a Hp Ha) as (u & E' & Hu). rewrite E in E'. inversion E'; subst u.
  rewrite (teq_shp _ _ _ Hu). unfold shard, narrow, dimsz. cbn [shp]. rewrite HG.
  rewrite !upd_app_r, !nth_app_r, !upd_pre1, nth_pre1, nth_pre0, upd_pre0. reflexivity.
Qed.

Lemma flat_local : forall p a, p < P -> a < A ->
  exists t q, x p a = Some t /\ flatten_and_pad_leading_dims zero t (Nat.max P A) (S (S (length pre))) = Some (q, lead, prod_list lead) /\
     teq q (shard (S e1) P p (shard (S e2) A a G1)).
Proof.
  intros p a Hp Ha. destruct (Hx p a Hp Ha) as (t & E & Ht).
  pose proof (local_shp p a t Hp Ha E) as Hs.
  destruct (padflat_ok X zero lead (pre ++ [chunk_len H P p; chunk_len W A a]) (Nat.max P A) t Hs) as (q & Eq & Hq).
  exists t, q. split; auto. split.
  { replace (S (S (length pre))) with (length (pre ++ [chunk_len H P p; chunk_len W A a])). auto. rewrite app_length; simpl; lia. }
  eapply teq_trans; [exact Hq|].
  eapply teq_trans. apply padflat_proper; [exact Hs|exact Ht].
  assert (L : length (pre ++ [H; W]) = S (S (length pre))) by (rewrite app_length; simpl; lia).
  pose proof (padflat_shard X zero lead (pre ++ [H; W]) (Nat.max P A) e2 A a G HG ltac:(lia) HA Ha) as E2.
  rewrite nth_pre1, upd_pre1 in E2.
  assert (HG' : shp (shard (k + e2) A a G) = lead ++ pre ++ [H; chunk_len W A a]).
  { unfold shard, narrow, dimsz. cbn [shp]. rewrite HG, nth_app_r, upd_app_r, nth_pre1, upd_pre1. auto. }
  assert (L' : length (pre ++ [H; chunk_len W A a]) = S (S (length pre))) by (rewrite app_length; simpl; lia).
  pose proof (padflat_shard X zero lead (pre ++ [H; chunk_len W A a]) (Nat.max P A) e1 P p _ HG' ltac:(lia) HP Hp) as E1.
  rewrite nth_pre0, upd_pre0 in E1. eapply teq_trans; [exact E1|]. apply shard_proper; auto.
Qed.
Lemma shp_G1 : shp G1 = Nat.max (Nat.max P A) (prod_list lead) :: pre ++ [H; W].
Proof. reflexivity. Qed.
End Flat.

Lemma unflat_local : forall Y (y : pfam (tensor Y)) (O O1 : tensor Y) L M,
  flat_of lead (pre ++ [L; M]) O O1 ->
  holds2 P A y (fun p a => shard (S e1) P p (shard (S e2) A a O1)) ->
  holds2 P A (fun p a => do t <- y p a; unpad_and_unflatten_leading_dims t lead (prod_list lead))
    (fun p a => shard (k + e1) P p (shard (k + e2) A a O)).
Proof.
  intros Y y O O1 L M Hf Hy p a Hp Ha. destruct (Hy p a Hp Ha) as (t & -> & Ht). cbn [bindo].
  assert (LL : length (pre ++ [L; M]) = S (S (length pre))) by (rewrite app_length; simpl; lia).
  apply (flat_shard _ _ _ e2 A a) in Hf; auto; [|lia].
  apply (flat_shard _ _ _ e1 P p) in Hf; auto; [|rewrite upd_length; lia].
  eapply unpad_flat; eauto.
Qed.
End Core.

(** What the local constructor produced, for the indices used by a forward. *)
Definition obj_ok (P A : nat) (s : sht) (obj : pfam dsht) : Prop :=
  forall p a, p < P -> a < A -> exists o, obj p a = Some o /\
    compute_split_shapes (s_nlat s) P = Some (d_lat_shapes o) /\
    compute_split_shapes (s_nlon s) A = Some (d_lon_shapes o) /\
    compute_split_shapes (s_lmax s) P = Some (d_l_shapes o) /\
    compute_split_shapes (s_mmax s) A = Some (d_m_shapes o) /\
    d_nlat o = s_nlat s /\ d_nlon o = s_nlon s /\ d_lmax o = s_lmax s /\ d_mmax o = s_mmax s.

Lemma css_nth : forall size n l r, compute_split_shapes size n = Some l -> r < n -> nth r l 0 = chunk_len size n r.
Proof. intros size n l r E Hr. apply css_inv in E. destruct E as (H1 & H2 & ->). now apply chunk_len_nth. Qed.

Section Forward.
Context (P A : nat) (HP : 1 <= P) (HA : 1 <= A) (lead pre : list nat) (s : sht) (obj : pfam dsht) (debug : bool).
Notation e1 := (length pre).
Notation e2 := (S (length pre)).
Notation k := (length lead).
Notation tr := (S (S (length pre))).
Context (Hobj : obj_ok P A s obj).
Context (Plat : P <= s_nlat s) (Alon : A <= s_nlon s) (Pl : P <= s_lmax s) (Am : A <= s_mmax s).
Context (contract : dsht -> tensor C -> option (tensor C)).

Lemma dim0 : forall X (z : X) tl mn (G : tensor X), dimsz (padflat z lead tl mn G) 0 = Nat.max mn (prod_list lead).
Proof. reflexivity. Qed.

Theorem dist_forward_steps_ok : forall (check : nat -> nat -> nat -> tensor R -> option unit) (K : tensor C -> tensor C)
    (x : pfam (tensor R)) (X : tensor R),
  shp X = lead ++ pre ++ [s_nlat s; s_nlon s] ->
  holds2 P A x (fun p a => shard (k + e1) P p (shard (k + e2) A a X)) ->
  (forall p a t, p < P -> a < A ->
     shp t = lead ++ pre ++ [chunk_len (s_nlat s) P p; chunk_len (s_nlon s) A a] ->
     check (chunk_len (s_nlat s) P p) (chunk_len (s_nlon s) A a) (tr + 1) t = Some tt) ->
  (forall N Z, Nat.max P A <= N -> shp Z = N :: pre ++ [s_nlat s; s_mmax s] ->
     shp (K Z) = N :: pre ++ [s_lmax s; s_mmax s] /\
     forall p a o t, p < P -> a < A -> obj p a = Some o ->
       teq t (shard 0 P p (shard (S e2) A a Z)) ->
       returns (contract o t) (shard 0 P p (shard (S e2) A a (K Z)))) ->
  let X1 := padflat 0%R lead (pre ++ [s_nlat s; s_nlon s]) (Nat.max P A) X in
  let F := rfft_dim (s_mmax s) (S e2) X1 in
  let st := dist_forward_steps tr check contract debug P A obj x in
  (forall p a, p < P -> a < A -> exists q, st_flat st p a = Some (q, lead, prod_list lead)) /\
  holds2 P A (st_x1 st) (fun p a => shard (S e2) A a (shard (S e1) P p X1)) /\
  holds2 P A (st_x2 st) (fun p a => shard 0 A a (shard (S e1) P p X1)) /\
  holds2 P A (st_x3 st) (fun p a => shard 0 A a (shard (S e1) P p F)) /\
  holds2 P A (st_x4 st) (fun p a => shard (S e2) A a (shard (S e1) P p F)) /\
  holds2 P A (st_x5 st) (fun p a => shard 0 P p (shard (S e2) A a F)) /\
  holds2 P A (st_x6 st) (fun p a => shard 0 P p (shard (S e2) A a (K F))) /\
  holds2 P A (st_x7 st) (fun p a => shard (S e1) P p (shard (S e2) A a (K F))).
Proof.
  intros check K x X HX Hx Hcheck HK X1.
  set (N := Nat.max (Nat.max P A) (prod_list lead)).
  assert (SX1 : shp X1 = N :: pre ++ [s_nlat s; s_nlon s]) by reflexivity.
  intros F.
  assert (SF : shp F = N :: pre ++ [s_nlat s; s_mmax s]).
  { unfold F. rewrite rfft_dim_eq. cbn [shp along]. rewrite SX1. cbn [upd]. f_equal. apply upd_pre1. }
  destruct (HK N F ltac:(unfold N; lia) SF) as (SK & HKF).
  unfold dist_forward_steps.
  set (flat := fun p a => bindo (obj p a) _).
  cbn [st_flat st_x1 st_x2 st_x3 st_x4 st_x5 st_x6 st_x7].
  assert (Hflat : forall p a, p < P -> a < A -> exists q, flat p a = Some (q, lead, prod_list lead) /\
            teq q (shard (S e1) P p (shard (S e2) A a X1))).
  { intros p a Hp Ha. destruct (Hobj p a Hp Ha) as (o & Eo & C1 & C2 & C3 & C4 & _).
    destruct (flat_local P A HP HA lead pre R 0%R _ _ x X HX Hx p a Hp Ha) as (t & q & Et & Eq & Hq).
    exists q. unfold flat. rewrite Eo, Et. cbn [bindo].
    rewrite (css_nth _ _ _ _ C1), (css_nth _ _ _ _ C2), Hcheck; auto.
    apply (local_shp P A lead pre R _ _ x X HX Hx p a); auto. }
  clearbody flat.
  set (x1 := pmap _ flat).
  assert (H1 : holds2 P A x1 (fun p a => shard (S e2) A a (shard (S e1) P p X1))).
  { intros p a Hp Ha. destruct (Hflat p a Hp Ha) as (q & E & Hq). unfold x1, pmap. rewrite E. cbn.
    exists q. split; auto. eapply teq_trans; [exact Hq|]. apply shard_comm; auto. }
  set (nc := pmap _ x1).
  assert (Hnc : forall p a, p < P -> a < A -> nc p a = Some N).
  { intros p a Hp Ha. unfold nc, pmap. destruct (H1 p a Hp Ha) as (q & -> & Hq). cbn. f_equal.
    rewrite (teq_dimsz _ _ _ 0 Hq), !dimsz_shard_other by lia. reflexivity. }
  clearbody nc x1.
  assert (DZ : forall B (T : tensor B) L M, shp T = N :: pre ++ [L; M] ->
     ndim T = S tr /\ dimsz T 0 = N /\ dimsz T (S e1) = L /\ dimsz T (S e2) = M).
  { intros B T L M E. unfold ndim, dimsz. rewrite E. simpl. rewrite app_length. simpl.
    rewrite nth_pre0, nth_pre1. repeat split; lia. }
  destruct (DZ _ _ _ _ SX1) as (D10 & D11 & D12 & D13).
  destruct (DZ _ _ _ _ SF) as (D20 & D21 & D22 & D23).
  destruct (DZ _ _ _ _ SK) as (D30 & D31 & D32 & D33).
  (* azimuth transpose *)
  set (x2 := az_transpose debug A 0 tr _ x1).
  assert (H2 : holds2 P A x2 (fun p a => shard 0 A a (shard (S e1) P p X1))).
  { unfold x2. apply (az_transpose_ok R debug P A 0 (S e2)); auto.
    intros p Hp. rewrite ndim_shard, D10, !dimsz_shard_other, D11, D13 by lia.
    split; [lia|]. split; [lia|]. split; [unfold N; lia|].
    intros a Ha _. destruct (Hobj p a Hp Ha) as (o & Eo & C1 & C2 & C3 & C4 & _).
    exists (d_lon_shapes o). unfold pmap. rewrite Eo. auto. }
  clearbody x2.
  set (x3 := pzip _ obj x2).
  assert (H3 : holds2 P A x3 (fun p a => shard 0 A a (shard (S e1) P p F))).
  { intros p a Hp Ha. destruct (Hobj p a Hp Ha) as (o & Eo & _ & _ & _ & _ & _ & _ & _ & Em).
    destruct (H2 p a Hp Ha) as (t & E & Ht). unfold x3, pzip. rewrite Eo, E. cbn [bindo]. rewrite Em.
    apply returns_Some. eapply teq_trans. apply rfft_dim_proper, Ht.
    eapply teq_trans. apply rfft_dim_shard; auto. apply shard_proper; auto.
    apply rfft_dim_shard; auto. }
  clearbody x3.
  set (x4 := az_transpose debug A tr 0 _ x3).
  assert (H4 : holds2 P A x4 (fun p a => shard (S e2) A a (shard (S e1) P p F))).
  { unfold x4. apply (az_transpose_ok C debug P A (S e2) 0); auto.
    intros p Hp. rewrite ndim_shard, D20, !dimsz_shard_other, D21, D23 by lia.
    split; [lia|]. split; [lia|]. split; [lia|].
    intros a Ha _. unfold pmap. rewrite Hnc by auto. cbn.
    exists (bal N A). split; apply css_some; unfold N; lia. }
  clearbody x4.
  set (x5 := po_transpose debug P 0 (tr - 1) _ x4).
  assert (H5 : holds2 P A x5 (fun p a => shard 0 P p (shard (S e2) A a F))).
  { unfold x5. replace (tr - 1) with (S e1) by lia.
    apply (po_transpose_ok C debug P A 0 (S e1)); auto.
    - intros a Ha. rewrite ndim_shard, D20, !dimsz_shard_other, D21, D22 by lia.
      split; [lia|]. split; [lia|]. split; [unfold N; lia|].
      intros p Hp _. destruct (Hobj p a Hp Ha) as (o & Eo & C1 & C2 & C3 & C4 & _).
      exists (d_lat_shapes o). unfold pmap. rewrite Eo. auto.
    - eapply holds2_teq. exact H4. intros. apply shard_comm; auto. }
  clearbody x5.
  set (x6 := pzip contract obj x5).
  assert (H6 : holds2 P A x6 (fun p a => shard 0 P p (shard (S e2) A a (K F)))).
  { intros p a Hp Ha. destruct (Hobj p a Hp Ha) as (o & Eo & _).
    destruct (H5 p a Hp Ha) as (t & E & Ht). unfold x6, pzip. rewrite Eo, E. cbn [bindo]. eauto. }
  clearbody x6.
  set (x7 := po_transpose debug P (tr - 1) 0 _ x6).
  assert (H7 : holds2 P A x7 (fun p a => shard (S e1) P p (shard (S e2) A a (K F)))).
  { unfold x7. replace (tr - 1) with (S e1) by lia.
    apply (po_transpose_ok C debug P A (S e1) 0); auto.
    intros a Ha. rewrite ndim_shard, D30, !dimsz_shard_other, D31, D32 by lia.
    split; [lia|]. split; [lia|]. split; [lia|].
    intros p Hp _. unfold pmap. rewrite Hnc by auto. cbn.
    exists (bal N P). split; apply css_some; unfold N; lia. }
  clearbody x7.
  split. { intros p a Hp Ha. destruct (Hflat p a Hp Ha) as (q & E & _). exists q. exact E. }
  repeat (split; [assumption|]). assumption.
Qed.

Theorem dist_forward_ok : forall (check : nat -> nat -> nat -> tensor R -> option unit) (K : tensor C -> tensor C)
    (x : pfam (tensor R)) (X : tensor R) (Y : tensor C),
  shp X = lead ++ pre ++ [s_nlat s; s_nlon s] ->
  holds2 P A x (fun p a => shard (k + e1) P p (shard (k + e2) A a X)) ->
  (forall p a t, p < P -> a < A ->
     shp t = lead ++ pre ++ [chunk_len (s_nlat s) P p; chunk_len (s_nlon s) A a] ->
     check (chunk_len (s_nlat s) P p) (chunk_len (s_nlon s) A a) (tr + 1) t = Some tt) ->
  (forall N Z, Nat.max P A <= N -> shp Z = N :: pre ++ [s_nlat s; s_mmax s] ->
     shp (K Z) = N :: pre ++ [s_lmax s; s_mmax s] /\
     forall p a o t, p < P -> a < A -> obj p a = Some o ->
       teq t (shard 0 P p (shard (S e2) A a Z)) ->
       returns (contract o t) (shard 0 P p (shard (S e2) A a (K Z)))) ->
  flat_of lead (pre ++ [s_lmax s; s_mmax s]) Y
    (K (rfft_dim (s_mmax s) (S e2) (padflat 0%R lead (pre ++ [s_nlat s; s_nlon s]) (Nat.max P A) X))) ->
  holds2 P A (dist_forward tr check contract debug P A obj x)
    (fun p a => shard (k + e1) P p (shard (k + e2) A a Y)).
Proof.
  intros check K x X Y HX Hx Hcheck HK HY.
  destruct (dist_forward_steps_ok check K x X HX Hx Hcheck HK) as (Hf & _ & _ & _ & _ & _ & _ & H7).
  pose proof (unflat_local P A HP HA lead pre C _ Y _ _ _ HY H7) as HF.
  intros p a Hp Ha. specialize (HF p a Hp Ha). unfold dist_forward, pzip.
  destruct (Hf p a Hp Ha) as (q & ->). cbn [bindo fst snd]. exact HF.
Qed.

Theorem dist_inverse_steps_ok : forall (check : nat -> nat -> nat -> tensor C -> option unit) (K : tensor C -> tensor C)
    (x : pfam (tensor C)) (X : tensor C),
  shp X = lead ++ pre ++ [s_lmax s; s_mmax s] ->
  holds2 P A x (fun p a => shard (k + e1) P p (shard (k + e2) A a X)) ->
  (forall p a t, p < P -> a < A ->
     shp t = lead ++ pre ++ [chunk_len (s_lmax s) P p; chunk_len (s_mmax s) A a] ->
     check (chunk_len (s_lmax s) P p) (chunk_len (s_mmax s) A a) (tr + 1) t = Some tt) ->
  (forall N Z, Nat.max P A <= N -> shp Z = N :: pre ++ [s_lmax s; s_mmax s] ->
     shp (K Z) = N :: pre ++ [s_nlat s; s_mmax s] /\
     forall p a o t, p < P -> a < A -> obj p a = Some o ->
       teq t (shard 0 P p (shard (S e2) A a Z)) ->
       returns (contract o t) (shard 0 P p (shard (S e2) A a (K Z)))) ->
  let X1 := padflat (RtoC 0) lead (pre ++ [s_lmax s; s_mmax s]) (Nat.max P A) X in
  let F := irfft_dim (s_nlon s) (S e2) (K X1) in
  let st := dist_inverse_steps tr check contract debug P A obj x in
  (forall p a, p < P -> a < A -> exists q, st_flat st p a = Some (q, lead, prod_list lead)) /\
  holds2 P A (st_x1 st) (fun p a => shard (S e1) P p (shard (S e2) A a X1)) /\
  holds2 P A (st_x2 st) (fun p a => shard 0 P p (shard (S e2) A a X1)) /\
  holds2 P A (st_x3 st) (fun p a => shard 0 P p (shard (S e2) A a (K X1))) /\
  holds2 P A (st_x4 st) (fun p a => shard (S e1) P p (shard (S e2) A a (K X1))) /\
  holds2 P A (st_x5 st) (fun p a => shard 0 A a (shard (S e1) P p (K X1))) /\
  holds2 P A (st_x6 st) (fun p a => shard 0 A a (shard (S e1) P p F)) /\
  holds2 P A (st_x7 st) (fun p a => shard (S e1) P p (shard (S e2) A a F)).
Proof.
  intros check K x X HX Hx Hcheck HK X1.
  set (N := Nat.max (Nat.max P A) (prod_list lead)).
  assert (SX1 : shp X1 = N :: pre ++ [s_lmax s; s_mmax s]) by reflexivity.
  destruct (HK N X1 ltac:(unfold N; lia) SX1) as (SK & HKF).
  intros F.
  assert (SF : shp F = N :: pre ++ [s_nlat s; s_nlon s]).
  { unfold F, irfft_dim. cbn [shp along]. rewrite SK. cbn [upd]. f_equal. apply upd_pre1. }
  unfold dist_inverse_steps.
  set (flat := fun p a => bindo (obj p a) _).
  cbn [st_flat st_x1 st_x2 st_x3 st_x4 st_x5 st_x6 st_x7].
  assert (Hflat : forall p a, p < P -> a < A -> exists q, flat p a = Some (q, lead, prod_list lead) /\
            teq q (shard (S e1) P p (shard (S e2) A a X1))).
  { intros p a Hp Ha. destruct (Hobj p a Hp Ha) as (o & Eo & C1 & C2 & C3 & C4 & _).
    destruct (flat_local P A HP HA lead pre C (RtoC 0) _ _ x X HX Hx p a Hp Ha) as (t & q & Et & Eq & Hq).
    exists q. unfold flat. rewrite Eo, Et. cbn [bindo].
    rewrite (css_nth _ _ _ _ C3), (css_nth _ _ _ _ C4), Hcheck; auto.
    apply (local_shp P A lead pre C _ _ x X HX Hx p a); auto. }
  clearbody flat.
  set (x1 := pmap _ flat).
  assert (H1 : holds2 P A x1 (fun p a => shard (S e1) P p (shard (S e2) A a X1))).
  { intros p a Hp Ha. destruct (Hflat p a Hp Ha) as (q & E & Hq). unfold x1, pmap. rewrite E. cbn.
    exists q. split; auto. }
  set (nc := pmap _ x1).
  assert (Hnc : forall p a, p < P -> a < A -> nc p a = Some N).
  { intros p a Hp Ha. unfold nc, pmap. destruct (H1 p a Hp Ha) as (q & -> & Hq). cbn. f_equal.
    rewrite (teq_dimsz _ _ _ 0 Hq), !dimsz_shard_other by lia. reflexivity. }
  clearbody nc x1.
  assert (DZ : forall B (T : tensor B) L M, shp T = N :: pre ++ [L; M] ->
     ndim T = S tr /\ dimsz T 0 = N /\ dimsz T (S e1) = L /\ dimsz T (S e2) = M).
  { intros B T L M E. unfold ndim, dimsz. rewrite E. simpl. rewrite app_length. simpl.
    rewrite nth_pre0, nth_pre1. repeat split; lia. }
  destruct (DZ _ _ _ _ SX1) as (D10 & D11 & D12 & D13).
  destruct (DZ _ _ _ _ SF) as (D20 & D21 & D22 & D23).
  destruct (DZ _ _ _ _ SK) as (D30 & D31 & D32 & D33).
  set (x2 := po_transpose debug P 0 (tr - 1) _ x1).
  assert (H2 : holds2 P A x2 (fun p a => shard 0 P p (shard (S e2) A a X1))).
  { unfold x2. replace (tr - 1) with (S e1) by lia.
    apply (po_transpose_ok C debug P A 0 (S e1)); auto.
    intros a Ha. rewrite ndim_shard, D10, !dimsz_shard_other, D11, D12 by lia.
    split; [lia|]. split; [lia|]. split; [unfold N; lia|].
    intros p Hp _. destruct (Hobj p a Hp Ha) as (o & Eo & C1 & C2 & C3 & C4 & _).
    exists (d_l_shapes o). unfold pmap. rewrite Eo. auto. }
  clearbody x2.
  set (x3 := pzip contract obj x2).
  assert (H3 : holds2 P A x3 (fun p a => shard 0 P p (shard (S e2) A a (K X1)))).
  { intros p a Hp Ha. destruct (Hobj p a Hp Ha) as (o & Eo & _).
    destruct (H2 p a Hp Ha) as (t & E & Ht). unfold x3, pzip. rewrite Eo, E. cbn [bindo]. eauto. }
  clearbody x3.
  set (x4 := po_transpose debug P (tr - 1) 0 _ x3).
  assert (H4 : holds2 P A x4 (fun p a => shard (S e1) P p (shard (S e2) A a (K X1)))).
  { unfold x4. replace (tr - 1) with (S e1) by lia.
    apply (po_transpose_ok C debug P A (S e1) 0); auto.
    intros a Ha. rewrite ndim_shard, D30, !dimsz_shard_other, D31, D32 by lia.
    split; [lia|]. split; [lia|]. split; [lia|].
    intros p Hp _. unfold pmap. rewrite Hnc by auto. cbn.
    exists (bal N P). split; apply css_some; unfold N; lia. }
  clearbody x4.
  set (x5 := az_transpose debug A 0 tr _ x4).
  assert (H5 : holds2 P A x5 (fun p a => shard 0 A a (shard (S e1) P p (K X1)))).
  { unfold x5. apply (az_transpose_ok C debug P A 0 (S e2)); auto.
    - intros p Hp. rewrite ndim_shard, D30, !dimsz_shard_other, D31, D33 by lia.
      split; [lia|]. split; [lia|]. split; [unfold N; lia|].
      intros a Ha _. destruct (Hobj p a Hp Ha) as (o & Eo & C1 & C2 & C3 & C4 & _).
      exists (d_m_shapes o). unfold pmap. rewrite Eo. auto.
    - eapply holds2_teq. exact H4. intros. apply shard_comm; auto. }
  clearbody x5.
  set (x6 := pzip _ obj x5).
  assert (H6 : holds2 P A x6 (fun p a => shard 0 A a (shard (S e1) P p F))).
  { intros p a Hp Ha. destruct (Hobj p a Hp Ha) as (o & Eo & _ & _ & _ & _ & _ & Em & _ & _).
    destruct (H5 p a Hp Ha) as (t & E & Ht). unfold x6, pzip. rewrite Eo, E. cbn [bindo]. rewrite Em.
    apply returns_Some. eapply teq_trans. apply irfft_dim_proper, Ht.
    eapply teq_trans. apply irfft_dim_shard; auto. apply shard_proper; auto.
    apply irfft_dim_shard; auto. }
  clearbody x6.
  set (x7 := az_transpose debug A tr 0 _ x6).
  assert (H7 : holds2 P A x7 (fun p a => shard (S e1) P p (shard (S e2) A a F))).
  { eapply holds2_teq with (g := fun p a => shard (S e2) A a (shard (S e1) P p F)).
    2: intros; apply shard_comm; auto.
    unfold x7. apply (az_transpose_ok R debug P A (S e2) 0); auto.
    intros p Hp. rewrite ndim_shard, D20, !dimsz_shard_other, D21, D23 by lia.
    split; [lia|]. split; [lia|]. split; [lia|].
    intros a Ha _. unfold pmap. rewrite Hnc by auto. cbn.
    exists (bal N A). split; apply css_some; unfold N; lia. }
  clearbody x7.
  split. { intros p a Hp Ha. destruct (Hflat p a Hp Ha) as (q & E & _). exists q. exact E. }
  repeat (split; [assumption|]). assumption.
Qed.

Theorem dist_inverse_ok : forall (check : nat -> nat -> nat -> tensor C -> option unit) (K : tensor C -> tensor C)
    (x : pfam (tensor C)) (X : tensor C) (Y : tensor R),
  shp X = lead ++ pre ++ [s_lmax s; s_mmax s] ->
  holds2 P A x (fun p a => shard (k + e1) P p (shard (k + e2) A a X)) ->
  (forall p a t, p < P -> a < A ->
     shp t = lead ++ pre ++ [chunk_len (s_lmax s) P p; chunk_len (s_mmax s) A a] ->
     check (chunk_len (s_lmax s) P p) (chunk_len (s_mmax s) A a) (tr + 1) t = Some tt) ->
  (forall N Z, Nat.max P A <= N -> shp Z = N :: pre ++ [s_lmax s; s_mmax s] ->
     shp (K Z) = N :: pre ++ [s_nlat s; s_mmax s] /\
     forall p a o t, p < P -> a < A -> obj p a = Some o ->
       teq t (shard 0 P p (shard (S e2) A a Z)) ->
       returns (contract o t) (shard 0 P p (shard (S e2) A a (K Z)))) ->
  flat_of lead (pre ++ [s_nlat s; s_nlon s]) Y
    (irfft_dim (s_nlon s) (S e2) (K (padflat (RtoC 0) lead (pre ++ [s_lmax s; s_mmax s]) (Nat.max P A) X))) ->
  holds2 P A (dist_inverse tr check contract debug P A obj x)
    (fun p a => shard (k + e1) P p (shard (k + e2) A a Y)).
Proof.
  intros check K x X Y HX Hx Hcheck HK HY.
  destruct (dist_inverse_steps_ok check K x X HX Hx Hcheck HK) as (Hf & _ & _ & _ & _ & _ & _ & H7).
  pose proof (unflat_local P A HP HA lead pre R _ Y _ _ _ HY H7) as HF.
  intros p a Hp Ha. specialize (HF p a Hp Ha). unfold dist_inverse, pzip.
  destruct (Hf p a Hp Ha) as (q & ->). cbn [bindo fst snd]. exact HF.
Qed.

End Forward.
