(** Instances: scalar and vector transforms. *)
From Coq Require Import List Arith Lia Bool Reals.
From Coquelicot Require Import Coquelicot.
From Verif Require Import TensorModel TensorProofs BigSum FFTModel TruncModel LegendreModel QuadModel SHTModel
  PrimModel PrimSpec PrimProofs PrimProofs2 DistSHTModel DistSHTProofs DistSHTProofs2.
Import ListNotations.
Local Open Scope nat_scope.

(** ** The constructor *)
Lemma dist_init_ok : forall sdim P A s p a,
  1 <= P -> 1 <= A -> p < P -> a < A -> sdim < ndim (s_weights s) -> dimsz (s_weights s) sdim = s_mmax s ->
  P <= s_nlat s -> A <= s_nlon s -> P <= s_lmax s -> A <= s_mmax s ->
  dist_init sdim P A s p a =
    Some (mkDSHT (s_nlat s) (s_nlon s) (s_lmax s) (s_mmax s) (bal (s_nlat s) P) (bal (s_nlon s) A) (bal (s_lmax s) P) (bal (s_mmax s) A)
            (shard sdim A a (s_weights s))).
Proof.
  intros sdim P A s p a HP HA Hp Ha Hd Hm H1 H2 H3 H4. unfold dist_init.
  rewrite !css_some by auto. cbn [bindo].
  assert (N : forall size n r, r < n -> n <= size -> 1 <= n -> nth_error (bal size n) r = Some (nth r (bal size n) 0)).
  { intros. apply nth_error_nth'. rewrite bal_length; auto. }
  rewrite !N by auto. cbn [bindo]. rewrite split_tensor_spec by (auto; lia). cbn [bindo].
  rewrite nth_error_map_seq by auto. cbn [bindo]. reflexivity.
Qed.

Lemma dist_init_inv : forall sdim P A s p a o, dist_init sdim P A s p a = Some o ->
  1 <= P /\ 1 <= A /\ P <= s_nlat s /\ A <= s_nlon s /\ P <= s_lmax s /\ A <= s_mmax s.
Proof.
  intros sdim P A s p a o. unfold dist_init.
  destruct (compute_split_shapes (s_nlat s) P) eqn:E1; [|discriminate]. cbn [bindo].
  destruct (compute_split_shapes (s_nlon s) A) eqn:E2; [|discriminate]. cbn [bindo].
  destruct (compute_split_shapes (s_lmax s) P) eqn:E3; [|discriminate]. cbn [bindo].
  destruct (compute_split_shapes (s_mmax s) A) eqn:E4; [|discriminate]. intros _.
  apply css_inv in E1, E2, E3, E4. intuition.
Qed.

(** ** Scalar contraction *)
Definition legK (w : tensor R) (dk dm : nat) (x : tensor C) : tensor C :=
  along dk (dimsz w 1)
      (fun i v => (rsum (dimsz w 2) (fun k => Re (v k) * val w [nth dm i 0; nth dk i 0; k]%nat)%R,
                   rsum (dimsz w 2) (fun k => Im (v k) * val w [nth dm i 0; nth dk i 0; k]%nat)%R)) x.
Lemma legcontract_eq : forall w dk dm x, einsum_ok w dk dm x = true -> legcontract w dk dm x = Some (legK w dk dm x).
Proof. intros. unfold legcontract. now rewrite H. Qed.

Lemma rsum_ext_r : forall n f g, (forall i, i < n -> f i = g i) -> rsum n f = rsum n g.
Proof. intros. now apply bsum_ext. Qed.

Lemma legK_proper : forall w dk dm x y, dimsz w 2 <= dimsz x dk -> teq x y -> teq (legK w dk dm x) (legK w dk dm y).
Proof.
  intros. apply along_proper; auto. intros i v u Hi Hv.
  f_equal; apply rsum_ext_r; intros k Hk; rewrite Hv by lia; auto.
Qed.
Lemma legK_shard_other : forall w dk dm e N r x, dimsz w 2 <= dimsz x dk -> e <> dk -> e <> dm ->
  teq (legK w dk dm (shard e N r x)) (shard e N r (legK w dk dm x)).
Proof.
  intros. apply along_shard; auto. intros i v u Hi Hv. rewrite !nth_upd_other by auto.
  f_equal; apply rsum_ext_r; intros k Hk; rewrite Hv by lia; auto.
Qed.
Lemma legK_shard_m : forall w dk dm N r x, dimsz w 2 <= dimsz x dk -> dk <> dm -> dm < ndim x -> dimsz w 0 = dimsz x dm ->
  teq (legK (shard 0 N r w) dk dm (shard dm N r x)) (shard dm N r (legK w dk dm x)).
Proof.
  intros w dk dm N r x Hk Hne Hdm Hm. unfold legK.
  rewrite !dimsz_shard_other by lia. apply along_shard; auto. intros i v u Hi Hv.
  assert (Hl : dm < length i). { rewrite (valid_len _ _ Hi), !upd_length. auto. }
  rewrite nth_upd_same by auto. rewrite nth_upd_other by auto.
  f_equal; apply rsum_ext_r; intros k Hkk; rewrite Hv by lia; cbn [val shard narrow nth upd]; rewrite Hm; auto.
Qed.

Lemma flat_legK : forall lead w L M x x1,
  dimsz w 2 <= L ->
  flat_of lead [L; M] x x1 ->
  flat_of lead [dimsz w 1; M] (legK w (length lead + 0) (length lead + 1) x) (legK w 1 2 x1).
Proof.
  intros. change [dimsz w 1; M] with (upd 0 (dimsz w 1) [L; M]).
  apply flat_along; simpl; auto. intros c j v u Hc Hj Hv.
  rewrite !nth_unravel. simpl.
  f_equal; apply rsum_ext_r; intros k Hk; rewrite Hv by lia; auto.
Qed.
Lemma flat_rfft : forall lead pre q L M x x1,
  flat_of lead (pre ++ [L; M]) x x1 ->
  flat_of lead (pre ++ [L; q]) (rfft_dim q (length lead + S (length pre)) x) (rfft_dim q (S (S (length pre))) x1).
Proof.
  intros lead pre q L M x x1 H. pose proof H as (Hx & (N & HN & H1) & _). rewrite !rfft_dim_eq.
  rewrite <- (upd_pre1 pre L M q). apply flat_along; auto.
  rewrite app_length; simpl; lia. rewrite nth_pre1.
  intros c j v u Hc Hj Hv. rewrite !nth_unravel. simpl nth. f_equal.
  assert (dimsz x1 (S (S (length pre))) = M) as -> by (unfold dimsz; rewrite H1; apply nth_pre1).
  assert (dimsz x (length lead + S (length pre)) = M) as -> by (unfold dimsz; rewrite Hx, nth_app_r; apply nth_pre1).
  now apply rfft_ext.
Qed.
Lemma flat_irfft : forall lead pre q L M x x1,
  flat_of lead (pre ++ [L; M]) x x1 ->
  flat_of lead (pre ++ [L; q]) (irfft_dim q (length lead + S (length pre)) x) (irfft_dim q (S (S (length pre))) x1).
Proof.
  intros lead pre q L M x x1 H. pose proof H as (Hx & (N & HN & H1) & _). unfold irfft_dim.
  rewrite <- (upd_pre1 pre L M q). apply flat_along; auto.
  rewrite app_length; simpl; lia. rewrite nth_pre1.
  intros c j v u Hc Hj Hv. rewrite !nth_unravel. simpl nth.
  assert (dimsz x1 (S (S (length pre))) = M) as -> by (unfold dimsz; rewrite H1; apply nth_pre1).
  assert (dimsz x (length lead + S (length pre)) = M) as -> by (unfold dimsz; rewrite Hx, nth_app_r; apply nth_pre1).
  now apply irfft_ext.
Qed.

Lemma scalar_contract_ok : forall P A w Lin Lout M N Z p a o t,
  shp w = [M; Lout; Lin] -> shp Z = [N; Lin; M] ->
  1 <= P -> 1 <= A -> p < P -> a < A -> A <= M -> 
  d_weights o = shard 0 A a w ->
  teq t (shard 0 P p (shard 2 A a Z)) ->
  returns (scalar_contract o t) (shard 0 P p (shard 2 A a (legK w 1 2 Z))).
Proof.
  intros P A w Lin Lout M N Z p a o t Hw HZ HP HA Hp Ha HM Ho Ht. unfold scalar_contract. rewrite Ho.
  assert (W0 : dimsz w 0 = M) by (unfold dimsz; now rewrite Hw).
  assert (W2 : dimsz w 2 = Lin) by (unfold dimsz; now rewrite Hw).
  assert (Z1 : dimsz Z 1 = Lin) by (unfold dimsz; now rewrite HZ).
  assert (Z2 : dimsz Z 2 = M) by (unfold dimsz; now rewrite HZ).
  assert (T1 : dimsz t 1 = Lin) by (rewrite (teq_dimsz _ _ _ 1 Ht), !dimsz_shard_other by lia; auto).
  assert (D0 : dimsz (shard 0 A a w) 0 = chunk_len M A a).
  { unfold shard, narrow, dimsz; cbn [shp]. rewrite Hw. reflexivity. }
  assert (T2 : dimsz t 2 = chunk_len M A a).
  { rewrite (teq_dimsz _ _ _ 2 Ht), dimsz_shard_other by lia.
    unfold shard, narrow, dimsz; cbn [shp]. rewrite HZ. reflexivity. }
  rewrite legcontract_eq.
  2:{ unfold einsum_ok. rewrite D0, T2, dimsz_shard_other, W2, T1 by lia.
      rewrite ndim_shard. unfold ndim. rewrite Hw. simpl. now rewrite !Nat.eqb_refl. }
  apply returns_Some.
  eapply teq_trans. apply legK_proper; [|exact Ht]. rewrite dimsz_shard_other, W2, T1 by lia; lia.
  eapply teq_trans. apply legK_shard_other; try lia. rewrite !dimsz_shard_other, W2, Z1 by lia; lia.
  apply shard_proper; auto. apply legK_shard_m; try lia. unfold ndim; rewrite HZ; simpl; lia.
Qed.

Lemma sht_check_ok : forall B lead h w mn (t : tensor B), shp t = lead ++ [h; w] -> mn <= length lead + 2 ->
  sht_check h w mn t = Some tt.
Proof.
  intros B lead h w mn t Ht Hmn. unfold sht_check, ndim, dimsz. rewrite Ht, app_length. simpl length.
  rewrite (proj2 (Nat.leb_le _ _)) by lia.
  replace (length lead + 2 - 2) with (length lead) by lia. rewrite nth_pre0.
  replace (length lead + 2 - 1) with (S (length lead)) by lia. rewrite nth_pre1.
  now rewrite !Nat.eqb_refl.
Qed.

Definition table_ok (s : sht) (Lout Lin : nat) : Prop := shp (s_weights s) = [s_mmax s; Lout; Lin].

Theorem dist_real_sht_ok : forall P A s debug lead X x obj,
  1 <= P -> 1 <= A -> table_ok s (s_lmax s) (s_nlat s) ->
  P <= s_nlat s -> A <= s_nlon s -> P <= s_lmax s -> A <= s_mmax s ->
  lead <> [] -> shp X = lead ++ [s_nlat s; s_nlon s] ->
  (forall p a, p < P -> a < A -> obj p a = dist_init 0 P A s p a) ->
  holds2 P A x (fun p a => shard (length lead) P p (shard (length lead + 1) A a X)) ->
  exists Y, real_sht s X = Some Y /\ shp Y = lead ++ [s_lmax s; s_mmax s] /\
    holds2 P A (dist_real_sht debug P A obj x) (fun p a => shard (length lead) P p (shard (length lead + 1) A a Y)).
Proof.
  intros P A s debug lead X x obj HP HA Hw H1 H2 H3 H4 Hl HX Hobj Hx.
  assert (Hll : 1 <= length lead) by (destruct lead; simpl; [congruence|lia]).
  unfold table_ok in Hw.
  assert (W0 : dimsz (s_weights s) 0 = s_mmax s) by (unfold dimsz; now rewrite Hw).
  assert (W1 : dimsz (s_weights s) 1 = s_lmax s) by (unfold dimsz; now rewrite Hw).
  assert (W2 : dimsz (s_weights s) 2 = s_nlat s) by (unfold dimsz; now rewrite Hw).
  set (k := length lead).
  assert (ND : ndim X = k + 2) by (unfold ndim; rewrite HX, app_length; reflexivity).
  set (X1 := padflat 0%R lead [s_nlat s; s_nlon s] (Nat.max P A) X).
  assert (FX : flat_of lead [s_nlat s; s_nlon s] X X1) by now apply padflat_flat.
  apply (flat_rfft lead [] (s_mmax s)) in FX. cbn [app length] in FX. fold k in FX.
  pose proof FX as (SF & _). apply (flat_legK lead (s_weights s)) in FX; [|lia]. fold k in FX.
  pose proof FX as (SY & _). rewrite W1 in FX, SY.
  set (Y := legK (s_weights s) (k + 0) (k + 1) (rfft_dim (s_mmax s) (k + 1) X)) in *.
  exists Y. split; [|split; auto].
  - unfold real_sht. rewrite (sht_check_ok _ lead) by (auto; lia). cbn [bindo]. rewrite ND.
    replace (k + 2 - 2) with (k + 0) by lia. replace (k + 2 - 1) with (k + 1) by lia.
    apply legcontract_eq. unfold einsum_ok. rewrite W0, W2. unfold ndim, dimsz. rewrite Hw, SF.
    unfold k. rewrite !nth_app_r. simpl. now rewrite !Nat.eqb_refl.
  - assert (OK : obj_ok P A s obj).
    { intros p a Hp Ha. rewrite Hobj, dist_init_ok by (auto; unfold ndim; rewrite Hw; simpl; lia).
      eexists. split; [reflexivity|]. cbn. repeat split; apply css_some; auto. }
    eapply (holds2_teq _ _ _ _ (fun p a => shard (k + 0) P p (shard (k + 1) A a Y))).
    2: intros; rewrite Nat.add_0_r; apply teq_refl.
    apply (dist_forward_ok P A HP HA lead [] s obj debug OK H1 H2 H3 H4 scalar_contract _
             (legK (s_weights s) 1 2) x X Y); auto.
    + cbn [length]. rewrite Nat.add_0_r. auto.
    + intros p a t Hp Ha Ht. apply (sht_check_ok _ lead); auto. simpl. lia.
    + intros N Z HN HZ. split.
      * unfold legK. cbn [shp along]. rewrite HZ, W1. reflexivity.
      * intros p a o t Hp Ha Ho Ht. cbn [length].
        rewrite Hobj, dist_init_ok in Ho by (auto; unfold ndim; rewrite Hw; simpl; lia). inversion Ho.
        eapply scalar_contract_ok; eauto.
Qed.

Theorem dist_inverse_sht_ok : forall P A s debug lead X x obj,
  1 <= P -> 1 <= A -> table_ok s (s_nlat s) (s_lmax s) ->
  P <= s_nlat s -> A <= s_nlon s -> P <= s_lmax s -> A <= s_mmax s ->
  lead <> [] -> shp X = lead ++ [s_lmax s; s_mmax s] ->
  (forall p a, p < P -> a < A -> obj p a = dist_init 0 P A s p a) ->
  holds2 P A x (fun p a => shard (length lead) P p (shard (length lead + 1) A a X)) ->
  exists Y, inverse_sht s X = Some Y /\ shp Y = lead ++ [s_nlat s; s_nlon s] /\
    holds2 P A (dist_inverse_sht debug P A obj x) (fun p a => shard (length lead) P p (shard (length lead + 1) A a Y)).
Proof.
  intros P A s debug lead X x obj HP HA Hw H1 H2 H3 H4 Hl HX Hobj Hx.
  assert (Hll : 1 <= length lead) by (destruct lead; simpl; [congruence|lia]).
  unfold table_ok in Hw.
  assert (W0 : dimsz (s_weights s) 0 = s_mmax s) by (unfold dimsz; now rewrite Hw).
  assert (W1 : dimsz (s_weights s) 1 = s_nlat s) by (unfold dimsz; now rewrite Hw).
  assert (W2 : dimsz (s_weights s) 2 = s_lmax s) by (unfold dimsz; now rewrite Hw).
  set (k := length lead).
  assert (ND : ndim X = k + 2) by (unfold ndim; rewrite HX, app_length; reflexivity).
  set (X1 := padflat (RtoC 0) lead [s_lmax s; s_mmax s] (Nat.max P A) X).
  assert (FX : flat_of lead [s_lmax s; s_mmax s] X X1) by now apply padflat_flat.
  apply (flat_legK lead (s_weights s)) in FX; [|lia]. fold k in FX. rewrite W1 in FX.
  apply (flat_irfft lead [] (s_nlon s)) in FX. cbn [app length] in FX. fold k in FX.
  pose proof FX as (SY & _).
  set (Y := irfft_dim (s_nlon s) (k + 1) (legK (s_weights s) (k + 0) (k + 1) X)) in *.
  exists Y. split; [|split; auto].
  - unfold inverse_sht. rewrite (sht_check_ok _ lead) by (auto; lia). cbn [bindo]. rewrite ND.
    replace (k + 2 - 2) with (k + 0) by lia. replace (k + 2 - 1) with (k + 1) by lia.
    rewrite legcontract_eq. reflexivity. unfold einsum_ok. rewrite W0, W2. unfold ndim, dimsz. rewrite Hw, HX.
    unfold k. rewrite !nth_app_r. simpl. now rewrite !Nat.eqb_refl.
  - assert (OK : obj_ok P A s obj).
    { intros p a Hp Ha. rewrite Hobj, dist_init_ok by (auto; unfold ndim; rewrite Hw; simpl; lia).
      eexists. split; [reflexivity|]. cbn. repeat split; apply css_some; auto. }
    eapply (holds2_teq _ _ _ _ (fun p a => shard (k + 0) P p (shard (k + 1) A a Y))).
    2: intros; rewrite Nat.add_0_r; apply teq_refl.
    apply (dist_inverse_ok P A HP HA lead [] s obj debug OK H1 H2 H3 H4 scalar_contract _
             (legK (s_weights s) 1 2) x X Y); auto.
    + cbn [length]. rewrite Nat.add_0_r. auto.
    + intros p a t Hp Ha Ht. apply (sht_check_ok _ lead); auto. simpl. lia.
    + intros N Z HN HZ. split.
      * unfold legK. cbn [shp along]. rewrite HZ, W1. reflexivity.
      * intros p a o t Hp Ha Ho Ht. cbn [length].
        rewrite Hobj, dist_init_ok in Ho by (auto; unfold ndim; rewrite Hw; simpl; lia). inversion Ho.
        eapply scalar_contract_ok; eauto.
Qed.
