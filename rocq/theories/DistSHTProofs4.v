(** Vector transforms. *)
From Coq Require Import List Arith Lia Bool Reals.
From Coquelicot Require Import Coquelicot.
From Verif Require Import TensorModel TensorProofs BigSum FFTModel TruncModel LegendreModel QuadModel SHTModel
  PrimModel PrimSpec PrimProofs PrimProofs2 DistSHTModel DistSHTProofs DistSHTProofs2 DistSHTProofs3.
Import ListNotations.
Local Open Scope nat_scope.

(** Value of the vector contraction at output index i, from the two component
    columns v0, v1 (functions of the contracted index) and two tables. *)
Definition vcell (n : nat) (w0 w1 : nat -> R) (c : nat) (v0 v1 : nat -> C) : C :=
  let es := fun (w : nat -> R) (part : C -> R) (v : nat -> C) => rsum n (fun k => part (v k) * w k)%R in
  if c =? 0 then (es w0 Re v0 - es w1 Im v1, es w0 Im v0 + es w1 Re v1)%R
  else (- es w1 Im v0 - es w0 Re v1, es w1 Re v0 - es w0 Im v1)%R.
Lemma vcell_ext : forall n w0 w1 w0' w1' c v0 v1 v0' v1',
  (forall k, k < n -> w0 k = w0' k /\ w1 k = w1' k /\ v0 k = v0' k /\ v1 k = v1' k) ->
  vcell n w0 w1 c v0 v1 = vcell n w0' w1' c v0' v1'.
Proof.
  intros n w0 w1 w0' w1' c v0 v1 v0' v1' H. unfold vcell.
  assert (E : forall (w w' : nat -> R) (v v' : nat -> C) (part : C -> R), (forall k, k < n -> w k = w' k /\ v k = v' k) ->
     rsum n (fun k => part (v k) * w k)%R = rsum n (fun k => part (v' k) * w' k)%R).
  { intros. apply rsum_ext_r. intros i Hi. destruct (H0 i Hi) as [-> ->]. auto. }
  rewrite (E w0 w0' v0 v0' Re), (E w1 w1' v1 v1' Im), (E w0 w0' v0 v0' Im), (E w1 w1' v1 v1' Re),
    (E w1 w1' v0 v0' Im), (E w0 w0' v1 v1' Re), (E w1 w1' v0 v0' Re), (E w0 w0' v1 v1' Im); auto;
    intros k Hk; destruct (H k Hk) as (? & ? & ? & ?); auto.
Qed.

Definition vecK (w : tensor R) (dc dk dm : nat) (x : tensor C) : tensor C :=
  mkT (upd dk (dimsz w 2) (shp x))
      (fun i => vcell (dimsz w 3) (fun k => val w [0; nth dm i 0; nth dk i 0; k]) (fun k => val w [1; nth dm i 0; nth dk i 0; k])
                  (nth dc i 0) (fun k => val x (upd dc 0 (upd dk k i))) (fun k => val x (upd dc 1 (upd dk k i)))).

Lemma dimsz_select0 : forall B c (w : tensor B) d, dimsz (select0 c w) d = dimsz w (S d).
Proof. intros. unfold dimsz, select0; simpl. destruct (shp w); simpl; auto. destruct d; auto. Qed.

Lemma veccontract_eq : forall w dc dk dm x, ndim w = 4 -> dimsz w 1 = dimsz x dm -> dimsz w 3 = dimsz x dk ->
  veccontract (select0 0 w) (select0 1 w) dc dk dm x = Some (vecK w dc dk dm x).
Proof.
  intros w dc dk dm x H4 Hm Hk. unfold veccontract, einsum_ok. rewrite !dimsz_select0, Hm, Hk.
  assert (N : forall c, ndim (select0 c w) = 3).
  { intros. unfold ndim, select0 in *; simpl. destruct (shp w); simpl in *; lia. }
  rewrite !N, !Nat.eqb_refl. cbn [andb]. unfold vecK, vcell. rewrite Hk. reflexivity.
Qed.

Lemma valid_upd2 : forall s dc dk c j n i, valid (upd dk n s) i -> dc <> dk -> c < nth dc s 0 -> j < nth dk s 0 ->
  valid s (upd dc c (upd dk j i)).
Proof.
  intros s dc dk c j n i Hi Hne Hc Hj. pose proof (valid_len _ _ Hi) as Hl. rewrite upd_length in Hl.
  destruct Hi as [_ Hi]. split. now rewrite !upd_length. intros d Hd. specialize (Hi d). rewrite upd_length in Hi.
  destruct (Nat.eq_dec d dc) as [->|Hd1]. rewrite nth_upd_same by (rewrite upd_length; lia). auto.
  rewrite nth_upd_other by auto.
  destruct (Nat.eq_dec d dk) as [->|Hd2]. rewrite nth_upd_same by lia. auto.
  rewrite nth_upd_other by auto. rewrite nth_upd_other in Hi; auto.
Qed.

Lemma vecK_proper : forall w dc dk dm x y, dc <> dk -> dimsz x dc = 2 -> dimsz w 3 <= dimsz x dk -> teq x y ->
  teq (vecK w dc dk dm x) (vecK w dc dk dm y).
Proof.
  intros w dc dk dm x y Hne H2 H3 H. split; simpl. now rewrite (teq_shp _ _ _ H).
  intros i Hi. apply vcell_ext. intros k Hk. split; auto. split; auto.
  unfold dimsz in *. split; apply H; eapply valid_upd2; eauto; lia.
Qed.

Lemma vecK_shard_other : forall w dc dk dm e N r x, e <> dc -> e <> dk -> e <> dm ->
  teq (vecK w dc dk dm (shard e N r x)) (shard e N r (vecK w dc dk dm x)).
Proof.
  intros w dc dk dm e N r x H1 H2 H3. unfold shard at 2.
  replace (dimsz (vecK w dc dk dm x) e) with (dimsz x e) by (unfold dimsz; simpl; now rewrite nth_upd_other by auto).
  split; simpl. apply upd_comm; auto.
  intros i Hi. rewrite !nth_upd_other by auto. apply vcell_ext. intros k Hk. split; auto. split; auto.
  rewrite !nth_upd_other by auto.
  split; f_equal; rewrite (upd_comm e dc), (upd_comm e dk) by auto; auto.
Qed.
Lemma vecK_shard_m : forall w dc dk dm N r x, dc <> dm -> dk <> dm -> dm < ndim x -> dimsz w 1 = dimsz x dm ->
  teq (vecK (shard 1 N r w) dc dk dm (shard dm N r x)) (shard dm N r (vecK w dc dk dm x)).
Proof.
  intros w dc dk dm N r x H1 H2 Hdm Hm. unfold shard at 3.
  replace (dimsz (vecK w dc dk dm x) dm) with (dimsz x dm) by (unfold dimsz; simpl; now rewrite nth_upd_other by auto).
  unfold vecK. rewrite !dimsz_shard_other by lia.
  split. simpl. apply upd_comm; auto.
  intros i Hi. assert (Hl : dm < length i).
  { rewrite (valid_len _ _ Hi). simpl. rewrite !upd_length. auto. }
  cbn [val shard narrow nth upd]. rewrite nth_upd_same by auto. rewrite !(nth_upd_other dm) by auto.
  apply vcell_ext. intros k Hk. rewrite Hm. split; auto. split; auto.
  rewrite !nth_upd_other by auto.
  split; f_equal; rewrite (upd_comm dm dc), (upd_comm dm dk) by auto; auto.
Qed.

Lemma flat_vecK : forall lead w L M x x1,
  dimsz w 3 <= L ->
  flat_of lead [2; L; M] x x1 ->
  flat_of lead [2; dimsz w 2; M] (vecK w (length lead + 0) (length lead + 1) (length lead + 2) x) (vecK w 1 2 3 x1).
Proof.
  intros lead w L M x x1 HL (Hx & (N & HN & H1) & Hv). split; [|split].
  - simpl. rewrite Hx. apply upd_app_r.
  - exists N. split; auto. simpl. now rewrite H1.
  - intros c j Hc Hj. cbn [val vecK nth upd]. rewrite !nth_unravel. apply vcell_ext. intros k Hk.
    split; auto. split; auto.
    assert (V : forall q, q < 2 -> valid [2; L; M] (upd 0 q (upd 1 k j))).
    { intros q Hq. eapply (valid_upd2 [2; L; M] 0 1 q k (dimsz w 2)); simpl; auto. lia. }
    split; rewrite !upd_unravel; apply Hv; auto.
Qed.

Lemma vector_contract_ok : forall P A w Lin Lout M N Z p a o t,
  shp w = [2; M; Lout; Lin] -> shp Z = [N; 2; Lin; M] ->
  1 <= P -> 1 <= A -> p < P -> a < A -> A <= M -> 
  d_weights o = shard 1 A a w ->
  teq t (shard 0 P p (shard 3 A a Z)) ->
  returns (vector_contract o t) (shard 0 P p (shard 3 A a (vecK w 1 2 3 Z))).
Proof.
  intros P A w Lin Lout M N Z p a o t Hw HZ HP HA Hp Ha HM Ho Ht. unfold vector_contract. rewrite Ho.
  assert (W0 : dimsz w 1 = M) by (unfold dimsz; now rewrite Hw).
  assert (W2 : dimsz w 3 = Lin) by (unfold dimsz; now rewrite Hw).
  assert (Z1 : dimsz Z 2 = Lin) by (unfold dimsz; now rewrite HZ).
  assert (Z2 : dimsz Z 3 = M) by (unfold dimsz; now rewrite HZ).
  assert (Z0 : dimsz Z 1 = 2) by (unfold dimsz; now rewrite HZ).
  assert (T1 : dimsz t 2 = Lin) by (rewrite (teq_dimsz _ _ _ 2 Ht), !dimsz_shard_other by lia; auto).
  assert (T0 : dimsz t 1 = 2) by (rewrite (teq_dimsz _ _ _ 1 Ht), !dimsz_shard_other by lia; auto).
  assert (D0 : dimsz (shard 1 A a w) 1 = chunk_len M A a).
  { unfold shard, narrow, dimsz; cbn [shp]. rewrite Hw. reflexivity. }
  assert (T2 : dimsz t 3 = chunk_len M A a).
  { rewrite (teq_dimsz _ _ _ 3 Ht), dimsz_shard_other by lia.
    unfold shard, narrow, dimsz; cbn [shp]. rewrite HZ. reflexivity. }
  rewrite veccontract_eq.
  2:{ rewrite ndim_shard. unfold ndim. now rewrite Hw. }
  2:{ now rewrite D0, T2. } 2:{ now rewrite dimsz_shard_other, W2, T1 by lia. }
  apply returns_Some.
  eapply teq_trans. apply vecK_proper; [lia|exact T0| |exact Ht]. rewrite dimsz_shard_other, W2, T1 by lia; lia.
  eapply teq_trans. apply vecK_shard_other; lia.
  apply shard_proper; auto. apply vecK_shard_m; try lia. unfold ndim; rewrite HZ; simpl; lia.
Qed.

Lemma vec_check_ok : forall B lead h w mn (t : tensor B), shp t = lead ++ [2; h; w] -> mn <= length lead + 3 ->
  vec_check h w mn t = Some tt.
Proof.
  intros B lead h w mn t Ht Hmn. unfold vec_check, ndim, dimsz. rewrite Ht, app_length. simpl length.
  rewrite (proj2 (Nat.leb_le _ _)) by lia.
  replace (length lead + 3 - 3) with (length lead + 0) by lia.
  replace (length lead + 3 - 2) with (length lead + 1) by lia.
  replace (length lead + 3 - 1) with (length lead + 2) by lia. rewrite !nth_app_r. simpl nth.
  now rewrite !Nat.eqb_refl.
Qed.

Definition vtable_ok (s : sht) (Lout Lin : nat) : Prop := shp (s_weights s) = [2; s_mmax s; Lout; Lin].

Theorem dist_vector_sht_ok : forall P A s debug lead X x obj,
  1 <= P -> 1 <= A -> vtable_ok s (s_lmax s) (s_nlat s) ->
  P <= s_nlat s -> A <= s_nlon s -> P <= s_lmax s -> A <= s_mmax s ->
  lead <> [] -> shp X = lead ++ [2; s_nlat s; s_nlon s] ->
  (forall p a, p < P -> a < A -> obj p a = dist_init 1 P A s p a) ->
  holds2 P A x (fun p a => shard (length lead + 1) P p (shard (length lead + 2) A a X)) ->
  exists Y, vector_sht s X = Some Y /\ shp Y = lead ++ [2; s_lmax s; s_mmax s] /\
    holds2 P A (dist_vector_sht debug P A obj x) (fun p a => shard (length lead + 1) P p (shard (length lead + 2) A a Y)).
Proof.
  intros P A s debug lead X x obj HP HA Hw H1 H2 H3 H4 Hl HX Hobj Hx.
  assert (Hll : 1 <= length lead) by (destruct lead; simpl; [congruence|lia]).
  unfold vtable_ok in Hw.
  assert (W0 : dimsz (s_weights s) 1 = s_mmax s) by (unfold dimsz; now rewrite Hw).
  assert (W1 : dimsz (s_weights s) 2 = s_lmax s) by (unfold dimsz; now rewrite Hw).
  assert (W2 : dimsz (s_weights s) 3 = s_nlat s) by (unfold dimsz; now rewrite Hw).
  set (k := length lead).
  assert (ND : ndim X = k + 3) by (unfold ndim; rewrite HX, app_length; reflexivity).
  set (X1 := padflat 0%R lead ([2] ++ [s_nlat s; s_nlon s]) (Nat.max P A) X).
  assert (FX : flat_of lead ([2] ++ [s_nlat s; s_nlon s]) X X1) by now apply padflat_flat.
  apply (flat_rfft lead [2] (s_mmax s)) in FX. cbn [app length] in FX. fold k in FX.
  pose proof FX as (SF & _). apply (flat_vecK lead (s_weights s)) in FX; [|lia]. fold k in FX.
  pose proof FX as (SY & _). rewrite W1 in FX, SY.
  set (Y := vecK (s_weights s) (k + 0) (k + 1) (k + 2) (rfft_dim (s_mmax s) (k + 2) X)) in *.
  exists Y. split; [|split; auto].
  - unfold vector_sht. rewrite (vec_check_ok _ lead) by (auto; lia). cbn [bindo]. rewrite ND.
    replace (k + 3 - 3) with (k + 0) by lia. replace (k + 3 - 2) with (k + 1) by lia. replace (k + 3 - 1) with (k + 2) by lia.
    apply veccontract_eq; unfold ndim, dimsz; rewrite ?Hw, ?SF; auto; unfold k; rewrite nth_app_r; auto.
  - assert (OK : obj_ok P A s obj).
    { intros p a Hp Ha. rewrite Hobj, dist_init_ok by (auto; unfold ndim; rewrite Hw; simpl; lia).
      eexists. split; [reflexivity|]. cbn. repeat split; apply css_some; auto. }
    apply (dist_forward_ok P A HP HA lead [2] s obj debug OK H1 H2 H3 H4 vector_contract _
             (vecK (s_weights s) 1 2 3) x X Y); auto.
    + intros p a t Hp Ha Ht. apply (vec_check_ok _ lead); auto. simpl. lia.
    + intros N Z HN HZ. split.
      * unfold vecK. cbn [shp]. rewrite HZ, W1. reflexivity.
      * intros p a o t Hp Ha Ho Ht. cbn [length].
        rewrite Hobj, dist_init_ok in Ho by (auto; unfold ndim; rewrite Hw; simpl; lia). inversion Ho.
        eapply vector_contract_ok; eauto.
Qed.

Theorem dist_inverse_vector_sht_ok : forall P A s debug lead X x obj,
  1 <= P -> 1 <= A -> vtable_ok s (s_nlat s) (s_lmax s) ->
  P <= s_nlat s -> A <= s_nlon s -> P <= s_lmax s -> A <= s_mmax s ->
  lead <> [] -> shp X = lead ++ [2; s_lmax s; s_mmax s] ->
  (forall p a, p < P -> a < A -> obj p a = dist_init 1 P A s p a) ->
  holds2 P A x (fun p a => shard (length lead + 1) P p (shard (length lead + 2) A a X)) ->
  exists Y, inverse_vector_sht s X = Some Y /\ shp Y = lead ++ [2; s_nlat s; s_nlon s] /\
    holds2 P A (dist_inverse_vector_sht debug P A obj x) (fun p a => shard (length lead + 1) P p (shard (length lead + 2) A a Y)).
Proof.
  intros P A s debug lead X x obj HP HA Hw H1 H2 H3 H4 Hl HX Hobj Hx.
  assert (Hll : 1 <= length lead) by (destruct lead; simpl; [congruence|lia]).
  unfold vtable_ok in Hw.
  assert (W0 : dimsz (s_weights s) 1 = s_mmax s) by (unfold dimsz; now rewrite Hw).
  assert (W1 : dimsz (s_weights s) 2 = s_nlat s) by (unfold dimsz; now rewrite Hw).
  assert (W2 : dimsz (s_weights s) 3 = s_lmax s) by (unfold dimsz; now rewrite Hw).
  set (k := length lead).
  assert (ND : ndim X = k + 3) by (unfold ndim; rewrite HX, app_length; reflexivity).
  set (X1 := padflat (RtoC 0) lead ([2] ++ [s_lmax s; s_mmax s]) (Nat.max P A) X).
  assert (FX : flat_of lead ([2] ++ [s_lmax s; s_mmax s]) X X1) by now apply padflat_flat.
  apply (flat_vecK lead (s_weights s)) in FX; [|lia]. fold k in FX. rewrite W1 in FX.
  apply (flat_irfft lead [2] (s_nlon s)) in FX. cbn [app length] in FX. fold k in FX.
  pose proof FX as (SY & _).
  set (Y := irfft_dim (s_nlon s) (k + 2) (vecK (s_weights s) (k + 0) (k + 1) (k + 2) X)) in *.
  exists Y. split; [|split; auto].
  - unfold inverse_vector_sht. rewrite (vec_check_ok _ lead) by (auto; lia). cbn [bindo]. rewrite ND.
    replace (k + 3 - 3) with (k + 0) by lia. replace (k + 3 - 2) with (k + 1) by lia. replace (k + 3 - 1) with (k + 2) by lia.
    rewrite veccontract_eq; unfold ndim, dimsz; rewrite ?Hw, ?HX; auto; unfold k; rewrite nth_app_r; auto.
  - assert (OK : obj_ok P A s obj).
    { intros p a Hp Ha. rewrite Hobj, dist_init_ok by (auto; unfold ndim; rewrite Hw; simpl; lia).
      eexists. split; [reflexivity|]. cbn. repeat split; apply css_some; auto. }
    apply (dist_inverse_ok P A HP HA lead [2] s obj debug OK H1 H2 H3 H4 vector_contract _
             (vecK (s_weights s) 1 2 3) x X Y); auto.
    + intros p a t Hp Ha Ht. apply (vec_check_ok _ lead); auto. simpl. lia.
    + intros N Z HN HZ. split.
      * unfold vecK. cbn [shp]. rewrite HZ, W1. reflexivity.
      * intros p a o t Hp Ha Ho Ht. cbn [length].
        rewrite Hobj, dist_init_ok in Ho by (auto; unfold ndim; rewrite Hw; simpl; lia). inversion Ho.
        eapply vector_contract_ok; eauto.
Qed.
