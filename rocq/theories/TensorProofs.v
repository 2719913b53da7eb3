(** Lemmas about the tensor operations of [TensorModel]. *)
From Coq Require Import List Arith Lia Bool.
From Verif Require Import TensorModel.
Import ListNotations.

(** ** [upd] *)
Lemma upd_length : forall d v l, length (upd d v l) = length l.
Proof. intros d v l; revert d; induction l; destruct d; simpl; auto. Qed.

Lemma nth_upd_same : forall d v l x, d < length l -> nth d (upd d v l) x = v.
Proof. intros d v l; revert d; induction l; destruct d; simpl; intros; try lia; auto. apply IHl; lia. Qed.

Lemma nth_upd_other : forall d e v l x, d <> e -> nth e (upd d v l) x = nth e l x.
Proof. intros d e v l; revert d e; induction l; destruct d, e; simpl; intros; try lia; auto. Qed.

Lemma upd_upd_same : forall d v w l, upd d v (upd d w l) = upd d v l.
Proof. intros d v w l; revert d; induction l; destruct d; simpl; auto. now rewrite IHl. Qed.

Lemma upd_comm : forall d e v w l, d <> e -> upd d v (upd e w l) = upd e w (upd d v l).
Proof.
  intros d e v w l; revert d e; induction l; destruct d, e; simpl; intros; try lia; auto.
  now rewrite IHl by lia.
Qed.

Lemma upd_nth_id : forall d l x, d < length l -> upd d (nth d l x) l = l.
Proof. intros d l; revert d; induction l; destruct d; simpl; intros; try lia; auto. now rewrite IHl by lia. Qed.

Lemma upd_out : forall d v l, length l <= d -> upd d v l = l.
Proof. intros d v l; revert d; induction l; destruct d; simpl; intros; try lia; auto. now rewrite IHl by lia. Qed.

(** ** [valid] *)
Lemma valid_len : forall s i, valid s i -> length i = length s.
Proof. intros s i [H _]; auto. Qed.

Lemma valid_nth : forall s i d, valid s i -> d < length s -> nth d i 0 < nth d s 0.
Proof. intros s i d [_ H]; auto. Qed.

Lemma valid_upd : forall s i d n v,
  valid (upd d n s) i -> d < length s -> v < nth d s 0 -> valid s (upd d v i).
Proof.
  intros s i d n v [Hl H] Hd Hv. rewrite upd_length in *.
  split. now rewrite upd_length.
  intros e He. destruct (Nat.eq_dec d e) as [->|Hne].
  - rewrite nth_upd_same by lia. auto.
  - rewrite nth_upd_other by auto. specialize (H e He). now rewrite nth_upd_other in H by auto.
Qed.

Lemma valid_upd_iff : forall s i d n, d < length s ->
  (valid (upd d n s) i <-> length i = length s /\ nth d i 0 < n /\
     forall e, e < length s -> e <> d -> nth e i 0 < nth e s 0).
Proof.
  intros s i d n Hd; split.
  - intros [Hl H]. rewrite upd_length in *. split; auto. split.
    + specialize (H d Hd). now rewrite nth_upd_same in H by auto.
    + intros e He Hne. specialize (H e He). now rewrite nth_upd_other in H by auto.
  - intros (Hl & Hn & H). split. now rewrite upd_length.
    rewrite upd_length. intros e He. destruct (Nat.eq_dec d e) as [->|Hne].
    + now rewrite nth_upd_same.
    + rewrite nth_upd_other by auto. apply H; auto.
Qed.

Lemma valid_upd_bound : forall s i d n, d < length s -> valid (upd d n s) i -> nth d i 0 < n.
Proof. intros s i d n Hd H. apply valid_upd_iff in H; tauto. Qed.

Lemma valid_cons : forall n s k i, valid (n :: s) (k :: i) <-> k < n /\ valid s i.
Proof.
  intros; split.
  - intros [Hl H]; simpl in *. split. apply (H 0); lia.
    split. lia. intros d Hd. apply (H (S d)); lia.
  - intros [Hk [Hl H]]. split; simpl. lia. intros [|d] Hd; auto. apply H; lia.
Qed.

Lemma valid_nil : valid [] [].
Proof. split; simpl; auto. intros; lia. Qed.

Lemma valid_app : forall s1 s2 i1 i2, length i1 = length s1 ->
  (valid (s1 ++ s2) (i1 ++ i2) <-> valid s1 i1 /\ valid s2 i2).
Proof.
  induction s1; destruct i1; simpl; intros i2 Hl; try discriminate.
  - split; [intros; split; auto using valid_nil | tauto].
  - rewrite !valid_cons. rewrite IHs1 by lia. tauto.
Qed.

(** ** [teq] is an equivalence *)
Lemma teq_refl : forall A (t : tensor A), teq t t.
Proof. split; auto. Qed.
Lemma teq_sym : forall A (t u : tensor A), teq t u -> teq u t.
Proof. intros A t u [H1 H2]; split; auto. intros i Hi. rewrite <- H1 in Hi. symmetry; auto. Qed.
Lemma teq_trans : forall A (t u v : tensor A), teq t u -> teq u v -> teq t v.
Proof.
  intros A t u v [H1 H2] [H3 H4]; split. congruence.
  intros i Hi. rewrite H2 by auto. apply H4. now rewrite <- H1.
Qed.
#[export] Hint Resolve teq_refl : core.

Lemma teq_shp : forall A (t u : tensor A), teq t u -> shp t = shp u.
Proof. intros A t u [H _]; auto. Qed.
Lemma teq_dimsz : forall A (t u : tensor A) d, teq t u -> dimsz t d = dimsz u d.
Proof. intros A t u d [H _]; unfold dimsz; now rewrite H. Qed.
Lemma teq_ndim : forall A (t u : tensor A), teq t u -> ndim t = ndim u.
Proof. intros A t u [H _]; unfold ndim; now rewrite H. Qed.

(** ** [narrow] *)
Lemma narrow_proper : forall A d off len (t u : tensor A),
  teq t u -> off + len <= dimsz t d -> teq (narrow d off len t) (narrow d off len u).
Proof.
  intros A d off len t u [H1 H2] Hb. split; simpl. now rewrite H1.
  intros i Hi. apply H2. destruct (lt_dec d (length (shp t))) as [Hd|Hd].
  - eapply valid_upd; eauto. pose proof (valid_upd_bound _ _ _ _ Hd Hi).
    unfold dimsz in Hb. lia.
  - rewrite upd_out in Hi by lia. rewrite upd_out; auto.
    destruct Hi as [Hl _]. lia.
Qed.

Lemma dimsz_narrow_same : forall A d off len (t : tensor A), d < ndim t ->
  dimsz (narrow d off len t) d = len.
Proof. intros; unfold dimsz; simpl. now rewrite nth_upd_same. Qed.
Lemma dimsz_narrow_other : forall A d e off len (t : tensor A), d <> e ->
  dimsz (narrow d off len t) e = dimsz t e.
Proof. intros; unfold dimsz; simpl. now rewrite nth_upd_other. Qed.
Lemma ndim_narrow : forall A d off len (t : tensor A), ndim (narrow d off len t) = ndim t.
Proof. intros; unfold ndim; simpl. now rewrite upd_length. Qed.

Lemma narrow_narrow_same : forall A d o1 l1 o2 l2 (t : tensor A), d < ndim t ->
  teq (narrow d o2 l2 (narrow d o1 l1 t)) (narrow d (o1 + o2) l2 t).
Proof.
  intros A d o1 l1 o2 l2 t Hd. split; simpl.
  - now rewrite upd_upd_same.
  - intros i Hi. apply valid_len in Hi. rewrite !upd_length in Hi. unfold ndim in Hd.
    rewrite nth_upd_same by lia. rewrite upd_upd_same. f_equal. f_equal. lia.
Qed.

Lemma narrow_comm : forall A d e o1 l1 o2 l2 (t : tensor A), d <> e ->
  teq (narrow d o1 l1 (narrow e o2 l2 t)) (narrow e o2 l2 (narrow d o1 l1 t)).
Proof.
  intros A d e o1 l1 o2 l2 t Hne. split; simpl.
  - now rewrite upd_comm by auto.
  - intros i Hi. rewrite !nth_upd_other by auto. now rewrite upd_comm by auto.
Qed.

Lemma narrow_all : forall A d (t : tensor A), d < ndim t -> teq (narrow d 0 (dimsz t d) t) t.
Proof.
  intros A d t Hd. unfold dimsz, ndim in *. split; simpl.
  - now rewrite upd_nth_id.
  - intros i Hi. rewrite Nat.add_0_r. rewrite upd_nth_id; auto.
    apply valid_len in Hi. rewrite upd_length in Hi. lia.
Qed.

(** ** [cat2] and [torch_cat] *)
Lemma shape_eqb_true : forall s s', shape_eqb s s' = true <-> s = s'.
Proof. intros; unfold shape_eqb; destruct list_eq_dec; split; intros; auto; discriminate. Qed.

Lemma upd0_eq : forall d s s' n, upd d 0 s = upd d 0 s' -> upd d n s = upd d n s'.
Proof. intros d s s' n H. rewrite <- (upd_upd_same d n 0 s), H, upd_upd_same. auto. Qed.

Lemma cat2_proper : forall A d (a a' b b' : tensor A), d < ndim a ->
  teq a a' -> teq b b' -> upd d 0 (shp a) = upd d 0 (shp b) -> teq (cat2 d a b) (cat2 d a' b').
Proof.
  intros A d a a' b b' Hd [Ha1 Ha2] [Hb1 Hb2] Hs. unfold ndim in Hd.
  assert (Hlen : length (shp a) = length (shp b))
    by (rewrite <- (upd_length d 0 (shp a)), Hs, upd_length; auto).
  split; simpl.
  - unfold dimsz. now rewrite <- Ha1, <- Hb1.
  - intros i Hi. unfold dimsz in *. rewrite <- Ha1.
    apply valid_upd_iff in Hi; auto. destruct Hi as (Hl & Hn & Ho).
    destruct (Nat.ltb_spec (nth d i 0) (nth d (shp a) 0)).
    + apply Ha2. split; auto. intros e He. destruct (Nat.eq_dec e d) as [->|]; auto.
    + apply Hb2. split. rewrite upd_length; lia.
      intros e He. destruct (Nat.eq_dec e d) as [->|Hne].
      * rewrite nth_upd_same by lia. lia.
      * rewrite nth_upd_other by auto.
        replace (nth e (shp b) 0) with (nth e (upd d 0 (shp b)) 0) by now rewrite nth_upd_other by auto.
        rewrite <- Hs. rewrite nth_upd_other by auto. apply Ho; auto. lia.
Qed.

Lemma narrow_cat2 : forall A d off a b (t : tensor A), d < ndim t ->
  teq (cat2 d (narrow d off a t) (narrow d (off + a) b t)) (narrow d off (a + b) t).
Proof.
  intros A d off a b t Hd. unfold ndim in Hd. split; simpl.
  - unfold dimsz; simpl. rewrite !nth_upd_same by auto. now rewrite upd_upd_same.
  - intros i Hi. unfold dimsz in *; simpl in *. rewrite !nth_upd_same in * by auto.
    rewrite upd_upd_same in Hi.
    pose proof (valid_len _ _ Hi) as Hl. rewrite upd_length in Hl.
    destruct (Nat.ltb_spec (nth d i 0) a); auto.
    rewrite nth_upd_same by lia. rewrite upd_upd_same. f_equal. f_equal. lia.
Qed.

(** Consecutive slices concatenate to the enclosing slice. *)
Lemma torch_cat_split_from : forall A d (t : tensor A) sections off,
  d < ndim t -> sections <> [] ->
  exists u, torch_cat d (split_from d off sections t) = Some u /\
            teq u (narrow d off (sum_list sections) t).
Proof.
  intros A d t sections. induction sections as [|n rest IH]; intros off Hd Hne; [congruence|].
  destruct rest as [|n' rest].
  - simpl. rewrite ndim_narrow. apply Nat.ltb_lt in Hd. rewrite Hd. eexists; split; eauto.
    rewrite Nat.add_0_r; auto.
  - destruct (IH (off + n) Hd) as (u & Hu & Hteq). discriminate.
    cbn [split_from] in *. set (a := narrow d off n t) in *.
    cbn [torch_cat] in *. rewrite Hu. cbn [bindo].
    assert (E : upd d 0 (shp a) = upd d 0 (shp u)).
    { rewrite (teq_shp _ _ _ Hteq). unfold a; simpl. now rewrite !upd_upd_same. }
    assert (Hda : d < ndim a) by (unfold a; now rewrite ndim_narrow).
    rewrite (proj2 (Nat.ltb_lt _ _) Hda). rewrite (proj2 (shape_eqb_true _ _) E). simpl.
    eexists; split; eauto.
    eapply teq_trans. 2: apply (narrow_cat2 A d off n (sum_list (n' :: rest)) t Hd).
    apply cat2_proper; auto.
Qed.

(** [torch_cat] respects observational equality. *)
Lemma torch_cat_proper : forall A d (ts us : list (tensor A)) t,
  Forall2 teq ts us -> torch_cat d ts = Some t ->
  exists u, torch_cat d us = Some u /\ teq t u.
Proof.
  intros A d ts us t H; revert t. induction H as [|a a' ts us Ha HF IH]; intros t Ht.
  - discriminate.
  - destruct HF as [|b b' ts us Hb HF].
    + simpl in *. rewrite <- (teq_ndim _ _ _ Ha). destruct (d <? ndim a); inversion Ht; subst; eauto.
    + cbn [torch_cat] in Ht, IH |- *.
      remember (match ts with [] => _ | _ => _ end) as r eqn:Er. 
      destruct r as [r|]; [|discriminate].
      destruct (IH r eq_refl) as (u & Hu & Hru). rewrite Hu. cbn [bindo].
      destruct (d <? ndim a) eqn:Ed; [|discriminate].
      destruct (shape_eqb (upd d 0 (shp a)) (upd d 0 (shp r))) eqn:Es; [|discriminate].
      inversion Ht; subst. rewrite <- (teq_ndim _ _ _ Ha), Ed.
      rewrite <- (teq_shp _ _ _ Ha), <- (teq_shp _ _ _ Hru), Es. simpl.
      eexists; split; eauto. apply cat2_proper; auto. now apply Nat.ltb_lt.
      now apply shape_eqb_true.
Qed.

Lemma split_from_length : forall A d (t : tensor A) sections off,
  length (split_from d off sections t) = length sections.
Proof. induction sections; simpl; auto. Qed.

Lemma split_from_nth : forall A d (t : tensor A) sections off k,
  k < length sections ->
  nth_error (split_from d off sections t) k =
    Some (narrow d (off + sum_list (firstn k sections)) (nth k sections 0) t).
Proof.
  induction sections; simpl; intros off k Hk. lia.
  destruct k; simpl. now rewrite Nat.add_0_r.
  rewrite IHsections by lia. f_equal. f_equal. lia.
Qed.

Lemma torch_split_spec : forall A d (t : tensor A) sections,
  d < ndim t -> sum_list sections = dimsz t d ->
  torch_split t sections d = Some (split_from d 0 sections t).
Proof.
  intros. unfold torch_split. rewrite (proj2 (Nat.ltb_lt _ _) H), (proj2 (Nat.eqb_eq _ _) H0). auto.
Qed.

(** ** ravel / unravel *)
Lemma prod_list_pos : forall s i, valid s i -> 0 < prod_list s.
Proof.
  induction s; destruct i; simpl; intros H; try lia.
  - destruct H; discriminate.
  - apply valid_cons in H. destruct H. specialize (IHs _ H0). nia.
Qed.

Lemma ravel_lt : forall s i, valid s i -> ravel s i < prod_list s.
Proof.
  induction s; destruct i; simpl; intros H; try lia.
  - destruct H; discriminate.
  - apply valid_cons in H. destruct H. specialize (IHs _ H0). nia.
Qed.

Lemma unravel_length : forall s k, length (unravel s k) = length s.
Proof. induction s; simpl; auto. Qed.

Lemma unravel_ravel : forall s i, valid s i -> unravel s (ravel s i) = i.
Proof.
  induction s; destruct i; simpl; intros H; auto.
  - destruct H; discriminate.
  - destruct H; discriminate.
  - apply valid_cons in H. destruct H. pose proof (ravel_lt _ _ H0).
    f_equal.
    + rewrite Nat.div_add_l by lia. rewrite Nat.div_small by auto. lia.
    + rewrite Nat.add_comm, Nat.mod_add by lia. rewrite Nat.mod_small by auto. auto.
Qed.

Lemma unravel_valid : forall s k, k < prod_list s -> valid s (unravel s k).
Proof.
  induction s; simpl; intros k Hk. apply valid_nil.
  apply valid_cons. assert (prod_list s <> 0) by nia. split.
  - apply Nat.div_lt_upper_bound; auto. nia.
  - apply IHs. apply Nat.mod_upper_bound; auto.
Qed.

Lemma ravel_unravel : forall s k, k < prod_list s -> ravel s (unravel s k) = k.
Proof.
  induction s; simpl; intros k Hk. lia.
  assert (prod_list s <> 0) by nia.
  rewrite IHs by (apply Nat.mod_upper_bound; auto).
  rewrite Nat.mul_comm. symmetry. apply Nat.div_mod; auto.
Qed.

(** ** monadic helpers *)
Lemma mapM_Forall2 : forall A B (f : A -> option B) l,
  (forall a, In a l -> exists b, f a = Some b) ->
  exists bs, mapM f l = Some bs /\ Forall2 (fun a b => f a = Some b) l bs.
Proof.
  induction l; simpl; intros H. eexists; split; eauto.
  destruct (H a) as (b & Hb); auto. destruct IHl as (bs & Hbs & HF); auto.
  rewrite Hb; simpl. rewrite Hbs; simpl. eexists; split; eauto.
Qed.

Lemma mapM_Some : forall A B (f : A -> option B) (g : A -> B) l,
  (forall a, In a l -> f a = Some (g a)) -> mapM f l = Some (map g l).
Proof.
  induction l; simpl; intros H; auto. rewrite H by auto. simpl. rewrite IHl by auto. auto.
Qed.

Lemma mapM_inv : forall A B (f : A -> option B) l bs,
  mapM f l = Some bs -> Forall2 (fun a b => f a = Some b) l bs.
Proof.
  induction l; simpl; intros bs H. inversion H; constructor.
  destruct (f a) eqn:Ea; simpl in H; [|discriminate].
  destruct (mapM f l) eqn:Em; simpl in H; [|discriminate]. inversion H; subst. constructor; auto.
Qed.

Lemma mapM_ext : forall A B (f g : A -> option B) l,
  (forall a, In a l -> f a = g a) -> mapM f l = mapM g l.
Proof.
  induction l; simpl; intros H; auto. rewrite H by auto. rewrite IHl by auto. auto.
Qed.
