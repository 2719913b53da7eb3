(** Proofs about layouts. *)
From Coq Require Import List Arith Lia Bool.
From Verif Require Import LayoutModel LayoutSpec.
Import ListNotations.

Lemma numel_fold : forall s, numel s = fold_right Nat.mul 1 s. Proof. induction s; cbn; auto. Qed.
Lemma pos_lt : forall s i, inb s i -> pos s i < numel s.
Proof.
  intros s i H. induction H as [|k n i s Hk H IH]; cbn [pos numel]. lia. rewrite <- numel_fold. apply Nat.lt_le_trans with ((k + 1) * numel s). nia. apply Nat.mul_le_mono_r. lia.
Qed.
Lemma unflat_pos : forall s i, inb s i -> unflat s (pos s i) = i.
Proof.
  intros s i H. induction H as [|k n i s Hk H IH]; cbn [pos unflat]. reflexivity. rewrite <- numel_fold. pose proof (pos_lt s i H).
  rewrite Nat.div_add_l by lia. rewrite Nat.div_small by lia. rewrite (Nat.add_comm (k * numel s) (pos s i)), Nat.mod_add by lia. rewrite Nat.mod_small by lia. rewrite IH. f_equal. lia.
Qed.
Lemma packed_dot : forall s i, inb s i -> dot (packed s) i = pos s i.
Proof. intros s i H. induction H as [|k n i s Hk H IH]; cbn [dot packed pos]. reflexivity. rewrite IH, numel_fold. lia. Qed.
Lemma packed_length : forall s, length (packed s) = length s. Proof. induction s; cbn; auto. Qed.
Lemma contig_packed : forall s, contig s (packed s) = Some (numel s).
Proof.
  induction s as [|n s IH]; cbn [contig packed numel]. reflexivity. rewrite IH, Nat.eqb_refl. destruct (n =? 1) eqn:E. apply Nat.eqb_eq in E. subst. f_equal. lia. f_equal. lia.
Qed.
Lemma contig_sound : forall s t z, contig s t = Some z -> z = numel s /\ forall i, inb s i -> dot t i = pos s i.
Proof.
  induction s as [|n s IH]; intros t z H.
  - injection H as <-. split. reflexivity. intros i Hi. inversion Hi; subst. now destruct t.
  - destruct t as [|a t]; [discriminate|]. cbn [contig] in H. destruct (contig s t) as [z'|] eqn:E; [|discriminate]. destruct (IH t z' E) as (-> & D).
    destruct (n =? 1) eqn:N.
    + injection H as <-. apply Nat.eqb_eq in N. subst. split. cbn [numel]. lia. intros i Hi. inversion Hi as [|k ? i' ? Hk Hi']; subst. cbn [dot pos]. assert (k = 0) by lia. subst. rewrite D by auto. lia.
    + destruct (a =? numel s) eqn:Q; [|discriminate]. injection H as <-. apply Nat.eqb_eq in Q. subst. split. cbn [numel]. lia.
      intros i Hi. inversion Hi as [|k ? i' ? Hk Hi']; subst. cbn [dot pos]. rewrite D, numel_fold by auto. lia.
Qed.
Lemma zeros_inb : forall s, numel s <> 0 -> inb s (repeat 0 (length s)).
Proof. induction s as [|n s IH]; cbn [numel length repeat]; intros H; constructor. nia. apply IH. nia. Qed.
Lemma dot_zeros : forall n t, dot t (repeat 0 n) = 0. Proof. induction n; intros [|a t]; cbn [dot repeat]; auto. rewrite IHn. lia. Qed.
Lemma pos_zeros : forall s n, pos s (repeat 0 n) = 0. Proof. induction s; intros [|n]; cbn [pos repeat]; auto. rewrite IHs. lia. Qed.
Lemma contig_complete : forall s t, length t = length s -> numel s <> 0 -> (forall i, inb s i -> dot t i = pos s i) -> contig s t = Some (numel s).
Proof.
  induction s as [|n s IH]; intros t L N H. reflexivity. destruct t as [|a t]; [discriminate|]. cbn [numel] in N. cbn [contig numel].
  rewrite (IH t); [ | now injection L | nia | ].
  - destruct (n =? 1) eqn:E. apply Nat.eqb_eq in E. subst. f_equal. lia. apply Nat.eqb_neq in E.
    assert (Q : a = numel s). { specialize (H (1 :: repeat 0 (length s))). cbn [dot pos] in H. rewrite dot_zeros, pos_zeros, <- numel_fold in H. rewrite !Nat.add_0_r, Nat.mul_1_r, Nat.mul_1_l in H. apply H. constructor. nia. apply zeros_inb. nia. }
    subst. rewrite Nat.eqb_refl. f_equal. lia.
  - intros i Hi. specialize (H (0 :: i)). cbn [dot pos] in H. rewrite Nat.mul_0_r, Nat.mul_0_l in H. apply H. constructor; auto. nia.
Qed.
Lemma inb_numel : forall s i, inb s i -> numel s <> 0. Proof. intros s i H. pose proof (pos_lt s i H). lia. Qed.
Lemma contiguous_rowmajor : forall t, is_contiguous t = true -> rowmajor t.
Proof.
  intros t H i Hi. unfold is_contiguous in H. pose proof (inb_numel _ _ Hi). apply orb_prop in H. destruct H as [H|H]. apply Nat.eqb_eq in H. lia.
  destruct (contig (sh t) (str t)) as [z|] eqn:E; [|discriminate]. destruct (contig_sound _ _ _ E) as (_ & D). unfold addr. now rewrite D.
Qed.
Lemma rowmajor_contiguous : forall t, length (str t) = length (sh t) -> rowmajor t -> is_contiguous t = true.
Proof.
  intros t L H. unfold is_contiguous. destruct (numel (sh t) =? 0) eqn:E; auto. apply Nat.eqb_neq in E. rewrite contig_complete; auto. intros i Hi. specialize (H i Hi). unfold addr in H. lia.
Qed.

Section Mem.
Variable A : Type.
Implicit Types (m : mem A) (t : ten).
Lemma fill_keeps : forall m f, keeps m (fill A m f).
Proof.
  intros m f t i (Hs & L). split. split; auto. cbn. lia. unfold elem. cbn [cells fill]. destruct (st t =? next A m) eqn:E; auto. apply Nat.eqb_eq in E. lia.
Qed.
Lemma keeps_refl : forall m, keeps m m. Proof. intros m t i H. auto. Qed.
Lemma keeps_trans : forall m1 m2 m3, keeps m1 m2 -> keeps m2 m3 -> keeps m1 m3.
Proof. intros m1 m2 m3 H K t i L. destruct (H t i L) as (L2 & E). destruct (K t i L2) as (L3 & E2). split; auto. congruence. Qed.
Lemma fresh_owned : forall m m' t, next A m <= st t -> owned m m' t.
Proof. intros m m' t H u i j v (Hs & _). unfold elem, write. cbn [cells]. destruct (st u =? st t) eqn:E; auto. apply Nat.eqb_eq in E. lia. Qed.
(** a new storage with the elements of [t], read through strides in row-major order *)
Lemma new_elem : forall m f s q, length q = length s -> (forall i, inb s i -> dot q i = pos s i) -> let m' := fill A m f in let u := mkten (next A m) 0 s q in
  lives m' u /\ is_contiguous u = true /\ forall i, inb s i -> elem A m' u i = f (pos s i).
Proof.
  intros m f s q L D m' u. unfold m', u. split. split; cbn; auto. split. apply rowmajor_contiguous; [exact L | exact D].
  intros i Hi. unfold elem, addr. cbn [cells fill st off str]. rewrite Nat.eqb_refl, D by auto. reflexivity.
Qed.
Lemma copy_ok : forall m t, let (m', u) := copy A m t in lives m' u /\ is_contiguous u = true /\ sh u = sh t /\ st u = next A m /\ keeps m m' /\ forall i, inb (sh t) i -> elem A m' u i = elem A m t i.
Proof.
  intros m t. unfold copy. destruct (new_elem m (fun a => elem A m t (unflat (sh t) a)) (sh t) (packed (sh t)) (packed_length _) (packed_dot _)) as (L & C & E).
  split; [exact L|]. split; [exact C|]. split; [reflexivity|]. split; [reflexivity|]. split; [apply fill_keeps|]. intros i Hi. rewrite E by auto. now rewrite unflat_pos.
Qed.
Lemma clone_ok : forall m t, length (str t) = length (sh t) -> is_contiguous t = true -> let (m', u) := clone A m t in
  lives m' u /\ is_contiguous u = true /\ sh u = sh t /\ st u = next A m /\ keeps m m' /\ forall i, inb (sh t) i -> elem A m' u i = elem A m t i.
Proof.
  intros m t Hl Hc. unfold clone. assert (D : forall i, inb (sh t) i -> dot (str t) i = pos (sh t) i). { intros i Hi. pose proof (contiguous_rowmajor t Hc i Hi) as R. unfold addr in R. lia. }
  destruct (new_elem m (fun a => elem A m t (unflat (sh t) a)) (sh t) (str t) Hl D) as (L & C & E).
  split; [exact L|]. split; [exact C|]. split; [reflexivity|]. split; [reflexivity|]. split; [apply fill_keeps|]. intros i Hi. rewrite E by auto. now rewrite unflat_pos.
Qed.
Lemma contiguous_ok : forall m t, lives m t -> let (m', u) := contiguous A m t in
  lives m' u /\ is_contiguous u = true /\ sh u = sh t /\ keeps m m' /\ (forall i, inb (sh t) i -> elem A m' u i = elem A m t i) /\ next A m <= next A m' /\ (is_contiguous t = false -> st u = next A m).
Proof.
  intros m t L. unfold contiguous. destruct (is_contiguous t) eqn:C. repeat split; auto; try apply L; try discriminate; try (apply H); auto.
  pose proof (copy_ok m t) as H. destruct (copy A m t) as [m' u] eqn:E. destruct H as (H1 & H2 & H3 & H4 & H5 & H6). repeat (split; [assumption|]). split; auto. injection E as <- _. cbn. lia.
Qed.
Lemma pointer_ok : forall m t p i, pointer A m t = Some p -> inb (sh t) i -> p (pos (sh t) i) = elem A m t i.
Proof.
  intros m t p i H Hi. unfold pointer in H. destruct (is_contiguous t) eqn:C; [|discriminate]. injection H as <-. unfold elem. now rewrite (contiguous_rowmajor t C i Hi).
Qed.

(** what both conversions give *)
Definition conv_ok m t (s : list nat) (g : list nat -> list nat) (r : mem A * ten) : Prop :=
  let (m', u) := r in lives m' u /\ is_contiguous u = true /\ sh u = s /\ keeps m m' /\ owned m m' u /\ forall i, inb s i -> elem A m' u i = elem A m t (g i).
Definition g_nhwc (i : list nat) : list nat := match i with [b; h; w; c] => [b; c; h; w] | _ => [] end.
Definition g_nchw (i : list nat) : list nat := match i with [b; c; h; w] => [b; h; w; c] | _ => [] end.
Lemma inb4 : forall B C H W i, inb [B; C; H; W] i -> exists b c h w, i = [b; c; h; w] /\ b < B /\ c < C /\ h < H /\ w < W.
Proof.
  intros B C H W i I. inversion I as [|b ? i1 ? Hb I1]; subst. inversion I1 as [|c ? i2 ? Hc I2]; subst. inversion I2 as [|h ? i3 ? Hh I3]; subst. inversion I3 as [|w ? i4 ? Hw I4]; subst. inversion I4; subst. exists b, c, h, w. auto.
Qed.
Lemma mk4 : forall B C H W b c h w, b < B -> c < C -> h < H -> w < W -> inb [B; C; H; W] [b; c; h; w].
Proof. intros. repeat constructor; auto. Qed.
Lemma permuted_ok : forall m t d, lives m t -> conv_ok m (permute d t) (map (fun k => nth k (sh t) 0) d) (fun i => i) (permuted_copy A m d t).
Proof.
  intros m t d L. unfold permuted_copy, conv_ok. set (v := permute d t). assert (Lv : lives m v). { destruct L. split; auto. cbn. now rewrite !map_length. }
  destruct (is_contiguous v) eqn:C.
  - pose proof (clone_ok m v (proj2 Lv) C) as H. destruct (clone A m v) as [m' u]. destruct H as (H1 & H2 & H3 & H4 & H5 & H6). repeat (split; [assumption|]). split; auto. apply fresh_owned. lia.
  - pose proof (contiguous_ok m v Lv) as H. destruct (contiguous A m v) as [m' u]. destruct H as (H1 & H2 & H3 & H5 & H6 & _ & H4). repeat (split; [assumption|]). split; auto. apply fresh_owned. rewrite H4; auto.
Qed.
Lemma view_nhwc : forall m t B C H W i, sh t = [B; C; H; W] -> length (str t) = 4 -> inb [B; H; W; C] i -> elem A m (permute [0; 2; 3; 1] t) i = elem A m t (g_nhwc i).
Proof.
  intros m t B C H W i S L I. destruct (inb4 _ _ _ _ _ I) as (b & h & w & c & -> & _). destruct t as [s o q r]. cbn in S, L. destruct r as [|r0 [|r1 [|r2 [|r3 [|]]]]]; try discriminate.
  unfold elem, addr. cbn [permute st off str map nth dot g_nhwc]. f_equal. lia.
Qed.
Lemma view_nchw : forall m t B C H W i, sh t = [B; H; W; C] -> length (str t) = 4 -> inb [B; C; H; W] i -> elem A m (permute [0; 3; 1; 2] t) i = elem A m t (g_nchw i).
Proof.
  intros m t B C H W i S L I. destruct (inb4 _ _ _ _ _ I) as (b & c & h & w & -> & _). destruct t as [s o q r]. cbn in S, L. destruct r as [|r0 [|r1 [|r2 [|r3 [|]]]]]; try discriminate.
  unfold elem, addr. cbn [permute st off str map nth dot g_nchw]. f_equal. lia.
Qed.
Lemma split_div : forall a b n, b < n -> (a * n + b) / n = a /\ (a * n + b) mod n = b.
Proof. intros a b n H. split. rewrite Nat.div_add_l by lia. rewrite Nat.div_small by lia. lia. rewrite Nat.add_comm, Nat.mod_add by lia. now apply Nat.mod_small. Qed.
Lemma two_lt : forall a b n k, a < n -> b < k -> a * k + b < n * k. Proof. intros. nia. Qed.
Lemma kernel_nhwc_ok : forall m t B C H W, lives m t -> is_contiguous t = true -> sh t = [B; C; H; W] -> exists r, kernel_nhwc A m t = Some r /\ conv_ok m t [B; H; W; C] g_nhwc r.
Proof.
  intros m t B C H W L K S. unfold kernel_nhwc. rewrite S. destruct (pointer A m t) as [p|] eqn:P; [|unfold pointer in P; now rewrite K in P]. eexists. split; [reflexivity|]. unfold conv_ok.
  set (f := fun a => _). destruct (new_elem m f [B; H; W; C] (packed [B; H; W; C]) eq_refl (packed_dot _)) as (L' & C' & E').
  split; [exact L'|]. split; [exact C'|]. split; [reflexivity|]. split; [apply fill_keeps|]. split; [apply fresh_owned; cbn; lia|].
  intros i I. rewrite E' by auto. destruct (inb4 _ _ _ _ _ I) as (b & h & w & c & -> & Hb & Hh & Hw & Hc). cbn [g_nhwc]. rewrite <- (pointer_ok m t p [b; c; h; w] P) by (rewrite S; now apply mk4). rewrite S.
  unfold f. assert (Q : pos [B; H; W; C] [b; h; w; c] = b * (H * W * C) + ((h * W + w) * C + c)) by (cbn [pos fold_right]; ring). rewrite Q.
  assert (R : (h * W + w) * C + c < H * W * C) by (apply two_lt; auto; now apply two_lt). destruct (split_div b _ _ R) as (-> & ->). destruct (split_div (h * W + w) c C Hc) as (-> & ->).
  f_equal. cbn [pos fold_right]. ring.
Qed.
Lemma kernel_nchw_ok : forall m t B C H W, lives m t -> is_contiguous t = true -> sh t = [B; H; W; C] -> exists r, kernel_nchw A m t = Some r /\ conv_ok m t [B; C; H; W] g_nchw r.
Proof.
  intros m t B C H W L K S. unfold kernel_nchw. rewrite S. destruct (pointer A m t) as [p|] eqn:P; [|unfold pointer in P; now rewrite K in P]. eexists. split; [reflexivity|]. unfold conv_ok.
  set (f := fun a => _). destruct (new_elem m f [B; C; H; W] (packed [B; C; H; W]) eq_refl (packed_dot _)) as (L' & C' & E').
  split; [exact L'|]. split; [exact C'|]. split; [reflexivity|]. split; [apply fill_keeps|]. split; [apply fresh_owned; cbn; lia|].
  intros i I. rewrite E' by auto. destruct (inb4 _ _ _ _ _ I) as (b & c & h & w & -> & Hb & Hc & Hh & Hw). cbn [g_nchw]. rewrite <- (pointer_ok m t p [b; h; w; c] P) by (rewrite S; now apply mk4). rewrite S.
  unfold f. assert (Q : pos [B; C; H; W] [b; c; h; w] = b * (C * (H * W)) + (c * (H * W) + (h * W + w))) by (cbn [pos fold_right]; ring). rewrite Q.
  assert (R0 : h * W + w < H * W) by now apply two_lt. assert (R : c * (H * W) + (h * W + w) < C * (H * W)) by now apply two_lt.
  destruct (split_div b _ _ R) as (-> & ->). destruct (split_div c _ _ R0) as (-> & ->). f_equal. cbn [pos fold_right]. ring.
Qed.
(** through x.contiguous () *)
Lemma conv_after : forall m t m1 t1 s g r, keeps m m1 -> next A m <= next A m1 -> (forall i, inb s i -> elem A m1 t1 (g i) = elem A m t (g i)) -> conv_ok m1 t1 s g r -> conv_ok m t s g r.
Proof.
  intros m t m1 t1 s g [m2 u] K N E (H1 & H2 & H3 & H4 & H5 & H6). unfold conv_ok. split; auto. split; auto. split; auto. split; [now apply keeps_trans with m1|]. split.
  - intros v i j x Lv. apply H5. now apply (K v []).
  - intros i I. rewrite H6 by auto. now apply E.
Qed.
Lemma opt_nhwc : forall m t B C H W, lives m t -> sh t = [B; C; H; W] -> exists r, (let (m', t') := contiguous A m t in kernel_nhwc A m' t') = Some r /\ conv_ok m t [B; H; W; C] g_nhwc r.
Proof.
  intros m t B C H W L S. pose proof (contiguous_ok m t L) as Q. destruct (contiguous A m t) as [m1 t1]. destruct Q as (L1 & C1 & S1 & K & E & N & _). rewrite S in S1.
  destruct (kernel_nhwc_ok m1 t1 B C H W L1 C1 S1) as (r & Er & Or). exists r. split; auto. apply conv_after with m1 t1; auto. intros i I. apply E. rewrite S. destruct (inb4 _ _ _ _ _ I) as (b & h & w & c & -> & ? & ? & ? & ?). now apply mk4.
Qed.
Lemma opt_nchw : forall m t B C H W, lives m t -> sh t = [B; H; W; C] -> exists r, (let (m', t') := contiguous A m t in kernel_nchw A m' t') = Some r /\ conv_ok m t [B; C; H; W] g_nchw r.
Proof.
  intros m t B C H W L S. pose proof (contiguous_ok m t L) as Q. destruct (contiguous A m t) as [m1 t1]. destruct Q as (L1 & C1 & S1 & K & E & N & _). rewrite S in S1.
  destruct (kernel_nchw_ok m1 t1 B C H W L1 C1 S1) as (r & Er & Or). exists r. split; auto. apply conv_after with m1 t1; auto. intros i I. apply E. rewrite S. destruct (inb4 _ _ _ _ _ I) as (b & c & h & w & -> & ? & ? & ? & ?). now apply mk4.
Qed.
Lemma to_nhwc_ok : forall o m t B C H W, lives m t -> sh t = [B; C; H; W] -> exists r, to_nhwc A o m t = Some r /\ conv_ok m t [B; H; W; C] g_nhwc r.
Proof.
  intros o m t B C H W L S. unfold to_nhwc. replace (length (sh t) =? 4) with true by now rewrite S. destruct o. now apply opt_nhwc. eexists. split; [reflexivity|].
  pose proof (permuted_ok m t [0; 2; 3; 1] L) as Q. rewrite S in Q. cbn [map nth] in Q. destruct (permuted_copy A m [0; 2; 3; 1] t) as [m' u]. destruct Q as (H1 & H2 & H3 & H4 & H5 & H6).
  repeat (split; [assumption|]). intros i I. rewrite H6 by auto. apply (view_nhwc m t B C H W); auto. destruct L as (_ & L). now rewrite L, S.
Qed.
Lemma to_nchw_ok : forall o m t B C H W, lives m t -> sh t = [B; H; W; C] -> exists r, to_nchw A o m t = Some r /\ conv_ok m t [B; C; H; W] g_nchw r.
Proof.
  intros o m t B C H W L S. unfold to_nchw. replace (length (sh t) =? 4) with true by now rewrite S. destruct o. now apply opt_nchw. eexists. split; [reflexivity|].
  pose proof (permuted_ok m t [0; 3; 1; 2] L) as Q. rewrite S in Q. cbn [map nth] in Q. destruct (permuted_copy A m [0; 3; 1; 2] t) as [m' u]. destruct Q as (H1 & H2 & H3 & H4 & H5 & H6).
  repeat (split; [assumption|]). intros i I. rewrite H6 by auto. apply (view_nchw m t B C H W); auto. destruct L as (_ & L). now rewrite L, S.
Qed.
End Mem.

(** ** The two layouts cannot be told apart by strides *)
Lemma ambiguous : forall s o B C H W, B * C * H * W <> 0 ->
  (is_contiguous (permute [0; 2; 3; 1] (mkten s o [B; C; H; W] (packed [B; C; H; W]))) = true <-> C = 1 \/ H * W = 1).
Proof.
  intros s o B C H W N. unfold is_contiguous. cbn [permute sh str map nth packed numel contig]. rewrite ?Nat.mul_1_r.
  replace (B * (H * (W * C)) =? 0) with false by (symmetry; apply Nat.eqb_neq; nia). cbn [orb].
  destruct (C =? 1) eqn:EC.
  - apply Nat.eqb_eq in EC. subst C. split; auto. intros _. destruct (W =? 1) eqn:EW; [apply Nat.eqb_eq in EW; subst W|cbn [Nat.eqb]];
    (destruct (H =? 1) eqn:EH; [apply Nat.eqb_eq in EH; subst H|]); rewrite ?Nat.mul_1_l, ?Nat.mul_1_r, ?Nat.eqb_refl; destruct (B =? 1); rewrite ?(Nat.mul_comm W H), ?Nat.eqb_refl; reflexivity.
  - apply Nat.eqb_neq in EC. destruct (H * W =? 1) eqn:E.
    + apply Nat.eqb_eq in E. split; auto. intros _. apply Nat.eq_mul_1 in E. destruct E as (-> & ->). cbn [Nat.eqb Nat.mul Nat.add]. rewrite ?Nat.mul_1_r, ?Nat.add_0_r, ?Nat.eqb_refl. destruct (B =? 1); rewrite ?Nat.mul_1_l, ?Nat.add_0_r, ?Nat.eqb_refl; reflexivity.
    + split; [discriminate|]. apply Nat.eqb_neq in E. intros [? | ?]; congruence.
Qed.
