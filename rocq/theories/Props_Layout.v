(** C80: memory layouts of tensors handed to kernels. *)
From Coq Require Import List Arith Lia Bool.
From Verif Require Import LayoutModel LayoutSpec LayoutProofs.
Import ListNotations.

(** is_contiguous, with its exceptions for dimensions of size 1 and empty tensors, accepts exactly the tensors that lie in row-major order. *)
Theorem C80_is_contiguous : forall t, length (str t) = length (sh t) -> (is_contiguous t = true <-> rowmajor t).
Proof. intros t L. split. apply contiguous_rowmajor. now apply rowmajor_contiguous. Qed.
Print Assumptions C80_is_contiguous.

(** A kernel that checks is_contiguous and then counts through a pointer either raises or finds every element where it looks for it. *)
Theorem C80_pointer : forall A (m : mem A) t, match pointer A m t with Some p => forall i, inb (sh t) i -> p (pos (sh t) i) = elem A m t i | None => is_contiguous t = false end.
Proof. intros A m t. destruct (pointer A m t) as [p|] eqn:P. intros i. now apply pointer_ok. unfold pointer in P. now destruct (is_contiguous t). Qed.
Print Assumptions C80_pointer.

(** After contiguous() it never raises and finds the elements of the original tensor, whatever its strides; no tensor changes. *)
Theorem C80_contiguous : forall A (m : mem A) t, lives m t -> let (m', u) := contiguous A m t in
  lives m' u /\ sh u = sh t /\ keeps m m' /\ exists p, pointer A m' u = Some p /\ forall i, inb (sh t) i -> p (pos (sh t) i) = elem A m t i.
Proof.
  intros A m t L. pose proof (contiguous_ok A m t L) as H. destruct (contiguous A m t) as [m' u]. destruct H as (H1 & H2 & H3 & H4 & H5 & _). repeat (split; [assumption|]).
  destruct (pointer A m' u) as [p|] eqn:P; [|unfold pointer in P; now rewrite H2 in P]. exists p. split; auto. intros i Hi. rewrite <- H5 by auto. rewrite <- H3. apply pointer_ok; auto. now rewrite H3.
Qed.
Print Assumptions C80_contiguous.
(** ensure_contiguous and its gradient *)
Theorem C80_ensure : forall A (m : mem A) t, lives m t -> forall r, r = ensure_contiguous A m t \/ r = ensure_contiguous_backward A m t ->
  is_contiguous (snd r) = true /\ sh (snd r) = sh t /\ keeps m (fst r) /\ forall i, inb (sh t) i -> elem A (fst r) (snd r) i = elem A m t i.
Proof. intros A m t L r H. pose proof (contiguous_ok A m t L) as Q. assert (E : r = contiguous A m t) by (destruct H; assumption). rewrite E. destruct (contiguous A m t) as [m' u]. cbn [fst snd]. tauto. Qed.
Print Assumptions C80_ensure.

(** to_nhwc, with and without the extension, for every strided tensor with four dimensions: a contiguous tensor (B, H, W, C) with the same
    elements in a storage of its own; no tensor changes. *)
Theorem C80_to_nhwc : forall A o (m : mem A) t B C H W, lives m t -> sh t = [B; C; H; W] ->
  exists m' u, to_nhwc A o m t = Some (m', u) /\ lives m' u /\ is_contiguous u = true /\ sh u = [B; H; W; C] /\ keeps m m' /\ owned m m' u /\
  forall b c h w, b < B -> c < C -> h < H -> w < W -> elem A m' u [b; h; w; c] = elem A m t [b; c; h; w].
Proof.
  intros A o m t B C H W L S. destruct (to_nhwc_ok A o m t B C H W L S) as ([m' u] & E & H1 & H2 & H3 & H4 & H5 & H6). exists m', u. repeat (split; [assumption|]).
  intros b c h w Hb Hc Hh Hw. now rewrite H6 by now apply mk4.
Qed.
Print Assumptions C80_to_nhwc.
Theorem C80_to_nchw : forall A o (m : mem A) t B C H W, lives m t -> sh t = [B; H; W; C] ->
  exists m' u, to_nchw A o m t = Some (m', u) /\ lives m' u /\ is_contiguous u = true /\ sh u = [B; C; H; W] /\ keeps m m' /\ owned m m' u /\
  forall b c h w, b < B -> c < C -> h < H -> w < W -> elem A m' u [b; c; h; w] = elem A m t [b; h; w; c].
Proof.
  intros A o m t B C H W L S. destruct (to_nchw_ok A o m t B C H W L S) as ([m' u] & E & H1 & H2 & H3 & H4 & H5 & H6). exists m', u. repeat (split; [assumption|]).
  intros b c h w Hb Hc Hh Hw. now rewrite H6 by now apply mk4.
Qed.
Print Assumptions C80_to_nchw.
(** The two are inverse to each other, and raise for other numbers of dimensions. *)
Theorem C80_inverse : forall A o (m : mem A) t B C H W, lives m t -> sh t = [B; C; H; W] ->
  exists m1 u m2 v, to_nhwc A o m t = Some (m1, u) /\ to_nchw A o m1 u = Some (m2, v) /\ sh v = sh t /\ forall i, inb (sh t) i -> elem A m2 v i = elem A m t i.
Proof.
  intros A o m t B C H W L S. destruct (C80_to_nhwc A o m t B C H W L S) as (m1 & u & E1 & L1 & _ & S1 & _ & _ & V1). destruct (C80_to_nchw A o m1 u B C H W L1 S1) as (m2 & v & E2 & _ & _ & S2 & _ & _ & V2).
  exists m1, u, m2, v. rewrite S. repeat (split; [assumption|]). intros i I. destruct (inb4 _ _ _ _ _ I) as (b & c & h & w & -> & Hb & Hc & Hh & Hw). now rewrite V2, V1.
Qed.
Print Assumptions C80_inverse.
Theorem C80_dims : forall A o (m : mem A) t, length (sh t) <> 4 -> to_nhwc A o m t = None /\ to_nchw A o m t = None.
Proof. intros A o m t H. apply Nat.eqb_neq in H. unfold to_nhwc, to_nchw. now rewrite H. Qed.
Print Assumptions C80_dims.
(** The gradients: whatever strides autograd's gradient has, each element goes back to where it came from. *)
Theorem C80_gradients : forall A (m : mem A) g B C H W, lives m g ->
  (sh g = [B; H; W; C] -> exists m' u, backward_to_nhwc A m g = Some (m', u) /\ sh u = [B; C; H; W] /\ keeps m m' /\
     forall b c h w, b < B -> c < C -> h < H -> w < W -> elem A m' u [b; c; h; w] = elem A m g [b; h; w; c]) /\
  (sh g = [B; C; H; W] -> exists m' u, backward_to_nchw A m g = Some (m', u) /\ sh u = [B; H; W; C] /\ keeps m m' /\
     forall b c h w, b < B -> c < C -> h < H -> w < W -> elem A m' u [b; h; w; c] = elem A m g [b; c; h; w]).
Proof.
  intros A m g B C H W L. split; intros S.
  - destruct (opt_nchw A m g B C H W L S) as ([m' u] & E & H1 & H2 & H3 & H4 & H5 & H6). exists m', u. repeat (split; [assumption|]). intros b c h w Hb Hc Hh Hw. now rewrite H6 by now apply mk4.
  - destruct (opt_nhwc A m g B C H W L S) as ([m' u] & E & H1 & H2 & H3 & H4 & H5 & H6). exists m', u. repeat (split; [assumption|]). intros b c h w Hb Hc Hh Hw. now rewrite H6 by now apply mk4.
Qed.
Print Assumptions C80_gradients.
(** Strides tell the layouts apart except where C = 1 or H W = 1, as the module says. *)
Theorem C80_ambiguous : forall s o B C H W, B * C * H * W <> 0 ->
  (is_contiguous (permute [0; 2; 3; 1] (mkten s o [B; C; H; W] (packed [B; C; H; W]))) = true <-> C = 1 \/ H * W = 1).
Proof. exact ambiguous. Qed.
Print Assumptions C80_ambiguous.
(** There permute().contiguous() would return the source's own memory: writing an element of the result writes one of the source. *)
Theorem C80_alias : forall A (m : mem A) s o B C H W b c h w v, C = 1 \/ H * W = 1 -> b < B -> c < C -> h < H -> w < W ->
  let t := mkten s o [B; C; H; W] (packed [B; C; H; W]) in let (m', u) := naive_permuted A m [0; 2; 3; 1] t in
  elem A (write A m' u [b; h; w; c] v) t [b; c; h; w] = v.
Proof.
  intros A m s o B C H W b c h w v Q Hb Hc Hh Hw t. unfold naive_permuted, contiguous. assert (K : is_contiguous (permute [0; 2; 3; 1] t) = true). { apply ambiguous; auto. assert (0 < B * C * H * W); [|lia]. repeat apply Nat.mul_pos_pos; lia. }
  rewrite K. unfold elem, write. cbn [cells st permute t]. rewrite Nat.eqb_refl. unfold addr. cbn [off str permute map nth packed numel dot].
  unfold t. cbn [off str packed numel dot nth]. match goal with |- context [?x =? ?y] => replace x with y by ring end. now rewrite Nat.eqb_refl.
Qed.
Print Assumptions C80_alias.

(** A transposed, an expanded and a sliced tensor with C = 1 and one with C = 2 *)
Example C80_case : let m := mkmem nat 1 (fun _ a => a) in
  let t := mkten 0 3 [1; 2; 2; 3] [0; 1; 2; 0] in let u := mkten 0 0 [2; 1; 2; 2] [4; 9; 2; 1] in
  lives m t /\ is_contiguous t = false /\ lives m u /\ is_contiguous u = true /\
  map (fun r => match r with Some (m', x) => map (fun k => cells nat m' (st x) k) (seq 0 12) | None => [] end) [to_nhwc nat true m t; to_nhwc nat false m t]
  = [[3; 4; 3; 4; 3; 4; 5; 6; 5; 6; 5; 6]; [3; 4; 3; 4; 3; 4; 5; 6; 5; 6; 5; 6]].
Proof. cbv zeta. repeat split; cbn; auto. Qed.
