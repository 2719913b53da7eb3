(** C78: the elevation map: values, sizes and the cached download. *)
From Coq Require Import List Arith Lia Reals Lra.
From Verif Require Import TensorModel SHTModel MolaModel MolaSpec MolaProofs.
Import ListNotations.
Local Open Scope R_scope.

(** The map has the size asked for, each point is the bilinear interpolant at its centre,
    and all values are between 0 and 1. *)
Theorem C78_values : forall decode c t h w p a b, snd (fetch decode c t) = Returned (h, w, p) -> grey h w p -> (1 <= a)%nat -> (1 <= b)%nat ->
  exists x, snd (load decode c t (Some a) (Some b)) = Returned x /\ shp x = [a; b] /\
  forall k j, (k < a)%nat -> (j < b)%nat -> bilinear (fun i l => INR (p i l) / 255) h w (centre w b j) (centre h a k) (val x [k; j]) /\ 0 <= val x [k; j] <= 1.
Proof.
  intros decode c t h w p a b E (Hh & Hw & Hp) Ha Hb. exists (elevation (h, w, p) (Some a) (Some b)). split.
  { unfold load. destruct (fetch decode c t) as [c' r]. cbn [snd] in E |- *. rewrite E. destruct a; [lia|]. destruct b; [lia|]. reflexivity. }
  set (x := elevation _ _ _). split; [reflexivity|]. intros k j Hk Hj. assert (Bl : bilinear (fun i l => INR (p i l) / 255) h w (centre w b j) (centre h a k) (val x [k; j])).
  { apply resize_bilinear; auto. }
  split; auto. apply (bilinear_between _ h w _ _ _ 0 1 Hh Hw Bl). intros i l _ _. cbn beta. pose proof (pos_INR (p i l)). pose proof (le_INR _ _ (Hp i l)) as Q. replace (INR 255) with 255 in Q by (rewrite INR_IZR_INZ; reflexivity). lra.
Qed.
Print Assumptions C78_values.
(** The bilinear interpolant is one value only. *)
Theorem C78_unique : forall f h w x y v v', (1 <= h)%nat -> (1 <= w)%nat -> bilinear f h w x y v -> bilinear f h w x y v' -> v = v'.
Proof. exact bilinear_unique. Qed.
Print Assumptions C78_unique.
(** Asked for its own size, the image is unchanged. *)
Theorem C78_same_size : forall h w p k j, (k < h)%nat -> (j < w)%nat ->
  val (elevation (h, w, p) (Some h) (Some w)) [k; j] = INR (p k j) / 255 /\ val (elevation (h, w, p) None None) [k; j] = INR (p k j) / 255.
Proof. intros h w p k j Hk Hj. split; [|reflexivity]. cbn [elevation val nth]. now rewrite resize_same. Qed.
Print Assumptions C78_same_size.
(** Turning the image upside down turns the map upside down. *)
Theorem C78_flip : forall h w p a b k j, (1 <= h)%nat -> (1 <= w)%nat -> (k < a)%nat -> (j < b)%nat ->
  val (elevation (h, w, fun i l => p (h - 1 - i)%nat l) (Some a) (Some b)) [k; j] = val (elevation (h, w, p) (Some a) (Some b)) [(a - 1 - k)%nat; j].
Proof.
  intros h w p a b k j Hh Hw Hk Hj. cbn [elevation val nth]. eapply (bilinear_unique _ h w); auto. apply resize_bilinear; auto.
  replace (centre h a k) with (INR h - centre h a (a - 1 - k)) by (rewrite (centre_flip h a) by lia; ring).
  apply (bilinear_flip (fun i l => INR (p i l) / 255)); auto. apply resize_bilinear; auto. lia.
Qed.
Print Assumptions C78_flip.
(** Finding 51a: the map is not continued across the date line: turning the planet by one pixel does not turn the map of twice the width by two. *)
Theorem C78_seam_refuted : forall w, (2 <= w)%nat -> exists p, grey 1 w p /\
  val (elevation (1%nat, w, p) (Some 1%nat) (Some (2 * w)%nat)) [0; 0]%nat = 1 /\
  val (elevation (1%nat, w, fun i l => p i ((l + (w - 1)) mod w)%nat) (Some 1%nat) (Some (2 * w)%nat)) [0; 2]%nat = 3 / 4.
Proof.
  intros w Hw. exists (fun _ l => if (l =? 0)%nat then 255%nat else 0%nat). assert (W : 2 <= INR w) by (change 2 with (INR 2); now apply le_INR).
  assert (V : INR 255 / 255 = 1) by (rewrite INR_IZR_INZ; unfold Rdiv; apply Rinv_r; cbn; lra).
  assert (R1 : forall f b j, (j < b)%nat -> resize 1 w 1 b f 0 j = resize1 w b (f 0%nat) j).
  { intros f b j Hj. unfold resize. apply (interpolates_unique 1 ltac:(lia) (fun i => resize1 w b (f i) j) (centre 1 1 0)). apply resize1_interpolates; lia. rewrite centre_same by lia. split; [|split]; intros; try reflexivity; lia. }
  split; [|split].
  - split; [lia|]. split; [lia|]. intros i j. destruct (j =? 0)%nat; lia.
  - cbn [elevation val nth]. rewrite R1 by lia. etransitivity; [|exact V]. match goal with |- resize1 _ _ ?f _ = _ => apply (proj1 (resize1_interpolates w (2 * w) ltac:(lia) ltac:(lia) f 0%nat ltac:(lia))) end. assert (C : centre w (2 * w) 0 = 1 / 4) by (unfold centre; rewrite mult_INR; change (INR 2) with 2; cbn [INR]; field; lra). lra.
  - cbn [elevation val nth]. rewrite R1 by lia.
    assert (C : centre w (2 * w) 2 = 5 / 4). { unfold centre. rewrite mult_INR. change (INR 2) with 2. field. lra. }
      match goal with |- resize1 _ _ ?g _ = _ => set (f := g) end. destruct (resize1_interpolates w (2 * w) ltac:(lia) ltac:(lia) f 2 ltac:(lia)) as (_ & _ & I). rewrite (I 0%nat) by (try lia; rewrite C; cbn [INR]; lra). rewrite C.
      replace (f 0%nat) with 0. replace (f (0 + 1)%nat) with 1. cbn [INR]; field.
      * unfold f. cbn [Nat.add]. replace (S (w - 1)) with w by lia. rewrite Nat.mod_same by lia. symmetry. exact V.
      * unfold f. cbn [Nat.add]. rewrite Nat.mod_small by lia. destruct (Nat.eqb_spec (w - 1) 0); [lia|]. cbn [INR]. unfold Rdiv. ring.
Qed.
Print Assumptions C78_seam_refuted.
(** Finding 51b: one size alone is ignored. *)
Theorem C78_one_size_refuted : forall decode c t h w p a, snd (fetch decode c t) = Returned (h, w, p) -> a <> h ->
  exists x, snd (load decode c t (Some a) None) = Returned x /\ shp x = [h; w] /\ shp x <> [a; w].
Proof.
  intros decode c t h w p a E N. unfold load. destruct (fetch decode c t) as [c' r]. cbn [snd] in E |- *. rewrite E. destruct a as [|a]; (eexists; split; [reflexivity|]; split; [reflexivity|]; cbn [elevation shp]; congruence).
Qed.
Print Assumptions C78_one_size_refuted.

(** A size of zero raises, whatever is cached, and leaves the cache as a good call would. *)
Theorem C78_zero_size : forall decode c t a b a' b', (a = 0 \/ b = 0)%nat ->
  load decode c t (Some a) (Some b) = (fst (load decode c t a' b'), Raised).
Proof. intros decode c t a b a' b' H. unfold load. destruct (fetch decode c t) as [c' [im|]]; cbn [fst]; auto. destruct H as [-> | ->]; [|destruct a]; reflexivity. Qed.
Print Assumptions C78_zero_size.

(** Once a call has returned an image, the file is kept, and every later call works from it whatever the network does. *)
Theorem C78_cached : forall decode c t im ts t', snd (fetch decode c t) = Returned im ->
  loads decode (fst (fetch decode c t)) ts = fst (fetch decode c t) /\ snd (fetch decode (loads decode (fst (fetch decode c t)) ts) t') = Returned im.
Proof.
  intros decode c t im ts t' E. assert (K : exists b, fst (fetch decode c t) = Some b /\ decode b = Some im).
  { unfold fetch in *. destruct c as [b|]; cbn [fst snd] in *. exists b. destruct (decode b); split; congruence. destruct t; cbn [fst snd] in *; try discriminate. exists b. destruct (decode b); split; congruence. }
  destruct K as (b & -> & D). assert (L : forall l, loads decode (Some b) l = Some b) by (induction l; cbn [loads fetch fst]; auto). rewrite L. split; auto. cbn [fetch snd]. now rewrite D.
Qed.
Print Assumptions C78_cached.
(** After any number of failed connections a complete transfer gives the server's image. *)
Theorem C78_complete : forall decode n b im, decode b = Some im -> fetch decode (loads decode None (repeat NoConnection n)) (Complete b) = (Some b, Returned im).
Proof. intros decode n b im D. replace (loads decode None (repeat NoConnection n)) with (@None (list byte)). cbn [fetch]. now rewrite D. induction n; cbn [repeat loads fetch fst]; auto. Qed.
Print Assumptions C78_complete.
(** Finding 51c: a transfer that breaks off leaves a file, empty or cut, which all later calls take for the image: they all fail,
    whatever the network does. *)
Theorem C78_interrupted_refuted : forall decode t b, (t = ReadFails /\ b = [] \/ exists b' n, t = WriteStops b' n /\ b = firstn n b') -> decode b = None ->
  forall ts t', snd (fetch decode (loads decode (fst (fetch decode None t)) ts) t') = Raised.
Proof.
  intros decode t b H D ts t'. assert (E : fst (fetch decode None t) = Some b) by (destruct H as [[-> ->]|(b' & n & -> & ->)]; reflexivity). rewrite E.
  assert (L : forall l, loads decode (Some b) l = Some b) by (induction l; cbn [loads fetch fst]; auto). rewrite L. cbn [fetch snd]. now rewrite D.
Qed.
Print Assumptions C78_interrupted_refuted.

(** The hypotheses are met: a 2 x 2 image, and a decoder that accepts files of at least one byte. *)
Example C78_case : let p := fun i j => (100 * i + 50 * j)%nat in let decode := fun b : list byte => match b with [] => None | _ => Some (2%nat, 2%nat, fun i j => Nat.min 255 (p i j)) end in
  grey 2 2 (fun i j => Nat.min 255 (p i j)) /\ snd (fetch decode None (Complete [1%nat])) = Returned (2%nat, 2%nat, fun i j => Nat.min 255 (p i j)) /\
  snd (fetch decode (loads decode (fst (fetch decode None ReadFails)) [Complete [1%nat]; NoConnection]) (Complete [1%nat])) = Raised.
Proof. intros p decode. split; [|split; reflexivity]. split; [lia|]. split; [lia|]. intros. apply Nat.le_min_l. Qed.
