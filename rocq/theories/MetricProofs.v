(** Pixel areas, predicted classes and the four counts. *)
From Coq Require Import List Arith Lia Bool Reals ZArith Lra.
From Verif Require Import TensorModel BigSum CCProofs TruncModel QuadModel LossModel LossSpec LossProofs MetricModel MetricSpec.
Import ListNotations.
Local Open Scope R_scope.

Lemma area_ext : forall h w q P Q, (forall k j, (k < h)%nat -> (j < w)%nat -> P k j = Q k j) -> area_of h w q P = area_of h w q Q.
Proof. intros. unfold area_of. apply bsum_ext. intros. apply bsum_ext. intros. now rewrite H. Qed.
Definition ind (b : bool) : R := if b then 1 else 0.
Lemma ind_if : forall (b : bool) x, (if b then x else 0) = ind b * x. Proof. intros [] x; cbn; ring. Qed.
Lemma area_plus : forall h w q P Q T, (forall k j, (k < h)%nat -> (j < w)%nat -> ind (P k j) + ind (Q k j) = ind (T k j)) ->
  area_of h w q P + area_of h w q Q = area_of h w q T.
Proof.
  intros h w q P Q T H. unfold area_of. rewrite <- (bsum_plus RT). apply bsum_ext. intros k Hk. rewrite <- (bsum_plus RT). apply bsum_ext. intros j Hj.
  rewrite !ind_if, <- (H k j Hk Hj). ring.
Qed.
Lemma area_nonneg : forall h w q P, (forall k j, (k < h)%nat -> (j < w)%nat -> 0 <= val q [k; j]) -> 0 <= area_of h w q P.
Proof. intros. unfold area_of. apply rsum_nonneg. intros. apply rsum_nonneg. intros. destruct (P i i0). auto. lra. Qed.
Lemma area_le : forall h w q P Q, (forall k j, (k < h)%nat -> (j < w)%nat -> 0 <= val q [k; j]) ->
  (forall k j, (k < h)%nat -> (j < w)%nat -> P k j = true -> Q k j = true) -> area_of h w q P <= area_of h w q Q.
Proof.
  intros h w q P Q HQ H. unfold area_of. apply rsum_le. intros k Hk. apply rsum_le. intros j Hj. specialize (H k j Hk Hj). specialize (HQ k j Hk Hj).
  destruct (P k j); [rewrite H by auto; apply Rle_refl|destruct (Q k j); cbv iota; lra].
Qed.
Lemma area_pos : forall h w q P k j, (forall k j, (k < h)%nat -> (j < w)%nat -> 0 <= val q [k; j]) -> (k < h)%nat -> (j < w)%nat -> P k j = true -> 0 < val q [k; j] ->
  0 < area_of h w q P.
Proof.
  intros h w q P k j HQ Hk Hj HP Pos. destruct (Rle_lt_or_eq_dec 0 (area_of h w q P)) as [L|E]; auto. now apply area_nonneg. exfalso.
  assert (NN : forall k j, (k < h)%nat -> (j < w)%nat -> 0 <= (if P k j then val q [k; j] else 0)). { intros a b Ha Hb. specialize (HQ a b Ha Hb). destruct (P a b); lra. }
  symmetry in E. unfold area_of in E.
  assert (A : rsum w (fun j => if P k j then val q [k; j] else 0) = 0).
  { apply (rsum_zero_iff h (fun k => rsum w (fun j => if P k j then val q [k; j] else 0))); auto. intros. apply rsum_nonneg; auto. }
  assert (B : (if P k j then val q [k; j] else 0) = 0). { apply (rsum_zero_iff w (fun j => if P k j then val q [k; j] else 0)); auto. }
  rewrite HP in B. lra.
Qed.
Lemma area_false : forall h w q P, (forall k j, (k < h)%nat -> (j < w)%nat -> P k j = false) -> area_of h w q P = 0.
Proof.
  intros. unfold area_of. apply (bsum_zero' RT). intros. apply (bsum_zero' RT). intros. now rewrite H.
Qed.
(** the classes partition the pixels *)
Lemma area_classes : forall h w q P n (l : nat -> nat -> Z), (forall k j, (k < h)%nat -> (j < w)%nat -> P k j = true -> exists c, (c < n)%nat /\ l k j = Z.of_nat c) ->
  rsum n (fun c => area_of h w q (fun k j => P k j && (l k j =? Z.of_nat c)%Z)) = area_of h w q P.
Proof.
  intros h w q P n l H. unfold area_of. rewrite (bsum_swap RT). apply bsum_ext. intros k Hk. rewrite (bsum_swap RT). apply bsum_ext. intros j Hj.
  destruct (P k j) eqn:E; cbn [andb].
  - destruct (H k j Hk Hj E) as (c & Hc & L). rewrite (bsum_ext n _ (fun d => if (d =? c)%nat then val q [k; j] else 0)).
    { rewrite (bsum_delta_f RT n c (fun _ => val q [k; j])) || rewrite (bsum_delta RT). reflexivity. all: auto. }
    intros d Hd. rewrite L. destruct (Nat.eqb_spec d c) as [->|N]. now rewrite Z.eqb_refl. destruct (Z.eqb_spec (Z.of_nat c) (Z.of_nat d)); auto; lia.
  - apply (bsum_zero' RT). auto.
Qed.
Lemma filter_sum : forall h w F p, rlsum F (filter p (indices [h; w])) = rsum h (fun k => rsum w (fun j => if p [k; j] then F [k; j] else 0)).
Proof.
  intros h w F p. transitivity (rlsum (fun i => if p i then F i else 0) (indices [h; w])).
  - induction (indices [h; w]) as [|a l IH]; auto. cbn [filter]. destruct (p a) eqn:E; unfold lsum_ in *; cbn [fold_right] in *; rewrite ?E, ?IH; ring.
  - rewrite total_indices. reflexivity.
Qed.

(** ** Predicted classes *)
Lemma argmax_best : forall n x, (1 <= n)%nat -> best_class n x (argmax n x).
Proof.
  induction n as [|n IH]; intros x Hn. lia. cbn [argmax]. destruct (Nat.eq_dec n 0) as [->|N].
  { cbn [argmax]. destruct (Rlt_dec (x 0%nat) (x 0%nat)); split; auto; split; intros c Hc; try lia; replace c with 0%nat by lia; lra. }
  destruct (IH x ltac:(lia)) as (L & M & F). destruct (Rlt_dec (x (argmax n x)) (x n)) as [lt|ge].
  - split; auto. split; intros c Hc. destruct (Nat.eq_dec c n) as [->|]. lra. specialize (M c ltac:(lia)). lra. specialize (M c Hc). lra.
  - split; [lia|]. split; auto. intros c Hc. destruct (Nat.eq_dec c n) as [->|]. lra. apply M. lia.
Qed.
Lemma best_unique : forall n x p p', best_class n x p -> best_class n x p' -> p = p'.
Proof.
  intros n x p p' (L & M & F) (L' & M' & F'). destruct (lt_eq_lt_dec p p') as [[A|A]|A]; auto.
  specialize (F' p A). specialize (M p' L'). lra. specialize (F p' A). specialize (M' p L). lra.
Qed.
Lemma softmax_pos : forall n x, (1 <= n)%nat -> 0 < rsum n (fun d => exp (x d)).
Proof.
  intros n x Hn. destruct n; [lia|]. cbn [bsum_]. assert (0 <= rsum n (fun d => exp (x d))) by (apply rsum_nonneg; intros; left; apply exp_pos). pose proof (exp_pos (x n)). lra.
Qed.
Lemma softmax_lt : forall n x a b, (1 <= n)%nat -> (softmax n x a < softmax n x b <-> x a < x b).
Proof.
  intros n x a b Hn. unfold softmax. assert (P := softmax_pos n x Hn). split; intros H.
  - apply exp_lt_inv. apply Rmult_lt_reg_r with (/ rsum n (fun d => exp (x d))). now apply Rinv_0_lt_compat. exact H.
  - apply Rmult_lt_compat_r. now apply Rinv_0_lt_compat. now apply exp_increasing.
Qed.
Lemma softmax_best : forall n x p, (1 <= n)%nat -> best_class n (softmax n x) p -> best_class n x p.
Proof.
  intros n x p Hn (L & M & F). split; auto. split; intros c Hc.
  - apply Rnot_lt_le. intros A. apply (softmax_lt n x p c Hn) in A. specialize (M c Hc). lra.
  - apply (softmax_lt n x c p Hn). now apply F.
Qed.
Lemma predict_value : forall x b n h w, shp x = [b; n; h; w] -> (1 <= n)%nat ->
  exists o, predict_classes x = Some o /\ shp o = [b; h; w] /\
  forall i k j, exists p, val o [i; k; j] = Z.of_nat p /\ best_class n (fun c => val x [i; c; k; j]) p.
Proof.
  intros x b n h w S Hn. unfold predict_classes. rewrite S. destruct (Nat.eqb_spec n 0); [lia|]. eexists. split. reflexivity. split. reflexivity.
  intros i k j. cbn [val nth]. eexists. split. reflexivity. apply softmax_best; auto. apply (argmax_best n (softmax n (fun c => val x [i; c; k; j]))); auto.
Qed.

(** ** The four counts *)
Definition slab (o : tensor Z) (i k j : nat) : Z := val o [i; k; j].
Lemma stats_value : forall o t q ig b h w, shp o = [b; h; w] -> shp t = [b; h; w] -> shp q = [h; w] ->
  exists s, get_stats_multiclass o t q ig = Some s /\
  forall i c, tp s i c = both h w q ig (slab o i) (slab t i) (Z.of_nat c) /\ fp s i c = only_pred h w q ig (slab o i) (slab t i) (Z.of_nat c) /\
    fn s i c = only_true h w q ig (slab o i) (slab t i) (Z.of_nat c) /\
    tn s i c = neither h w q ig (slab o i) (slab t i) (Z.of_nat c) + ignored h w q ig (slab t i).
Proof.
  intros o t q ig b h w So St Sq. unfold get_stats_multiclass. rewrite So, St, Sq. unfold shape_eqb. destruct (list_eq_dec Nat.eq_dec [b; h; w] [b; h; w]) as [_|N]; [|congruence].
  destruct (list_eq_dec Nat.eq_dec [h; w] [h; w]) as [_|N]; [|congruence]. cbn [andb guard bindo].
  eexists. split. reflexivity. intros i c. cbn [tp fp fn tn].
  set (gen := fun (m : Z -> Z -> R) (f : Z -> Z -> bool) => rsum h (fun k => rsum w (fun j =>
     let a := match ig with None => false | Some z => (val t [i; k; j] =? z)%Z end in
     let oo := if a then (-1)%Z else val o [i; k; j] in let tt := if a then (-1)%Z else val t [i; k; j] in
     if f oo tt then m oo tt * val q [k; j] else 0))).
  assert (TP : gen (fun oo tt => if (tt =? oo)%Z then 1 else 0) (fun oo tt => (tt =? Z.of_nat c)%Z) = both h w q ig (slab o i) (slab t i) (Z.of_nat c)).
  { unfold gen, both, area_of. apply bsum_ext. intros k _. apply bsum_ext. intros j _. unfold slab, counts. cbn zeta.
    set (a := match ig with None => false | Some z => (val t [i; k; j] =? z)%Z end).
    replace (match ig with None => true | Some z => negb (val t [i; k; j] =? z)%Z end) with (negb a) by (unfold a; destruct ig; reflexivity).
    destruct a; cbn [negb andb]. destruct (Z.eqb_spec (-1) (Z.of_nat c)); [lia|reflexivity].
    destruct (Z.eqb_spec (val t [i; k; j]) (Z.of_nat c)) as [E|E]; cbn [andb]; auto. rewrite E. rewrite Z.eqb_sym. destruct (val o [i; k; j] =? Z.of_nat c)%Z; ring. }
  assert (FP : gen (fun oo tt => if (tt =? oo)%Z then 0 else 1) (fun oo tt => (oo =? Z.of_nat c)%Z) = only_pred h w q ig (slab o i) (slab t i) (Z.of_nat c)).
  { unfold gen, only_pred, area_of. apply bsum_ext. intros k _. apply bsum_ext. intros j _. unfold slab, counts. cbn zeta.
    set (a := match ig with None => false | Some z => (val t [i; k; j] =? z)%Z end).
    replace (match ig with None => true | Some z => negb (val t [i; k; j] =? z)%Z end) with (negb a) by (unfold a; destruct ig; reflexivity).
    destruct a; cbn [negb andb]. destruct (Z.eqb_spec (-1) (Z.of_nat c)); [lia|reflexivity].
    destruct (Z.eqb_spec (val o [i; k; j]) (Z.of_nat c)) as [E|E]; rewrite ?andb_true_r, ?andb_false_r; auto. rewrite E. destruct (val t [i; k; j] =? Z.of_nat c)%Z; cbn [negb]; ring. }
  assert (FN : gen (fun oo tt => if (tt =? oo)%Z then 0 else 1) (fun oo tt => (tt =? Z.of_nat c)%Z) = only_true h w q ig (slab o i) (slab t i) (Z.of_nat c)).
  { unfold gen, only_true, area_of. apply bsum_ext. intros k _. apply bsum_ext. intros j _. unfold slab, counts. cbn zeta.
    set (a := match ig with None => false | Some z => (val t [i; k; j] =? z)%Z end).
    replace (match ig with None => true | Some z => negb (val t [i; k; j] =? z)%Z end) with (negb a) by (unfold a; destruct ig; reflexivity).
    destruct a; cbn [negb andb]. destruct (Z.eqb_spec (-1) (Z.of_nat c)); [lia|reflexivity].
    destruct (Z.eqb_spec (val t [i; k; j]) (Z.of_nat c)) as [E|E]; cbn [andb]; auto. rewrite E. rewrite Z.eqb_sym. destruct (val o [i; k; j] =? Z.of_nat c)%Z; cbn [negb]; ring. }
  rewrite total_indices. rewrite !filter_sum.
  fold (gen (fun oo tt => if (tt =? oo)%Z then 1 else 0) (fun oo tt => (tt =? Z.of_nat c)%Z)).
  fold (gen (fun oo tt => if (tt =? oo)%Z then 0 else 1) (fun oo tt => (oo =? Z.of_nat c)%Z)).
  fold (gen (fun oo tt => if (tt =? oo)%Z then 0 else 1) (fun oo tt => (tt =? Z.of_nat c)%Z)).
  rewrite TP, FP, FN. repeat split.
  assert (P1 : both h w q ig (slab o i) (slab t i) (Z.of_nat c) + only_true h w q ig (slab o i) (slab t i) (Z.of_nat c) = area_of h w q (fun k j => counts ig (slab t i k j) && (slab t i k j =? Z.of_nat c)%Z)).
  { apply area_plus. intros. destruct (counts _ _), (slab t i k j =? _)%Z, (slab o i k j =? _)%Z; cbn; ring. }
  assert (P2 : only_pred h w q ig (slab o i) (slab t i) (Z.of_nat c) + neither h w q ig (slab o i) (slab t i) (Z.of_nat c) = area_of h w q (fun k j => counts ig (slab t i k j) && negb (slab t i k j =? Z.of_nat c)%Z)).
  { apply area_plus. intros. destruct (counts _ _), (slab t i k j =? _)%Z, (slab o i k j =? _)%Z; cbn; ring. }
  assert (P3 : area_of h w q (fun k j => counts ig (slab t i k j) && (slab t i k j =? Z.of_nat c)%Z) + area_of h w q (fun k j => counts ig (slab t i k j) && negb (slab t i k j =? Z.of_nat c)%Z) = area_of h w q (fun k j => counts ig (slab t i k j))).
  { apply area_plus. intros. destruct (counts _ _), (slab t i k j =? _)%Z; cbn; ring. }
  assert (P4 : area_of h w q (fun k j => counts ig (slab t i k j)) + ignored h w q ig (slab t i) = whole h w q).
  { apply area_plus. intros. destruct (counts _ _); cbn; ring. }
  cbn [total]. change (rsum h (fun k => rsum w (fun k0 => val q [k; k0]))) with (whole h w q). lra.
Qed.
Lemma four_areas : forall h w q ig O T c, both h w q ig O T c + only_pred h w q ig O T c + only_true h w q ig O T c + (neither h w q ig O T c + ignored h w q ig T) = whole h w q.
Proof.
  intros h w q ig O T c.
  assert (P1 : both h w q ig O T c + only_true h w q ig O T c = area_of h w q (fun k j => counts ig (T k j) && (T k j =? c)%Z)).
  { apply area_plus. intros. destruct (counts _ _), (T k j =? _)%Z, (O k j =? _)%Z; cbn; ring. }
  assert (P2 : only_pred h w q ig O T c + neither h w q ig O T c = area_of h w q (fun k j => counts ig (T k j) && negb (T k j =? c)%Z)).
  { apply area_plus. intros. destruct (counts _ _), (T k j =? _)%Z, (O k j =? _)%Z; cbn; ring. }
  assert (P3 : area_of h w q (fun k j => counts ig (T k j) && (T k j =? c)%Z) + area_of h w q (fun k j => counts ig (T k j) && negb (T k j =? c)%Z) = area_of h w q (fun k j => counts ig (T k j))).
  { apply area_plus. intros. destruct (counts _ _), (T k j =? _)%Z; cbn; ring. }
  assert (P4 : area_of h w q (fun k j => counts ig (T k j)) + ignored h w q ig T = whole h w q).
  { apply area_plus. intros. destruct (counts _ _); cbn; ring. }
  lra.
Qed.
