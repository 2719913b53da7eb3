(** The copying LRU cache is transparent. *)
From Coq Require Import String List Arith Lia Bool ZArith.
From Verif Require Import CacheModel CacheSpec.
Import ListNotations.
Local Open Scope list_scope.
Local Open Scope nat_scope.

(** ** Views *)
Definition closed_in (S : nat -> Prop) (h : heap) : Prop :=
  forall a, S a -> exists o, nth_error h a = Some o /\ forall b, In (Ref b) (cells o) -> S b.
Definition in_set (S : nat -> Prop) (c : cell) : Prop := match c with At _ => True | Ref a => S a end.
Lemma view_agree : forall (S : nat -> Prop) h h', closed_in S h -> (forall a, S a -> nth_error h' a = nth_error h a) ->
  forall n v, in_set S v -> view n h' v = view n h v.
Proof.
  intros S h h' HC HA. induction n as [|n IH]; intros [z|a] Hv; cbn [view]; auto. rewrite (HA a Hv). destruct (HC a Hv) as (o & E & Ho). rewrite E. f_equal.
  apply map_ext_in. intros c Hc. apply IH. destruct c as [z|b]; cbn [in_set]; auto.
Qed.
Lemma closed_agree : forall (S : nat -> Prop) h h', closed_in S h -> (forall a, S a -> nth_error h' a = nth_error h a) -> closed_in S h'.
Proof. intros S h h' HC HA a Ha. destruct (HC a Ha) as (o & E & Ho). exists o. rewrite HA by auto. auto. Qed.
(** two heaps related by a renaming *)
Lemma view_rename : forall (S : nat -> Prop) (r : cell -> cell) h h', (forall z, r (At z) = At z) ->
  (forall a, S a -> exists o, nth_error h a = Some o /\ (forall b, In (Ref b) (cells o) -> S b) /\
     exists b, r (Ref a) = Ref b /\ nth_error h' b = Some (map_obj r o)) ->
  forall n v, in_set S v -> view n h' (r v) = view n h v.
Proof.
  intros S r h h' Hz HS. induction n as [|n IH]; intros [z|a] Hv.
  - rewrite Hz. reflexivity.
  - destruct (HS a Hv) as (o & _ & _ & b & -> & _). reflexivity.
  - rewrite Hz. reflexivity.
  - destruct (HS a Hv) as (o & E & Hc & b & -> & E'). cbn [view]. rewrite E, E'. cbn [map_obj mutable cells]. f_equal. rewrite map_map. apply map_ext_in.
    intros c Hc'. apply IH. destruct c; cbn [in_set]; auto.
Qed.

(** ** Installing a result *)
Lemma install_ok : forall h g h' v, graph_ok g -> install h g = (h', v) ->
  length h <= length h' /\ (forall a, a < length h -> nth_error h' a = nth_error h a) /\
  closed_in (fun a => length h <= a < length h') h' /\ in_set (fun a => length h <= a < length h') v /\ same_value h' v (g_objs g) (g_root g).
Proof.
  intros h g h' v (G1 & G2) E. unfold install in E. injection E as <- <-.
  assert (EN : forall a, nth_error (h ++ map (map_obj (shift (length h))) (g_objs g)) (length h + a) = option_map (map_obj (shift (length h))) (nth_error (g_objs g) a)).
  { intros a. rewrite nth_error_app2 by lia. replace (length h + a - length h) with a by lia. apply nth_error_map. }
  rewrite app_length, map_length. split; [lia|]. split; [intros; apply nth_error_app1; auto|]. split; [|split].
  - intros a (L1 & L2). replace a with (length h + (a - length h)) by lia. rewrite EN. destruct (nth_error (g_objs g) (a - length h)) as [o|] eqn:Eo.
    + cbn [option_map]. eexists. split; [reflexivity|]. cbn [map_obj cells]. intros b Hb. apply in_map_iff in Hb. destruct Hb as ([z|c] & Eb & Hc); cbn [shift] in Eb; [discriminate|]. injection Eb as <-.
      apply nth_error_In in Eo. specialize (G1 _ _ Eo Hc). lia.
    + apply nth_error_None in Eo. lia.
  - destruct (g_root g) as [z|a] eqn:Er; cbn; auto. specialize (G2 a eq_refl). lia.
  - intros n. apply (view_rename (fun a => a < length (g_objs g)) (shift (length h))).
    + reflexivity.
    + intros a Ha. destruct (nth_error (g_objs g) a) as [o|] eqn:Eo; [|apply nth_error_None in Eo; lia]. exists o. split; [reflexivity|]. split; [intros b Hb; apply nth_error_In in Eo; eauto|].
      exists (length h + a). split; [reflexivity|]. rewrite EN, Eo. reflexivity.
    + destruct (g_root g) as [z|a] eqn:Er; cbn; auto.
Qed.

(** ** Deep copies *)
Lemma memb_iff : forall a l, memb a l = true <-> In a l.
Proof. intros a l. unfold memb. rewrite existsb_exists. split; [intros (x & H & E); apply Nat.eqb_eq in E; subst; auto|intros H; exists a; split; auto; apply Nat.eqb_refl]. Qed.
Lemma add_new_in : forall l a x, In x (add_new l a) <-> In x l \/ x = a.
Proof.
  intros l a x. unfold add_new. destruct (memb a l) eqn:E.
  - apply memb_iff in E. split; [auto|]. intros [H | ->]; auto.
  - rewrite in_app_iff. cbn [In]. intuition.
Qed.
Lemma add_new_nodup : forall l a, NoDup l -> NoDup (add_new l a).
Proof.
  intros l a H. unfold add_new. destruct (memb a l) eqn:E; auto. assert (~ In a l) by (intros Hi; apply memb_iff in Hi; congruence).
  clear E. induction l as [|x l IH]; cbn [app]; [constructor; [intros []|constructor]|]. inversion H; subst. constructor.
  - rewrite in_app_iff. cbn [In]. intros [Q|[Q|[]]]; [auto|]. subst. apply H0. left. reflexivity.
  - apply IH; auto. intros Q. apply H0. right. exact Q.
Qed.
Lemma fold_new : forall m l, NoDup l -> let r := fold_left add_new m l in NoDup r /\ (forall x, In x r <-> In x l \/ In x m) /\ exists t, r = l ++ t.
Proof.
  induction m as [|a m IH]; intros l HN r; subst r; cbn [fold_left].
  - split; auto. split; [cbn [In]; tauto|exists []; rewrite app_nil_r; auto].
  - destruct (IH (add_new l a) (add_new_nodup l a HN)) as (I1 & I2 & t & I3). split; [exact I1|]. split.
    + intros x. rewrite I2, add_new_in. cbn [In]. intuition.
    + unfold add_new in *. destruct (memb a l); [exists t; exact I3|]. exists ([a] ++ t). rewrite I3, <- app_assoc. reflexivity.
Qed.
Lemma expand_facts : forall h l, NoDup l -> NoDup (expand h l) /\ (forall x, In x (expand h l) <-> In x l \/ exists a, In a l /\ In x (refs_at h a)) /\ exists t, expand h l = l ++ t.
Proof.
  intros h l HN. unfold expand. destruct (fold_new (flat_map (refs_at h) l) l HN) as (I1 & I2 & I3). split; auto. split; auto.
  intros x. rewrite I2, in_flat_map. reflexivity.
Qed.
Lemma expand_len : forall h l, NoDup l -> length l < length (expand h l) \/ expand h l = l.
Proof.
  intros h l HN. destruct (expand_facts h l HN) as (_ & _ & t & E). rewrite E. destruct t as [|x t]; [right; apply app_nil_r|left; rewrite app_length; cbn; lia].
Qed.
Lemma iter_expand : forall h a n, let r := Nat.iter n (expand h) [a] in NoDup r /\ In a r /\ (n < length r \/ expand h r = r).
Proof.
  intros h a. induction n as [|n (I1 & I2 & I3)]; cbn [Nat.iter nat_rect].
  - split; [constructor; [intros []|constructor]|]. split; [left; auto|left; cbn; lia].
  - set (r := Nat.iter n (expand h) [a]) in *. change (nat_rect _ _ _ n) with r. destruct (expand_facts h r I1) as (F1 & F2 & F3). split; [exact F1|]. split; [apply F2; auto|].
    destruct I3 as [I3|I3].
    + destruct (expand_len h (expand h r) F1) as [G|G]; [|right; exact G]. destruct (expand_len h r I1) as [G'|G']; [left; lia|]. right. rewrite G', G'. reflexivity.
    + right. rewrite I3, I3. reflexivity.
Qed.
Lemma iter_bound : forall h (S : nat -> Prop) a n, closed_in S h -> S a -> forall x, In x (Nat.iter n (expand h) [a]) -> S x.
Proof.
  intros h S a n HC Ha. induction n as [|n IH]; cbn [Nat.iter nat_rect].
  - intros x [<-|[]]. exact Ha.
  - intros x Hx. destruct (iter_expand h a n) as (N & _). apply (proj1 (proj2 (expand_facts h _ N))) in Hx. destruct Hx as [Hx|(b & Hb & Hx)]; [auto|].
    specialize (IH b Hb). destruct (HC b IH) as (o & E & Ho). unfold refs_at in Hx. rewrite E in Hx. unfold refs in Hx. apply in_flat_map in Hx.
    destruct Hx as ([z|c] & Hc & Hx); [destruct Hx|]. destruct Hx as [<-|[]]. auto.
Qed.
Lemma bounded_nodup : forall n l, NoDup l -> (forall x, In x l -> x < n) -> length l <= n.
Proof. intros n l HN HB. rewrite <- (seq_length n 0). apply NoDup_incl_length; auto. intros x Hx. apply in_seq. specialize (HB x Hx). lia. Qed.
Lemma reach_facts : forall h (S : nat -> Prop) a, closed_in S h -> S a -> let R := reach h a in
  NoDup R /\ In a R /\ (forall x, In x R -> S x) /\ forall x o b, In x R -> nth_error h x = Some o -> In (Ref b) (cells o) -> In b R.
Proof.
  intros h S a HC Ha R. destruct (iter_expand h a (length h)) as (I1 & I2 & I3). fold (reach h a) in I1, I2, I3. fold R in I1, I2, I3.
  assert (HB : forall x, In x R -> S x) by (apply iter_bound; auto).
  assert (HL : length R <= length h). { apply bounded_nodup; auto. intros x Hx. destruct (HC x (HB x Hx)) as (o & E & _). apply nth_error_Some. congruence. }
  destruct I3 as [I3|I3]; [lia|]. split; auto. split; auto. split; auto. intros x o b Hx E Hb.
  rewrite <- I3. apply (proj1 (proj2 (expand_facts h R I1))). right. exists x. split; auto. unfold refs_at. rewrite E. unfold refs. apply in_flat_map. exists (Ref b). split; auto. left. reflexivity.
Qed.
Lemma pos_lt : forall a l, In a l -> pos a l < length l.
Proof. induction l as [|x l IH]; intros H; [destruct H|]. cbn [pos length]. destruct (Nat.eqb_spec x a); [lia|]. destruct H; [contradiction|]. apply IH in H. lia. Qed.
Lemma pos_nth : forall a l, In a l -> nth_error l (pos a l) = Some a.
Proof. induction l as [|x l IH]; intros H; [destruct H|]. cbn [pos]. destruct (Nat.eqb_spec x a); [subst; reflexivity|]. destruct H; [contradiction|]. cbn [nth_error]. auto. Qed.
Lemma deepcopy_ok : forall h (S : nat -> Prop) v h' v', closed_in S h -> in_set S v -> deepcopy h v = (h', v') ->
  length h <= length h' /\ (forall a, a < length h -> nth_error h' a = nth_error h a) /\
  closed_in (fun a => length h <= a < length h') h' /\ in_set (fun a => length h <= a < length h') v' /\ same_value h' v' h v.
Proof.
  intros h S v h' v' HC Hv E. destruct v as [z|a]; cbn [deepcopy] in E.
  { injection E as <- <-. split; [lia|]. split; auto. split; [intros x Hx; lia|]. split; [exact I|intros n; destruct n; reflexivity]. }
  cbn [in_set] in Hv. destruct (reach_facts h S a HC Hv) as (N & Ia & HB & HR). set (R := reach h a) in *. injection E as <- <-.
  assert (EN : forall x, In x R -> exists o, nth_error h x = Some o /\ nth_error (h ++ map (fun x => match nth_error h x with Some o => map_obj (relocate (length h) R) o | None => mkO false [] end) R)
     (length h + pos x R) = Some (map_obj (relocate (length h) R) o)).
  { intros x Hx. destruct (HC x (HB x Hx)) as (o & E & _). exists o. split; [exact E|]. rewrite nth_error_app2 by lia. replace (length h + pos x R - length h) with (pos x R) by lia.
    rewrite nth_error_map, (pos_nth x R Hx). cbn [option_map]. rewrite E. reflexivity. }
  rewrite app_length, map_length. split; [lia|]. split; [intros; apply nth_error_app1; auto|]. split; [|split].
  - intros x (L1 & L2). destruct (nth_error R (x - length h)) as [y|] eqn:Ey; [|apply nth_error_None in Ey; lia].
    assert (Hy : In y R) by (eapply nth_error_In; eauto). destruct (HC y (HB y Hy)) as (o & E & _).
    exists (map_obj (relocate (length h) R) o). split.
    + rewrite nth_error_app2 by lia. rewrite nth_error_map, Ey. cbn [option_map]. rewrite E. reflexivity.
    + cbn [map_obj cells]. intros b Hb. apply in_map_iff in Hb. destruct Hb as ([z|c] & Eb & Hc); cbn [relocate] in Eb; [discriminate|]. injection Eb as <-. pose proof (pos_lt c R (HR y o c Hy E Hc)). lia.
  - cbn [relocate in_set]. pose proof (pos_lt a R Ia). lia.
  - intros n. change (Ref (length h + pos a R)) with (relocate (length h) R (Ref a)).
    apply (view_rename (fun x => In x R) (relocate (length h) R)); [reflexivity| |exact Ia].
    intros x Hx. destruct (EN x Hx) as (o & E1 & E2). exists o. split; [exact E1|]. split; [intros b Hb; eauto|]. exists (length h + pos x R). split; [reflexivity|exact E2].
Qed.

(** ** Keys *)
Lemma numty_eqb_iff : forall a b, numty_eqb a b = true <-> a = b.
Proof. intros [] []; cbn; split; congruence. Qed.
Lemma ty_eqb_iff : forall a b, ty_eqb a b = true <-> a = b.
Proof. intros [] []; cbn; rewrite ?numty_eqb_iff; split; congruence. Qed.
Lemma list_eqb_in : forall A (eqb : A -> A -> bool) l m, (forall x y, In x l -> (eqb x y = true <-> x = y)) -> (list_eqb eqb l m = true <-> l = m).
Proof.
  intros A eqb. induction l as [|x l IH]; intros [|y m] H; cbn [list_eqb]; try (split; congruence).
  rewrite andb_true_iff, H by (left; auto). rewrite IH by (intros; apply H; right; auto). split; [intros (-> & ->); auto|intros E; injection E; auto].
Qed.
Fixpoint arg_size (a : arg) : nat := match a with PTuple l => S (fold_right (fun x s => arg_size x + s) 0 l) | _ => 0 end.
Lemma arg_size_in : forall l x, In x l -> arg_size x <= fold_right (fun x s => arg_size x + s) 0 l.
Proof. induction l as [|y l IH]; intros x []; cbn [fold_right]; [subst; lia|]. specialize (IH x H). lia. Qed.
Lemma arg_eqb_iff : forall a b, arg_eqb a b = true <-> a = b.
Proof.
  assert (G : forall n a b, arg_size a <= n -> (arg_eqb a b = true <-> a = b)).
  { induction n as [|n IH]; intros a b Hn.
    - destruct a, b; cbn in Hn |- *; try lia; rewrite ?andb_true_iff, ?numty_eqb_iff, ?Z.eqb_eq, ?String.eqb_eq, ?Nat.eqb_eq; try (split; congruence).
      split; [intros (-> & ->); auto|intros E; injection E; auto].
    - destruct a as [t z|s| |l|x|], b as [t' z'|s'| |l'|x'|]; cbn [arg_eqb]; rewrite ?andb_true_iff, ?numty_eqb_iff, ?Z.eqb_eq, ?String.eqb_eq, ?Nat.eqb_eq; try (split; congruence).
      + split; [intros (-> & ->); auto|intros E; injection E; auto].
      + rewrite list_eqb_in; [split; congruence|]. intros x y Hx. apply IH. cbn [arg_size] in Hn. pose proof (arg_size_in l x Hx). lia. }
  intros a b. apply (G (arg_size a)). lia.
Qed.
Lemma key_eqb_iff : forall k l, key_eqb k l = true <-> k = l.
Proof.
  intros [a|p w t] [b|p' w' t']; cbn [key_eqb]; try (split; congruence).
  - rewrite arg_eqb_iff. split; congruence.
  - rewrite !andb_true_iff. rewrite list_eqb_in by (intros; apply arg_eqb_iff). rewrite list_eqb_in.
    2:{ intros [x1 x2] [y1 y2] _. cbn [fst snd]. rewrite andb_true_iff, String.eqb_eq, arg_eqb_iff. split; [intros (-> & ->); auto|intros E; injection E; auto]. }
    assert (T : match t, t' with None, None => true | Some t, Some t' => list_eqb ty_eqb t t' | _, _ => false end = true <-> t = t').
    { destruct t as [t|], t' as [t'|]; try (split; congruence). rewrite list_eqb_in by (intros; apply ty_eqb_iff). split; congruence. }
    rewrite T. split; [intros ((-> & ->) & ->); auto|intros E; injection E; auto].
Qed.
Lemma key_eqb_refl : forall k, key_eqb k k = true. Proof. intros; apply key_eqb_iff; auto. Qed.
Lemma lookup_in : forall k c v, lookup k c = Some v -> In (k, v) c.
Proof.
  intros k c v H. unfold lookup in H. destruct (find _ c) as [[k' v']|] eqn:E; [|discriminate]. injection H as <-. cbn [snd]. apply find_some in E. destruct E as (E1 & E2).
  cbn [fst] in E2. apply key_eqb_iff in E2. subst. exact E1.
Qed.
Lemma lookup_none : forall k c, lookup k c = None <-> ~ In k (map fst c).
Proof.
  intros k c. unfold lookup. split.
  - intros H Hi. apply in_map_iff in Hi. destruct Hi as ((k', v) & E & Hi). cbn [fst] in E. subst k'. destruct (find _ c) as [e|] eqn:Ef; [discriminate|].
    apply (find_none _ _ Ef) in Hi. cbn [fst] in Hi. rewrite key_eqb_refl in Hi. discriminate.
  - intros H. destruct (find _ c) as [[k' v]|] eqn:Ef; auto. exfalso. apply H. apply find_some in Ef. destruct Ef as (E1 & E2). cbn [fst] in E2. apply key_eqb_iff in E2. subst. apply in_map_iff. exists (k', v). auto.
Qed.
Lemma drop_in : forall k c e, In e (drop_key k c) -> In e c.
Proof. intros k c e H. apply filter_In in H. tauto. Qed.
