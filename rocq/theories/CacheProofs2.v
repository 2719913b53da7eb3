(** Histories of calls and mutations. *)
From Coq Require Import String List Arith Lia Bool ZArith.
From Verif Require Import CacheModel CacheSpec CacheProofs.
Import ListNotations.
Local Open Scope list_scope.
Local Open Scope nat_scope.

Lemma later_refl : forall W h, later W h h. Proof. intros W h a o _ H. exact H. Qed.
Lemma later_trans : forall W a b c, later W a b -> later W b c -> later W a c.
Proof. intros W a b c H1 H2 x o Hx E. auto. Qed.
Lemma later_grow : forall W h h', (forall a, a < length h -> nth_error h' a = nth_error h a) -> later W h h'.
Proof. intros W h h' H a o _ E. rewrite H; auto. apply nth_error_Some. congruence. Qed.
Lemma nth_replace_ne : forall h a o b, a < length h -> b <> a -> nth_error (replace h a o) b = nth_error h b.
Proof.
  intros h a o b Ha Hb. unfold replace. destruct (Nat.lt_ge_cases b a).
  - rewrite nth_error_app1 by (rewrite firstn_length; lia). revert a b Ha Hb H. induction h as [|x h IH]; intros [|a] [|b] Ha Hb H; cbn [firstn nth_error length] in *; try lia; auto. apply IH; lia.
  - rewrite nth_error_app2 by (rewrite firstn_length; lia). rewrite firstn_length, Nat.min_l by lia. destruct (b - a) as [|k] eqn:Ek; [lia|]. cbn [nth_error].
    replace b with (S a + k) by lia. clear. generalize (S a). intros n. revert n. induction h as [|x h IH]; intros [|n]; cbn [skipn plus nth_error]; auto. destruct k; auto.
Qed.
Lemma nth_replace_eq : forall h a o, a < length h -> nth_error (replace h a o) a = Some o.
Proof. intros h a o Ha. unfold replace. rewrite nth_error_app2 by (rewrite firstn_length; lia). rewrite firstn_length, Nat.min_l, Nat.sub_diag by lia. reflexivity. Qed.
Lemma later_write : forall (W : nat -> Prop) h a o, a < length h -> W a -> later W h (replace h a o).
Proof. intros W h a o Ha HW b x Hb E. rewrite nth_replace_ne; auto. intros ->. contradiction. Qed.
Lemma reachable_closed : forall (S : nat -> Prop) h known, closed_in S h -> (forall c, In c known -> in_set S c) -> forall a, reachable h known a -> S a.
Proof.
  intros S h known HC HK a H. induction H as [a Ha|a o b H IH E Hb]; [exact (HK _ Ha)|]. destruct (HC a IH) as (o' & E' & Ho). rewrite E in E'. injection E' as <-. auto.
Qed.
Lemma usable_closed : forall (S : nat -> Prop) h known c, closed_in S h -> (forall c, In c known -> in_set S c) -> usable h known c -> in_set S c.
Proof. intros S h known [z|a] HC HK H; cbn in *; auto. eapply reachable_closed; eauto. Qed.
Lemma in_removelast : forall A (l : list A) x, In x (removelast l) -> In x l.
Proof. induction l as [|a [|b l] IH]; intros x H; [destruct H|destruct H|]. cbn [removelast] in H. destruct H as [H|H]; [left; auto|right; apply IH; exact H]. Qed.

Section Cached.
Variables (f : func) (maxsize : option nat) (typed : bool) (D : list arg -> list (string * arg) -> Prop) (W : nat -> Prop).
Hypothesis HF : forall h a kw g, f h a kw = Some g -> graph_ok g.

Definition live (h : heap) (args : list arg) (kw : list (string * arg)) : Prop := forall a, In a (mentions args kw) -> a < length h.
(** a value computed by an earlier call with key [k] *)
Definition from_call (h : heap) (v : cell) (same : list arg -> list (string * arg) -> Prop) : Prop :=
  exists h0 a0 kw0 g, (D a0 kw0 /\ live h0 a0 kw0) /\ same a0 kw0 /\ later W h0 h /\ f h0 a0 kw0 = Some g /\ same_value h v (g_objs g) (g_root g).
Definition entries (S : nat -> Prop) (h : heap) (c : list (key * cell)) : Prop :=
  forall k v, In (k, v) c -> in_set S v /\ from_call h v (fun a kw => make_key typed a kw = Some k).
Lemma entries_later : forall (S S' : nat -> Prop) h h' c, closed_in S h -> (forall a, S a -> nth_error h' a = nth_error h a) -> later W h h' -> (forall a, S a -> S' a) ->
  entries S h c -> entries S' h' c.
Proof.
  intros S S' h h' c HC HA HL HS HE k v Hi. destruct (HE k v Hi) as (Hv & h0 & a0 & kw0 & g & H1 & H2 & H3 & H4 & H5).
  split; [destruct v; cbn in *; auto|]. exists h0, a0, kw0, g. split; [exact H1|]. split; [exact H2|]. split; [eapply later_trans; eauto|]. split; [exact H4|]. intros n. rewrite <- H5. eapply view_agree; eauto.
Qed.

Definition same_call (args : list arg) (kw : list (string * arg)) (h : heap) (h0 : heap) (a0 : list arg) (kw0 : list (string * arg)) : Prop :=
  (h0 = h /\ a0 = args /\ kw0 = kw) \/ exists k, make_key typed a0 kw0 = Some k /\ make_key typed args kw = Some k.
Lemma cached_ok : forall (S : nat -> Prop) h c args kw s' r, closed_in S h -> entries S h c -> D args kw -> live h args kw ->
  cached_func f maxsize typed (mkL h c) args kw = (s', r) ->
  exists S' : nat -> Prop, (forall a, S a -> S' a) /\ (forall a, S' a -> S a \/ length h <= a) /\ closed_in S' (l_heap s') /\ entries S' (l_heap s') (l_cache s') /\
    length h <= length (l_heap s') /\ (forall a, a < length h -> nth_error (l_heap s') a = nth_error h a) /\
    match r with
    | Some v => in_set S' v /\ exists h0 a0 kw0 g, (D a0 kw0 /\ live h0 a0 kw0) /\ same_call args kw h h0 a0 kw0 /\ later W h0 h /\ f h0 a0 kw0 = Some g /\ same_value (l_heap s') v (g_objs g) (g_root g)
    | None => (maxsize <> Some 0 /\ make_key typed args kw = None) \/ f h args kw = None
    end.
Proof.
  intros S h c args kw s' r HC HE HD HLv E. unfold cached_func in E. cbn [l_heap l_cache] in E.
  assert (RUN : forall g h' v, f h args kw = Some g -> install h g = (h', v) ->
     exists S' : nat -> Prop, (forall a, S a -> S' a) /\ (forall a, S' a -> S a \/ length h <= a) /\ closed_in S' h' /\ entries S' h' c /\
       length h <= length h' /\ (forall a, a < length h -> nth_error h' a = nth_error h a) /\ in_set S' v /\ same_value h' v (g_objs g) (g_root g)).
  { intros g h' v Ef Ei. destruct (install_ok h g h' v (HF _ _ _ _ Ef) Ei) as (I1 & I2 & I3 & I4 & I5).
    assert (HS : forall a, S a -> a < length h) by (intros a Ha; destruct (HC a Ha) as (o & Eo & _); apply nth_error_Some; congruence).
    exists (fun a => S a \/ length h <= a < length h'). split; [auto|]. split; [intros a [Q|Q]; auto; right; lia|].
    split; [|split; [|split; [exact I1|split; [exact I2|split; [|exact I5]]]]].
    - intros a [Ha|Ha].
      + destruct (HC a Ha) as (o & Eo & Ho). exists o. rewrite I2 by auto. split; auto.
      + destruct (I3 a Ha) as (o & Eo & Ho). exists o. split; auto.
    - eapply entries_later with (S := S); eauto. apply later_grow. exact I2.
    - destruct v; cbn in *; auto. }
  assert (HIT : exists S' : nat -> Prop, (forall a, S a -> S' a) /\ (forall a, S' a -> S a \/ length h <= a) /\ closed_in S' h /\ entries S' h c /\ length h <= length h /\ (forall a, a < length h -> nth_error h a = nth_error h a)).
  { exists S. split; [auto|]. split; [auto|]. split; [exact HC|]. split; [exact HE|]. split; [lia|auto]. }
  destruct (match maxsize with Some 0 => true | _ => false end) eqn:EM.
  - destruct maxsize as [[|n]|]; try discriminate. destruct (f h args kw) as [g|] eqn:Ef.
    + destruct (install h g) as (h', v) eqn:Ei. injection E as <- <-. destruct (RUN g h' v eq_refl Ei) as (S' & A1 & A2 & A3 & A4 & A5 & A6 & A7 & A8).
      exists S'. do 6 (split; [assumption|]). split; [exact A7|]. exists h, args, kw, g. split; [split; [exact HD|exact HLv]|]. split; [left; auto|]. split; [apply later_refl|]. split; auto.
    + injection E as <- <-. destruct HIT as (S' & A1 & A2 & A3 & A4 & A5 & A6). exists S'. do 6 (split; [assumption|]). right. reflexivity.
  - assert (E' : (match make_key typed args kw with None => (mkL h c, None) | Some k => match lookup k c with Some v => (mkL h ((k, v) :: drop_key k c), Some v)
       | None => match f h args kw with None => (mkL h c, None) | Some g => let '(h, v) := install h g in
            (mkL h (match maxsize with Some n => if n <? length ((k, v) :: c) then removelast ((k, v) :: c) else (k, v) :: c | None => (k, v) :: c end), Some v) end end end) = (s', r)).
    { destruct maxsize as [[|n]|]; [discriminate| |]; exact E. }
    clear E. assert (NM : maxsize <> Some 0) by (destruct maxsize as [[|n]|]; congruence). destruct (make_key typed args kw) as [k|] eqn:Ek.
    2:{ injection E' as <- <-. destruct HIT as (S' & A1 & A2 & A3 & A4 & A5 & A6). exists S'. do 6 (split; [assumption|]). left. auto. }
    destruct (lookup k c) as [v|] eqn:El.
    + injection E' as <- <-. apply lookup_in in El. destruct (HE k v El) as (Hv & h0 & a0 & kw0 & g & H1 & H2 & H3 & H4 & H5).
      exists S. cbn [l_heap l_cache]. split; [auto|]. split; [auto|]. split; [exact HC|]. split.
      { intros k' v' [Q|Q]; [injection Q as <- <-; apply HE; exact El|apply HE; eapply drop_in; exact Q]. }
      split; [lia|]. split; [auto|]. split; [exact Hv|]. exists h0, a0, kw0, g. split; [exact H1|]. split; [right; exists k; auto|]. split; auto.
    + destruct (f h args kw) as [g|] eqn:Ef.
      * destruct (install h g) as (h', v) eqn:Ei. injection E' as <- <-. cbn [l_heap l_cache]. destruct (RUN g h' v eq_refl Ei) as (S' & A1 & A2 & A3 & A4 & A5 & A6 & A7 & A8).
        exists S'. split; [exact A1|]. split; [exact A2|]. split; [exact A3|]. split.
        { assert (G : entries S' h' ((k, v) :: c)).
          { intros k' v' [Q|Q]; [|apply A4; exact Q]. injection Q as <- <-. split; [exact A7|]. exists h, args, kw, g. split; [split; [exact HD|exact HLv]|]. split; [exact Ek|]. split; [apply later_grow; exact A6|]. split; auto. }
          destruct maxsize as [n|]; [|exact G]. destruct (n <? _); [|exact G]. intros k' v' Hi. apply G. apply in_removelast. exact Hi. }
        split; [exact A5|]. split; [exact A6|]. split; [exact A7|]. exists h, args, kw, g. split; [split; [exact HD|exact HLv]|]. split; [left; auto|]. split; [apply later_refl|]. split; auto.
      * injection E' as <- <-. destruct HIT as (S' & A1 & A2 & A3 & A4 & A5 & A6). exists S'. do 6 (split; [assumption|]). right. reflexivity.
Qed.

(** ** With copying *)
Definition inv (w : world) : Prop :=
  exists priv pub : nat -> Prop, closed_in priv (l_heap (w_st w)) /\ closed_in pub (l_heap (w_st w)) /\ (forall a, priv a -> pub a -> False) /\
    (forall c, In c (w_known w) -> in_set pub c) /\ entries priv (l_heap (w_st w)) (l_cache (w_st w)).
Definition outcome (h : heap) (args : list arg) (kw : list (string * arg)) (h' : heap) (r : option cell) : Prop :=
  match r with
  | Some v => in_set (fun a => length h <= a) v /\ (forall a, reachable h' [v] a -> length h <= a) /\
      exists h0 a0 kw0 g, (D a0 kw0 /\ live h0 a0 kw0) /\ same_call args kw h h0 a0 kw0 /\ later W h0 h /\ f h0 a0 kw0 = Some g /\ same_value h' v (g_objs g) (g_root g)
  | None => (maxsize <> Some 0 /\ make_key typed args kw = None) \/ f h args kw = None
  end.
Lemma closed_bound : forall (S : nat -> Prop) h a, closed_in S h -> S a -> a < length h.
Proof. intros S h a HC Ha. destruct (HC a Ha) as (o & E & _). apply nth_error_Some. congruence. Qed.
Lemma closed_grow : forall (S : nat -> Prop) h h', closed_in S h -> (forall a, a < length h -> nth_error h' a = nth_error h a) -> closed_in S h'.
Proof. intros S h h' HC HA. eapply closed_agree; eauto. intros a Ha. apply HA. eapply closed_bound; eauto. Qed.
Lemma live_inv : forall s known args kw, inv (mkW s known) -> (forall a, In a (mentions args kw) -> reachable (l_heap s) known a) -> live (l_heap s) args kw.
Proof. intros s known args kw (priv & pub & I1 & I2 & I3 & I4 & I5) H a Ha. cbn [w_st w_known] in *. apply (closed_bound pub _ _ I2). eapply reachable_closed; eauto. Qed.
Lemma call_ok : forall s known args kw s' r, inv (mkW s known) -> D args kw -> live (l_heap s) args kw -> wrapper f maxsize typed true s args kw = (s', r) ->
  inv (mkW s' (match r with Some v => v :: known | None => known end)) /\ later W (l_heap s) (l_heap s') /\ outcome (l_heap s) args kw (l_heap s') r.
Proof.
  intros [h c] known args kw s' r (priv & pub & I1 & I2 & I3 & I4 & I5) HD HLv E. cbn [w_st w_known l_heap l_cache] in *. unfold wrapper in E.
  destruct (cached_func f maxsize typed (mkL h c) args kw) as (s1, r1) eqn:EC.
  destruct (cached_ok priv h c args kw s1 r1 I1 I5 HD HLv EC) as (priv' & A1 & A2 & A3 & A4 & A5 & A6 & A7).
  assert (PB : forall a, pub a -> a < length h) by (intros; eapply closed_bound; eauto).
  destruct r1 as [v|].
  - destruct A7 as (Hv & h0 & a0 & kw0 & g & B1 & B2 & B3 & B4 & B5). destruct (deepcopy (l_heap s1) v) as (h2, v2) eqn:ED. injection E as <- <-. cbn [l_heap l_cache].
    destruct (deepcopy_ok _ priv' v h2 v2 A3 Hv ED) as (C1 & C2 & C3 & C4 & C5).
    assert (GR : forall a, a < length h -> nth_error h2 a = nth_error h a) by (intros; rewrite C2 by lia; auto).
    split; [|split; [apply later_grow; exact GR|]].
    + exists priv', (fun a => pub a \/ length (l_heap s1) <= a < length h2). cbn [w_st w_known l_heap l_cache]. split; [eapply closed_grow; eauto|]. split.
      { intros a [Ha|Ha].
        - destruct (I2 a Ha) as (o & Eo & Ho). exists o. rewrite GR by auto. split; auto.
        - destruct (C3 a Ha) as (o & Eo & Ho). exists o. split; auto. }
      split. { intros a Hp [Ha|Ha]; [destruct (A2 a Hp) as [Q|Q]; [eauto|specialize (PB a Ha); lia]|]. pose proof (closed_bound _ _ _ A3 Hp). lia. }
      split. { intros x [<-|Hx]; [destruct v2; cbn in *; auto|]. specialize (I4 x Hx). destruct x; cbn in *; auto. }
      eapply entries_later with (S := priv'); eauto.
      * intros a Ha. apply C2. eapply closed_bound; eauto.
      * apply later_grow. exact C2.
    + cbn [outcome]. assert (V2 : in_set (fun a => length h <= a < length h2) v2) by (destruct v2; cbn in *; auto; lia).
      split; [destruct v2; cbn in *; auto; lia|]. split.
      { intros a Ha. assert (Q : length (l_heap s1) <= a < length h2); [|lia]. revert a Ha. apply (reachable_closed (fun a => length (l_heap s1) <= a < length h2) h2 [v2]); auto. intros x [<-|[]]. exact C4. }
      exists h0, a0, kw0, g. split; [exact B1|]. split; [exact B2|]. split; [exact B3|]. split; [exact B4|]. intros n. rewrite C5. apply B5.
  - injection E as <- <-. split; [|split; [apply later_grow; exact A6|exact A7]].
    exists priv', pub. cbn [w_st w_known]. split; [exact A3|]. split; [eapply closed_grow; eauto|]. split; [|split; [exact I4|exact A4]].
    intros a Hp Ha. destruct (A2 a Hp) as [Q|Q]; [eauto|]. specialize (PB a Ha). lia.
Qed.
Lemma step_inv : forall w e w', inv w -> step f maxsize typed true D W w e w' -> inv w' /\ later W (l_heap (w_st w)) (l_heap (w_st w')).
Proof.
  intros w e w' HI HS. destruct HS as [s known args kw s' r HD HM E|s known a o cs HW HR Eo Hm Hc|s known m cs Hc].
  - destruct (call_ok s known args kw s' r HI HD (live_inv _ _ _ _ HI HM) E) as (H1 & H2 & _). auto.
  - destruct HI as (priv & pub & I1 & I2 & I3 & I4 & I5). cbn [w_st w_known l_heap l_cache] in *.
    assert (Pa : pub a) by (eapply reachable_closed; eauto). assert (La : a < length (l_heap s)) by (apply nth_error_Some; congruence).
    assert (NP : forall b, priv b -> nth_error (replace (l_heap s) a (mkO true cs)) b = nth_error (l_heap s) b) by (intros b Hb; apply nth_replace_ne; auto; intros ->; eauto).
    split; [|apply later_write; auto]. exists priv, pub. cbn [w_st w_known l_heap l_cache]. split; [eapply closed_agree; eauto|]. split.
    { intros b Hb. destruct (Nat.eq_dec b a) as [->|N].
      - exists (mkO true cs). split; [apply nth_replace_eq; auto|]. cbn [cells]. intros x Hx. specialize (Hc _ Hx). cbn [usable] in Hc. eapply reachable_closed; eauto.
      - rewrite nth_replace_ne by auto. apply I2. exact Hb. }
    split; [exact I3|]. split; [exact I4|]. eapply entries_later with (S := priv); eauto. apply later_write; auto.
  - destruct HI as (priv & pub & I1 & I2 & I3 & I4 & I5). cbn [w_st w_known l_heap l_cache] in *.
    assert (GR : forall b, b < length (l_heap s) -> nth_error (l_heap s ++ [mkO m cs]) b = nth_error (l_heap s) b) by (intros; apply nth_error_app1; auto).
    split; [|apply later_grow; exact GR]. exists priv, (fun b => pub b \/ b = length (l_heap s)). cbn [w_st w_known l_heap l_cache]. split; [eapply closed_grow; eauto|]. split.
    { intros b [Hb| ->].
      - destruct (I2 b Hb) as (o & Eo & Ho). exists o. rewrite GR by exact (closed_bound pub _ _ I2 Hb). split; auto.
      - exists (mkO m cs). split; [rewrite nth_error_app2, Nat.sub_diag by lia; reflexivity|]. cbn [cells]. intros x Hx. specialize (Hc _ Hx). cbn [usable] in Hc. left. eapply reachable_closed; eauto. }
    split. { intros b Hb [Q| ->]; [eauto|]. pose proof (closed_bound _ _ _ I1 Hb). lia. }
    split. { intros x [<-|Hx]; [cbn; auto|]. specialize (I4 x Hx). destruct x; cbn in *; auto. }
    eapply entries_later with (S := priv); eauto.
    + intros b Hb. apply GR. exact (closed_bound priv _ _ I1 Hb).
    + apply later_grow. exact GR.
Qed.
Lemma run_inv : forall w es, run f maxsize typed true D W w es -> inv w.
Proof.
  intros w es H. induction H as [|w es e w' H IH HS]; [|apply (step_inv w e w' IH HS)].
  exists (fun _ => False), (fun _ => False). split; [intros a []|]. split; [intros a []|]. split; [intros a []|]. split; [intros c []|intros k v []].
Qed.
Lemma same_call_eq : forall args kw h h0 a0 kw0, respects_keys f typed D W -> D args kw -> D a0 kw0 /\ live h0 a0 kw0 -> later W h0 h -> same_call args kw h h0 a0 kw0 -> f h args kw = f h0 a0 kw0.
Proof. intros args kw h h0 a0 kw0 HK HD (HD0 & HLv) HL [(-> & -> & ->)|(k & E1 & E2)]; [reflexivity|]. symmetry. eapply HK; eauto. Qed.
Lemma call_inv : forall copy w args kw r w', step f maxsize typed copy D W w (ECall args kw r) w' -> exists s known s', w = mkW s known /\ (D args kw /\ forall a, In a (mentions args kw) -> reachable (l_heap s) known a) /\ wrapper f maxsize typed copy s args kw = (s', r) /\
  w' = mkW s' (match r with Some v => v :: known | None => known end).
Proof. intros copy w args kw r w' HS. inversion HS; subst. eauto 10. Qed.
Theorem transparent : respects_keys f typed D W -> forall w es args kw r w', run f maxsize typed true D W w es -> step f maxsize typed true D W w (ECall args kw r) w' ->
  (maxsize = Some 0 \/ make_key typed args kw <> None) ->
  match f (l_heap (w_st w)) args kw with None => r = None | Some g => exists v, r = Some v /\ same_value (l_heap (w_st w')) v (g_objs g) (g_root g) end.
Proof.
  intros HK w es args kw r w' HR HS HH. apply run_inv in HR. destruct (call_inv _ _ _ _ _ _ HS) as (s & known & s' & -> & (H0 & HM) & H6 & ->). destruct (call_ok s known args kw s' r HR H0 (live_inv _ _ _ _ HR HM) H6) as (_ & _ & O). cbn [w_st] in *.
  destruct r as [v|]; cbn [outcome] in O.
  - destruct O as (_ & _ & h0 & a0 & kw0 & g & O1 & O2 & O3 & O4 & O5). rewrite (same_call_eq args kw (l_heap s) h0 a0 kw0 HK H0 O1 O3 O2), O4. exists v. auto.
  - destruct O as [(O1 & O2)|O]; [destruct HH; contradiction|]. rewrite O. reflexivity.
Qed.
Theorem unhashable_raises : forall copy w args kw r w', step f maxsize typed copy D W w (ECall args kw r) w' -> maxsize <> Some 0 -> make_key typed args kw = None -> r = None.
Proof.
  intros copy w args kw r w' HS HMx HK. destruct (call_inv _ _ _ _ _ _ HS) as (s & known & s' & -> & (H0 & HM) & H6 & ->). unfold wrapper, cached_func in H6. destruct maxsize as [[|n]|]; [congruence| |]; rewrite HK in H6; congruence.
Qed.
Theorem results_new : forall w es args kw v w', run f maxsize typed true D W w es -> step f maxsize typed true D W w (ECall args kw (Some v)) w' ->
  forall a, reachable (l_heap (w_st w')) [v] a -> length (l_heap (w_st w)) <= a.
Proof.
  intros w es args kw v w' HR HS. apply run_inv in HR. destruct (call_inv _ _ _ _ _ _ HS) as (s & known & s' & -> & (H0 & HM) & H6 & ->). destruct (call_ok s known args kw s' (Some v) HR H0 (live_inv _ _ _ _ HR HM) H6) as (_ & _ & O & O' & _). exact O'.
Qed.

(** ** Without copying, as long as nothing is written *)
Definition inv0 (w : world) : Prop :=
  closed_in (fun a => a < length (l_heap (w_st w))) (l_heap (w_st w)) /\ (forall c, In c (w_known w) -> in_set (fun a => a < length (l_heap (w_st w))) c) /\
  entries (fun a => a < length (l_heap (w_st w))) (l_heap (w_st w)) (l_cache (w_st w)).
Lemma live_inv0 : forall s known args kw, inv0 (mkW s known) -> (forall a, In a (mentions args kw) -> reachable (l_heap s) known a) -> live (l_heap s) args kw.
Proof. intros s known args kw (I1 & I2 & I3) H a Ha. cbn [w_st w_known] in *. exact (reachable_closed _ _ _ I1 I2 _ (H a Ha)). Qed.
Lemma nocopy_ok : forall s known args kw s' r, inv0 (mkW s known) -> D args kw -> live (l_heap s) args kw -> wrapper f maxsize typed false s args kw = (s', r) ->
  inv0 (mkW s' (match r with Some v => v :: known | None => known end)) /\
  match r with Some v => exists h0 a0 kw0 g, (D a0 kw0 /\ live h0 a0 kw0) /\ same_call args kw (l_heap s) h0 a0 kw0 /\ later W h0 (l_heap s) /\ f h0 a0 kw0 = Some g /\ same_value (l_heap s') v (g_objs g) (g_root g)
  | None => (maxsize <> Some 0 /\ make_key typed args kw = None) \/ f (l_heap s) args kw = None end.
Proof.
  intros [h c] known args kw s' r (I1 & I2 & I3) HD HLv E. cbn [w_st w_known l_heap l_cache] in *. unfold wrapper in E.
  destruct (cached_func f maxsize typed (mkL h c) args kw) as (s1, r1) eqn:EC.
  destruct (cached_ok _ h c args kw s1 r1 I1 I3 HD HLv EC) as (priv' & A1 & A2 & A3 & A4 & A5 & A6 & A7).
  assert (EE : s' = s1 /\ r = r1) by (destruct r1; split; congruence). destruct EE as (-> & ->).
  (* the installed block and the old heap cover everything *)
  assert (ALL : closed_in (fun a => a < length (l_heap s1)) (l_heap s1)).
  { assert (CF : length (l_heap s1) = length h /\ l_heap s1 = h \/ exists g v, graph_ok g /\ install h g = (l_heap s1, v)).
    { clear -EC HF. unfold cached_func in EC. cbn [l_heap l_cache] in EC.
      assert (G : forall (K : heap -> cell -> lst * option cell), (forall h v, l_heap (fst (K h v)) = h) ->
        match f h args kw with None => (mkL h c, None) | Some g => let '(h, v) := install h g in K h v end = (s1, r1) ->
        length (l_heap s1) = length h /\ l_heap s1 = h \/ exists g v, graph_ok g /\ install h g = (l_heap s1, v)).
      { intros K HK E. destruct (f h args kw) as [g|] eqn:Ef; [|injection E as <- <-; left; auto]. destruct (install h g) as (h1, v1) eqn:Ei. right. exists g, v1. split; [eapply HF; eauto|].
        rewrite <- (HK h1 v1), E in Ei. exact Ei. }
      destruct maxsize as [[|n]|].
      - exact (G (fun h v => (mkL h c, Some v)) (fun _ _ => eq_refl) EC).
      - destruct (make_key typed args kw) as [k|]; [|injection EC as <- <-; left; auto]. destruct (lookup k c); [injection EC as <- <-; left; auto|].
        exact (G (fun h v => (mkL h (if S n <? length ((k, v) :: c) then removelast ((k, v) :: c) else (k, v) :: c), Some v)) (fun _ _ => eq_refl) EC).
      - destruct (make_key typed args kw) as [k|]; [|injection EC as <- <-; left; auto]. destruct (lookup k c); [injection EC as <- <-; left; auto|].
        exact (G (fun h v => (mkL h ((k, v) :: c), Some v)) (fun _ _ => eq_refl) EC). }
    destruct CF as [(EL & EH)|(g & v & G & Ei)]; [rewrite EL, EH; exact I1|]. destruct (install_ok h g _ v G Ei) as (J1 & J2 & J3 & _).
    intros a Ha. destruct (Nat.lt_ge_cases a (length h)) as [Q|Q].
    - destruct (I1 a Q) as (o & Eo & Ho). exists o. rewrite J2 by auto. split; auto. intros b Hb. specialize (Ho b Hb). lia.
    - destruct (J3 a (conj Q Ha)) as (o & Eo & Ho). exists o. split; auto. intros b Hb. specialize (Ho b Hb). lia. }
  assert (PB : forall a, priv' a -> a < length (l_heap s1)) by exact (fun a Ha => closed_bound priv' _ a A3 Ha).
  split.
  - split; [exact ALL|]. cbn [w_st w_known]. split.
    + assert (K : forall x, In x known -> in_set (fun a => a < length (l_heap s1)) x) by (intros x Hx; specialize (I2 x Hx); destruct x; cbn in *; auto; lia).
      destruct r1 as [v|]; [|exact K]. intros x [<-|Hx]; [|auto]. destruct A7 as (Hv & _). destruct v; cbn in *; auto.
    + intros k v Hi. destruct (A4 k v Hi) as (Hv & Q). split; [destruct v; cbn in *; auto|exact Q].
  - destruct r1 as [v|]; [exact (proj2 A7)|exact A7].
Qed.
Lemma run_inv0 : (forall a, ~ W a) -> forall w es, run f maxsize typed false D W w es -> inv0 w.
Proof.
  intros NW w es H. induction H as [|w es e w' H IH HS].
  - split; [intros a Ha; cbn in Ha; lia|]. split; [intros c []|intros k v []].
  - destruct HS as [s known args kw s' r HD HM E|s known a o cs HW HR Eo Hm Hc|s known m cs Hc].
    + apply (nocopy_ok s known args kw s' r IH HD (live_inv0 _ _ _ _ IH HM) E).
    + exfalso. exact (NW a HW).
    + destruct IH as (I1 & I2 & I3). cbn [w_st w_known l_heap l_cache] in *.
      assert (GR : forall b, b < length (l_heap s) -> nth_error (l_heap s ++ [mkO m cs]) b = nth_error (l_heap s) b) by (intros; apply nth_error_app1; auto).
      unfold inv0. cbn [w_st w_known l_heap l_cache]. rewrite app_length. cbn [length]. split; [|split].
      * intros b Hb. destruct (Nat.eq_dec b (length (l_heap s))) as [->|N].
        { exists (mkO m cs). split; [rewrite nth_error_app2, Nat.sub_diag by lia; reflexivity|]. cbn [cells]. intros x Hx. specialize (Hc _ Hx). cbn [usable] in Hc. pose proof (reachable_closed _ _ _ I1 I2 _ Hc). cbn in *. lia. }
        { destruct (I1 b) as (o & Eo & Ho); [lia|]. exists o. rewrite GR by lia. split; auto. intros x Hx. specialize (Ho x Hx). cbn in Ho. lia. }
      * intros x [<-|Hx]; [cbn; lia|]. specialize (I2 x Hx). destruct x; cbn in *; auto. lia.
      * eapply entries_later with (S := fun a => a < length (l_heap s)); eauto; [apply later_grow; exact GR|intros; cbn; lia].
Qed.
Theorem transparent_unwritten : (forall a, ~ W a) -> respects_keys f typed D W -> forall w es args kw r w', run f maxsize typed false D W w es -> step f maxsize typed false D W w (ECall args kw r) w' ->
  (maxsize = Some 0 \/ make_key typed args kw <> None) ->
  match f (l_heap (w_st w)) args kw with None => r = None | Some g => exists v, r = Some v /\ same_value (l_heap (w_st w')) v (g_objs g) (g_root g) end.
Proof.
  intros NW HK w es args kw r w' HR HS HH. apply (run_inv0 NW) in HR. destruct (call_inv _ _ _ _ _ _ HS) as (s & known & s' & -> & (H0 & HM) & H6 & ->). destruct (nocopy_ok s known args kw s' r HR H0 (live_inv0 _ _ _ _ HR HM) H6) as (_ & O). cbn [w_st] in *.
  destruct r as [v|].
  - destruct O as (h0 & a0 & kw0 & g & O1 & O2 & O3 & O4 & O5). rewrite (same_call_eq args kw (l_heap s) h0 a0 kw0 HK H0 O1 O3 O2), O4. exists v. auto.
  - destruct O as [(O1 & O2)|O]; [destruct HH; contradiction|]. rewrite O. reflexivity.
Qed.

(** ** The recency order *)
Definition rmk (k : key) (l : list key) : list key := filter (fun x => negb (key_eqb k x)) l.
Lemma rmk_in : forall k l x, In x (rmk k l) <-> In x l /\ x <> k.
Proof.
  intros k l x. unfold rmk. rewrite filter_In, negb_true_iff. split; intros (H1 & H2); split; auto.
  - intros ->. rewrite key_eqb_refl in H2. discriminate.
  - destruct (key_eqb k x) eqn:E; auto. apply key_eqb_iff in E. congruence.
Qed.
Lemma rmk_absent : forall k l, ~ In k l -> rmk k l = l.
Proof.
  induction l as [|x l IH]; intros H; [reflexivity|]. unfold rmk in *. cbn [filter]. destruct (key_eqb k x) eqn:E.
  - apply key_eqb_iff in E. exfalso. apply H. left. auto.
  - cbn [negb]. f_equal. apply IH. intros Q. apply H. right. exact Q.
Qed.
Lemma latest_nodup : forall l, NoDup (latest l).
Proof.
  induction l as [|k l IH]; cbn [latest]; constructor.
  - intros H. apply (rmk_in k (latest l) k) in H. tauto.
  - apply NoDup_filter. exact IH.
Qed.
Lemma drop_keys : forall k c, map fst (drop_key k c) = rmk k (map fst c).
Proof. intros k c. unfold drop_key, rmk. induction c as [|[k' v] c IH]; [reflexivity|]. cbn [filter map fst]. destruct (key_eqb k k'); cbn [negb]; [exact IH|]. cbn [map fst]. f_equal. exact IH. Qed.
Lemma firstn_rmk_hit : forall n k l, NoDup l -> In k (firstn (S n) l) -> firstn n (rmk k l) = rmk k (firstn (S n) l).
Proof.
  induction n as [|n IH]; intros k l HN Hi.
  - destruct l as [|x l]; [destruct Hi|]. cbn [firstn In] in Hi. destruct Hi as [->|[]]. unfold rmk at 2. cbn [firstn filter]. rewrite key_eqb_refl. reflexivity.
  - destruct l as [|x l]; [destruct Hi|]. inversion HN; subst. cbn [firstn In] in Hi. unfold rmk. cbn [firstn filter]. destruct (key_eqb k x) eqn:E.
    + apply key_eqb_iff in E. subst x. cbn [negb]. fold (rmk k l). fold (rmk k (firstn (S n) l)). change (match l with [] => [] | a :: l0 => a :: firstn n l0 end) with (firstn (S n) l). fold (rmk k (firstn (S n) l)).
      rewrite (rmk_absent k l) by auto. rewrite rmk_absent; [reflexivity|]. intros Q. apply H1. rewrite <- (firstn_skipn (S n) l). apply in_or_app. left. exact Q.
    + cbn [negb]. cbn [firstn]. f_equal. apply IH; auto. destruct Hi as [->|Hi]; [rewrite key_eqb_refl in E; discriminate|exact Hi].
Qed.
Lemma firstn_rmk_absent : forall n k l, ~ In k (firstn (S n) l) -> firstn n (rmk k l) = firstn n l.
Proof.
  induction n as [|n IH]; intros k l H; [reflexivity|]. destruct l as [|x l]; [reflexivity|]. unfold rmk. cbn [filter]. destruct (key_eqb k x) eqn:E.
  - apply key_eqb_iff in E. exfalso. apply H. left. auto.
  - cbn [negb firstn]. f_equal. apply IH. intros Q. apply H. right. exact Q.
Qed.
Lemma map_removelast : forall A B (g : A -> B) l, map g (removelast l) = removelast (map g l).
Proof. induction l as [|x [|y l] IH]; auto. cbn [removelast map] in *. f_equal. exact IH. Qed.
Lemma removelast_firstn_len : forall A (l : list A) n, length l = S n -> removelast l = firstn n l.
Proof. intros A l n H. rewrite <- (firstn_all l) at 1. rewrite H. apply removelast_firstn. lia. Qed.
Lemma wrapper_cache : forall copy s args kw s' r, wrapper f maxsize typed copy s args kw = (s', r) -> exists s1 r1, cached_func f maxsize typed s args kw = (s1, r1) /\ l_cache s' = l_cache s1 /\ (r = None <-> r1 = None).
Proof.
  intros copy s args kw s' r E. unfold wrapper in E. destruct (cached_func f maxsize typed s args kw) as (s1, r1). exists s1, r1. split; [reflexivity|].
  destruct r1 as [v|]; [destruct copy; [destruct (deepcopy (l_heap s1) v)|]|]; injection E as <- <-; cbn [l_cache]; split; auto; split; congruence.
Qed.
Theorem recency : forall copy w es, run f maxsize typed copy D W w es -> map fst (l_cache (w_st w)) = cut maxsize (latest (returned_keys typed es)).
Proof.
  intros copy w es H. induction H as [|w es e w' H IH HS].
  - cbn. destruct maxsize as [[|n]|]; reflexivity.
  - destruct HS as [s known args kw s' r HD HM E|s known a o cs HW HR Eo Hm Hc|s known m cs Hc]; [|exact IH|exact IH].
    cbn [w_st] in *. destruct (wrapper_cache _ _ _ _ _ _ E) as (s1 & r1 & EC & -> & HR). clear E. set (hist := returned_keys typed es) in *. unfold cached_func in EC.
    destruct maxsize as [[|n]|] eqn:EM.
    + (* no cache *) cbn [cut firstn] in *. destruct (f (l_heap s) args kw) as [g|].
      * destruct (install (l_heap s) g). injection EC as <- <-. exact IH.
      * injection EC as <- <-. exact IH.
    + destruct (make_key typed args kw) as [k|] eqn:Ek.
      2:{ injection EC as <- <-. rewrite (proj2 HR eq_refl). cbn [returned_keys]. exact IH. }
      destruct (lookup k (l_cache s)) as [v|] eqn:El.
      * injection EC as <- <-. assert (R : exists x, r = Some x) by (destruct r as [x|]; [eauto|discriminate (proj1 HR eq_refl)]). destruct R as (x & ->).
        cbn [returned_keys]. rewrite Ek. fold hist. cbn [latest cut firstn l_cache map fst]. f_equal. fold (rmk k (latest hist)). rewrite drop_keys, IH. cbn [cut]. symmetry. apply firstn_rmk_hit; [apply latest_nodup|].
        change (firstn (S n) (latest hist)) with (cut (Some (S n)) (latest hist)). rewrite <- IH. apply lookup_in in El. apply in_map_iff. exists (k, v). auto.
      * destruct (f (l_heap s) args kw) as [g|].
        2:{ injection EC as <- <-. rewrite (proj2 HR eq_refl). cbn [returned_keys]. exact IH. }
        destruct (install (l_heap s) g) as (h', v). injection EC as <- <-. assert (R : exists x, r = Some x) by (destruct r as [x|]; [eauto|discriminate (proj1 HR eq_refl)]). destruct R as (x & ->).
        cbn [returned_keys]. rewrite Ek. fold hist. cbn [latest cut firstn l_cache]. fold (rmk k (latest hist)).
        apply lookup_none in El. rewrite IH in El. cbn [cut] in El, IH. rewrite firstn_rmk_absent by exact El.
        assert (LC : length (l_cache s) <= S n) by (rewrite <- (map_length fst), IH, firstn_length; lia).
        cbn [length]. destruct (Nat.ltb_spec (S n) (S (length (l_cache s)))) as [Q|Q].
        { change (match l_cache s with [] => [] | _ :: _ => (k, v) :: removelast (l_cache s) end) with (removelast ((k, v) :: l_cache s)). rewrite map_removelast. cbn [map fst]. rewrite (removelast_firstn_len _ _ (S n)) by (cbn [length]; rewrite map_length; lia). cbn [firstn]. f_equal. rewrite IH, firstn_firstn. f_equal. lia. }
        { cbn [map fst]. f_equal. rewrite IH. assert (LL : length (latest hist) <= n). { assert (QQ : length (map fst (l_cache s)) <= n) by (rewrite map_length; lia). rewrite IH, firstn_length in QQ. lia. }
          rewrite !firstn_all2 by lia. reflexivity. }
    + destruct (make_key typed args kw) as [k|] eqn:Ek.
      2:{ injection EC as <- <-. rewrite (proj2 HR eq_refl). cbn [returned_keys]. exact IH. }
      destruct (lookup k (l_cache s)) as [v|] eqn:El.
      * injection EC as <- <-. assert (R : exists x, r = Some x) by (destruct r as [x|]; [eauto|discriminate (proj1 HR eq_refl)]). destruct R as (x & ->).
        cbn [returned_keys]. rewrite Ek. fold hist. cbn [latest cut l_cache map fst]. f_equal. rewrite drop_keys, IH. reflexivity.
      * destruct (f (l_heap s) args kw) as [g|].
        2:{ injection EC as <- <-. rewrite (proj2 HR eq_refl). cbn [returned_keys]. exact IH. }
        destruct (install (l_heap s) g) as (h', v). injection EC as <- <-. assert (R : exists x, r = Some x) by (destruct r as [x|]; [eauto|discriminate (proj1 HR eq_refl)]). destruct R as (x & ->).
        cbn [returned_keys]. rewrite Ek. fold hist. cbn [latest cut l_cache map fst]. fold (rmk k (latest hist)). cbn [cut] in IH. apply lookup_none in El. rewrite IH in El. rewrite rmk_absent by exact El. f_equal. exact IH.
Qed.
Theorem bounded : forall copy w es n, run f maxsize typed copy D W w es -> maxsize = Some n -> length (l_cache (w_st w)) <= n.
Proof. intros copy w es n H E. rewrite <- (map_length fst), (recency copy w es H), E. cbn [cut]. rewrite firstn_length. lia. Qed.
End Cached.

(** a call whose key is among the most recent ones does not run the function *)
Theorem hit_iff_recent : forall f maxsize typed copy D W w es args kw k, run f maxsize typed copy D W w es -> make_key typed args kw = Some k ->
  In k (cut maxsize (latest (returned_keys typed es))) ->
  (forall f', wrapper f' maxsize typed copy (w_st w) args kw = wrapper f maxsize typed copy (w_st w) args kw) /\ exists v, snd (wrapper f maxsize typed copy (w_st w) args kw) = Some v.
Proof.
  intros f maxsize typed copy D W w es args kw k HR Ek Hi. rewrite <- (recency f maxsize typed D W copy w es HR) in Hi.
  assert (NZ : maxsize <> Some 0). { intros ->. rewrite (recency f (Some 0) typed D W copy w es HR) in Hi. exact Hi. }
  destruct (lookup k (l_cache (w_st w))) as [v|] eqn:El; [|apply lookup_none in El; contradiction].
  assert (EC : forall f', cached_func f' maxsize typed (w_st w) args kw = (mkL (l_heap (w_st w)) ((k, v) :: drop_key k (l_cache (w_st w))), Some v)).
  { intros f'. unfold cached_func. rewrite Ek, El. destruct maxsize as [[|n]|]; [contradiction|reflexivity|reflexivity]. }
  split; [intros f'; unfold wrapper; rewrite !EC; reflexivity|]. unfold wrapper. rewrite EC. destruct copy; [destruct (deepcopy _ v) as (h2, v2); exists v2; reflexivity|exists v; reflexivity].
Qed.
