(** Preprocessing and packing of the filter keep every entry. *)
From Coq Require Import List Arith Lia Bool Reals Lra Permutation Sorted.
From Verif Require Import TensorModel TensorProofs BigSum DiscoModel DiscoGradModel DiscoSpec DiscoSortProofs DiscoRunProofs DiscoKernelProofs DiscoTensorProofs DiscoGradProofs.
Import ListNotations.
Local Open Scope nat_scope.

Lemma nth_starts_mono : forall A (rs : list (list A)) i, i < length rs ->
  nth (i + 1) (starts 0 rs) 0 = nth i (starts 0 rs) 0 + length (nth i rs []).
Proof.
  intros A rs i H. rewrite !starts_nth_bound by lia. rewrite Nat.add_1_r, (firstn_S_nth _ rs i []) by lia.
  rewrite concat_app, app_length. simpl. rewrite app_nil_r. lia.
Qed.
Lemma cuts_adjacent : forall l x y a b, l = a ++ x :: y :: b -> row x = row y -> exists r, In r (cuts l) /\ In x r /\ In y r.
Proof.
  induction l as [|e l IH]; intros x y a b E HR; [destruct a; discriminate|].
  destruct a as [|z a]; simpl in E; injection E as -> E.
  - pose proof (cuts_head l) as H. simpl. rewrite E in *. destruct (cuts (y :: b)) as [|[|e' q] rs] eqn:EC; try discriminate.
    simpl in H. injection H as ->. rewrite HR, Nat.eqb_refl. eexists. split; [left; reflexivity|]. simpl. auto.
  - destruct (IH x y a b E HR) as (r & Hr & Hx & Hy). simpl. destruct (cuts l) as [|[|e' q] rs] eqn:EC.
    + destruct Hr.
    + exfalso. apply (cuts_nonempty l []); [rewrite EC; left|]; reflexivity.
    + destruct (row z =? row e').
      * destruct Hr as [<-|Hr]; [exists (z :: e' :: q); split; [left; reflexivity|simpl in *; tauto]|exists r; split; [right; exact Hr|auto]].
      * exists r. split; [right; exact Hr|auto].
Qed.
Lemma cuts_boundary : forall l i, S i < length (cuts l) -> forall e e', nth_error (rev (nth i (cuts l) [])) 0 = Some e -> nth_error (nth (S i) (cuts l) []) 0 = Some e' -> row e <> row e'.
Proof.
  induction l as [|x l IH]; intros i Hi e e' E E'; [simpl in Hi; lia|].
  simpl in *. pose proof (cuts_nonempty l) as NE. destruct (cuts l) as [|[|h q] rs] eqn:EC; [simpl in Hi; lia|simpl in Hi; lia|].
  destruct (Nat.eqb_spec (row x) (row h)) as [R|R].
  - destruct i as [|i]; simpl in *.
    + apply (IH 0 ltac:(lia) e e'); auto. simpl.
      destruct (rev q ++ [h]) as [|z zs] eqn:EZ; [destruct (rev q); discriminate|]. simpl in E. exact E.
    + apply (IH (S i) ltac:(lia) e e'); auto.
  - destruct i as [|i]; simpl in *.
    + injection E as <-. injection E' as <-. auto.
    + apply (IH i ltac:(lia) e e'); auto.
Qed.

Lemma ksorted_sorted : forall K es, StronglySorted le (map ker (ksorted K es)).
Proof.
  intros K es. unfold ksorted.
  assert (H : forall n a, StronglySorted le (map ker (flat_map (fun k => kfilter k es) (seq a n))) ).
  { induction n; intros a; simpl; [constructor|]. rewrite map_app. apply StronglySorted_app; auto.
    - assert (C : forall l, (forall e, In e l -> ker e = a) -> StronglySorted le (map ker l)).
      { induction l; intros Hl; simpl; constructor. apply IHl. intros; apply Hl; right; auto.
        apply Forall_forall. intros x Hx. apply in_map_iff in Hx. destruct Hx as (e & <- & He). rewrite (Hl a0), (Hl e) by (simpl; auto). lia. }
      apply C. intros e He. apply in_kfilter in He. tauto.
    - intros x y Hx Hy. apply in_map_iff in Hx. apply in_map_iff in Hy. destruct Hx as (e & <- & He). destruct Hy as (e' & <- & He').
      apply in_kfilter in He. apply in_flat_map in He'. destruct He' as (k & Hk & He'). apply in_kfilter in He'. apply in_seq in Hk. lia. }
  apply H.
Qed.

Lemma at_key_kfilter : forall k t es, at_key k t es = filter (fun e => row e =? t) (kfilter k es).
Proof.
  intros. unfold at_key, kfilter. induction es; simpl; [reflexivity|]. destruct (ker a =? k); simpl; [|auto]. destruct (row a =? t); simpl; congruence.
Qed.
Lemma at_key_ksorted : forall K k t es, k < K -> at_key k t (ksorted K es) = at_key k t es.
Proof. intros. rewrite !at_key_kfilter, kfilter_ksorted by auto. reflexivity. Qed.

Lemma at_key_none : forall k t l, (forall e, In e l -> key e <> (k, t)) -> at_key k t l = [].
Proof.
  intros k t l H. unfold at_key. induction l; simpl; [reflexivity|].
  destruct (Nat.eqb_spec (ker a) k); simpl; [|apply IHl; intros; apply H; right; auto].
  destruct (Nat.eqb_spec (row a) t); simpl; [|apply IHl; intros; apply H; right; auto].
  exfalso. apply (H a); [left; auto|]. unfold key. congruence.
Qed.
Lemma at_key_all : forall k t l, (forall e, In e l -> key e = (k, t)) -> at_key k t l = l.
Proof.
  intros k t l H. unfold at_key. induction l; simpl; [reflexivity|].
  assert (E := H a (or_introl eq_refl)). unfold key in E. injection E as -> ->. rewrite !Nat.eqb_refl. simpl. f_equal. apply IHl. intros; apply H; right; auto.
Qed.
Lemma at_key_app : forall k t a b, at_key k t (a ++ b) = at_key k t a ++ at_key k t b.
Proof. intros. apply filter_app. Qed.

Lemma in_heads : forall rs r e, In r rs -> same_key r -> In e r -> In (key e) (heads rs).
Proof.
  intros rs r e Hr SK He. unfold heads. apply in_map_iff. exists r. split; [|exact Hr].
  destruct r as [|e0 r]; [destruct He|]. apply SK; simpl; auto.
Qed.
Lemma runs_at_key : forall rs, runs_ok rs -> NoDup (heads rs) -> forall r e, In r rs -> In e r -> at_key (ker e) (row e) (concat rs) = r.
Proof.
  induction rs as [|r0 rs IH]; intros RO ND r e Hr He; [destruct Hr|].
  destruct RO as [NE SK]. simpl in ND. inversion ND as [|? ? N1 N2]; subst.
  cbn [concat]. rewrite at_key_app. destruct Hr as [->|Hr].
  - rewrite at_key_all by (intros e1 He1; apply (SK r (or_introl eq_refl) e1 e); auto).
    rewrite at_key_none; [apply app_nil_r|]. intros e1 He1 EK. apply N1.
    apply in_concat in He1. destruct He1 as (r1 & Hr1 & He1).
    assert (X : In (key e1) (heads rs)) by (apply (in_heads rs r1); auto; apply SK; right; auto).
    destruct r as [|e0 r]; [destruct He|]. rewrite (SK (e0 :: r) (or_introl eq_refl) e0 e) by (simpl; auto).
    rewrite EK in X. exact X.
  - rewrite (IH (conj (fun r H => NE r (or_intror H)) (fun r H => SK r (or_intror H))) N2 r e Hr He).
    rewrite at_key_none; [reflexivity|]. intros e1 He1 EK. apply N1.
    assert (X : In (key e) (heads rs)) by (apply (in_heads rs r); auto; apply SK; right; auto).
    destruct r0 as [|e0 r0]; [destruct He1|]. rewrite (SK (e0 :: r0) (or_introl eq_refl) e0 e1) by (simpl; auto). rewrite EK. exact X.
Qed.

Lemma preprocess_success : forall junk K Ho N es, 1 <= K -> psi_wf K Ho N es -> rows_sorted es -> es <> [] ->
  exists roff es', preprocess_psi junk K Ho es = Some (roff, es') /\
    Permutation es' es /\ StronglySorted le (map ker es') /\ (forall k, k < K -> filter (fun e => ker e =? k) es' = filter (fun e => ker e =? k) es) /\
    2 <= length roff /\ nth 0 roff 0 = 0 /\ nth (length roff - 1) roff 0 = length es' /\
    (forall r, r + 1 < length roff -> nth r roff 0 < nth (r + 1) roff 0) /\
    concat (map (entries_of roff es') (seq 0 (length roff - 1))) = es' /\
    (forall r e e', r + 1 < length roff -> In e (entries_of roff es' r) -> In e' (entries_of roff es' r) -> row e = row e') /\
    (forall r e e', r + 2 < length roff -> nth_error es' (nth (r + 1) roff 0 - 1) = Some e -> nth_error es' (nth (r + 1) roff 0) = Some e' -> row e <> row e').
Proof.
  intros junk K Ho N es HK W RS NE. rewrite (preprocess_spec junk K Ho N es HK W RS NE).
  set (l := ksorted K es). set (rs := cuts l). assert (EC : concat rs = l) by apply cuts_concat.
  assert (PM : Permutation l es) by (apply ksorted_perm; intros e He; apply (W e He)).
  assert (LN : l <> []) by (intros X; rewrite X in PM; apply Permutation_nil in PM; auto).
  assert (RN : forall r, In r rs -> r <> []) by (intros; eapply cuts_nonempty; eauto).
  assert (L1 : 1 <= length rs). { destruct rs eqn:E; [|simpl; lia]. exfalso. apply LN. rewrite <- EC. reflexivity. }
  exists (starts 0 rs), l. split; [reflexivity|]. split; [exact PM|]. split; [apply ksorted_sorted|].
  split; [intros; apply (kfilter_ksorted K es k); auto|].
  rewrite starts_length. split; [lia|]. split; [rewrite starts_nth_bound by lia; reflexivity|].
  assert (SL : forall r, r < length rs -> entries_of (starts 0 rs) l r = nth r rs []) by (intros r Hr; rewrite <- EC; apply (slice_starts entry rs r Hr)).
  split; [|split; [|split; [|split]]].
  - replace (S (length rs) - 1) with (length rs) by lia. rewrite starts_nth_bound by lia. rewrite firstn_all, EC. lia.
  - intros r Hr. rewrite nth_starts_mono by lia. assert (nth r rs [] <> []) by (apply RN, nth_In; lia). destruct (nth r rs []); [congruence|simpl; lia].
  - replace (S (length rs) - 1) with (length rs) by lia. rewrite <- EC at 2. f_equal.
    transitivity (map (fun r => nth r rs []) (seq 0 (length rs))); [apply map_ext_in; intros r Hr; apply in_seq in Hr; apply SL; lia|].
    clear. apply nth_ext with (d := []) (d' := []); [rewrite map_length, seq_length; auto|].
    intros n Hn. rewrite map_length, seq_length in Hn. rewrite (nth_indep _ [] (nth (length rs) rs [])) by (rewrite map_length, seq_length; auto).
    rewrite (map_nth (fun r => nth r rs [])), seq_nth by auto. reflexivity.
  - intros r e e' Hr. rewrite SL by lia. apply (cuts_same_row l). apply nth_In. fold rs. lia.
  - intros r e e' Hr E E'.
    assert (Hb : nth (r + 1) (starts 0 rs) 0 = nth r (starts 0 rs) 0 + length (nth r rs [])) by (apply nth_starts_mono; lia).
    assert (N0 : nth r rs [] <> []) by (apply RN, nth_In; lia).
    assert (N1 : nth (S r) rs [] <> []) by (apply RN, nth_In; lia).
    apply (cuts_boundary l r); [fold rs; lia| |].
    + fold rs. rewrite <- E, Hb.
      pose proof (SL r ltac:(lia)) as S1. unfold entries_of in S1. rewrite Hb in S1.
      replace (nth r (starts 0 rs) 0 + length (nth r rs []) - nth r (starts 0 rs) 0) with (length (nth r rs [])) in S1 by lia.
      set (s := nth r (starts 0 rs) 0) in *. set (q := nth r rs []) in *. clearbody s.
      destruct q as [|x q'] eqn:Eq using rev_ind; [congruence|]. rewrite rev_app_distr. simpl.
      assert (X : nth_error (firstn (length (q' ++ [x])) (skipn s l)) (length q') = Some x) by (rewrite S1, nth_error_app2, Nat.sub_diag by lia; reflexivity).
      rewrite app_length. simpl. replace (s + (length q' + 1) - 1) with (s + length q') by lia.
      rewrite <- X. rewrite app_length. simpl. clear.
      revert l s. intros l s. assert (H : forall (m : list entry) n, n < length m -> nth_error (firstn (n + 1) m) n = nth_error m n).
      { induction m; intros; simpl in *; [lia|]. destruct n; simpl; [reflexivity|]. apply IHm. lia. }
      assert (H0 : forall (m : list entry) s n, nth_error (skipn s m) n = nth_error m (s + n)).
      { induction m; intros; [rewrite skipn_nil; destruct n, s0; reflexivity|]. destruct s0; simpl; [reflexivity|]. apply IHm. }
      destruct (Nat.ltb_spec (length q') (length (skipn s l))) as [Hl|Hl].
      * rewrite H by auto. apply H0.
      * rewrite firstn_all2 by lia. apply H0.
    + fold rs. rewrite <- E'. rewrite <- EC. rewrite head_starts by (auto; lia). rewrite Nat.add_1_r. destruct (nth (S r) rs []); [congruence|reflexivity].
Qed.

Lemma preprocess_separated : forall junk K Ho N es roff es', 1 <= K -> psi_wf K Ho N es -> rows_sorted es -> es <> [] -> kernels_separated K es ->
  preprocess_psi junk K Ho es = Some (roff, es') ->
  (forall r e, r + 1 < length roff -> In e (entries_of roff es' r) -> entries_of roff es' r = at_key (ker e) (row e) es) /\
  (forall k t, at_key k t es <> [] -> exists r, r + 1 < length roff /\ entries_of roff es' r = at_key k t es /\
     forall r', r' + 1 < length roff -> entries_of roff es' r' = at_key k t es -> r' = r).
Proof.
  intros junk K Ho N es roff es' HK W RS NE SP E. rewrite (preprocess_spec junk K Ho N es HK W RS NE) in E. injection E as <- <-.
  set (l := ksorted K es). set (rs := cuts l). assert (EC : concat rs = l) by apply cuts_concat.
  assert (RO : runs_ok rs) by (split; [intros; eapply cuts_nonempty; eauto|apply cuts_same_key; apply sep_adj; auto]).
  assert (ND : NoDup (heads rs)) by (apply cuts_heads_NoDup, ksorted_lex; auto).
  rewrite starts_length.
  assert (SL : forall r, r < length rs -> entries_of (starts 0 rs) l r = nth r rs []) by (intros r Hr; rewrite <- EC; apply (slice_starts entry rs r Hr)).
  assert (P1 : forall r e, r + 1 < S (length rs) -> In e (entries_of (starts 0 rs) l r) -> entries_of (starts 0 rs) l r = at_key (ker e) (row e) es).
  { intros r e Hr He. rewrite SL in * by lia. symmetry.
    assert (In e l) by (rewrite <- EC; apply in_concat; exists (nth r rs []); split; [apply nth_In; lia|auto]).
    apply in_ksorted in H. rewrite <- (at_key_ksorted K) by tauto. fold l. rewrite <- EC. apply runs_at_key; auto. apply nth_In. lia. }
  split; [exact P1|]. intros k t HN.
  destruct (at_key k t es) as [|e q] eqn:Eq; [congruence|].
  assert (He : In e es /\ ker e = k /\ row e = t).
  { assert (X : In e (at_key k t es)) by (rewrite Eq; left; auto). unfold at_key in X. apply filter_In in X. destruct X as [X Y].
    apply andb_true_iff in Y. destruct Y as [Y1 Y2]. apply Nat.eqb_eq in Y1, Y2. auto. }
  destruct He as (He & <- & <-). assert (Hl : In e (concat rs)) by (rewrite EC; apply in_ksorted; split; [auto|apply (W e He)]).
  apply in_concat in Hl. destruct Hl as (r0 & Hr0 & He0). destruct (In_nth rs r0 [] Hr0) as (n & Hn & En).
  exists n. split; [lia|]. split.
  - rewrite SL by auto. rewrite En, <- Eq. rewrite <- (at_key_ksorted K) by (apply (W e He)). fold l. rewrite <- EC. symmetry. apply runs_at_key; auto.
  - intros r' Hr' E'. rewrite SL in E' by lia.
    assert (X : nth r' (heads rs) (0, 0) = nth n (heads rs) (0, 0)).
    { assert (MN : forall i, i < length rs -> nth i (heads rs) (0, 0) = match nth i rs [] with e :: _ => key e | [] => (0, 0) end).
      { intros i Hi. unfold heads. set (F := fun r : list entry => match r with e :: _ => key e | [] => (0, 0) end). change (0, 0) with (F []). rewrite map_nth. reflexivity. }
      rewrite !MN by lia. rewrite E', En. destruct r0 as [|e1 r0]; [destruct He0|]. destruct RO as [_ SK]. apply (SK _ Hr0); simpl; auto. }
    apply (proj1 (NoDup_nth (heads rs) (0, 0)) ND) in X; auto; unfold heads; rewrite map_length; lia.
Qed.

Lemma separated_exact : forall junk K Ho N es roff es', 1 <= K -> psi_wf K Ho N es -> rows_sorted es -> es <> [] ->
  preprocess_psi junk K Ho es = Some (roff, es') ->
  (forall r e e', r + 1 < length roff -> In e (entries_of roff es' r) -> In e' (entries_of roff es' r) -> ker e = ker e') -> kernels_separated K es.
Proof.
  intros junk K Ho N es roff es' HK W RS NE E H k k' e e' a b Hk HM Ha Hb HR.
  rewrite (preprocess_spec junk K Ho N es HK W RS NE) in E. injection E as <- <-.
  set (l := ksorted K es) in *. set (rs := cuts l) in *. assert (EC : concat rs = l) by apply cuts_concat.
  assert (EL : exists u v, l = u ++ e :: e' :: v).
  { unfold l, ksorted. replace K with (k + (1 + ((k' - k - 1) + (1 + (K - k' - 1))))) by lia. rewrite !seq_app, !flat_map_app. cbn [seq flat_map]. rewrite !app_nil_r.
    assert (Z : flat_map (fun k0 => kfilter k0 es) (seq (0 + k + 1) (k' - k - 1)) = []).
    { assert (G : forall n s, (forall j, s <= j < s + n -> filter (fun e => ker e =? j) es = []) -> flat_map (fun k0 => kfilter k0 es) (seq s n) = []).
      { induction n; intros s G; simpl; [reflexivity|]. unfold kfilter at 1. rewrite G by lia. apply IHn. intros; apply G; lia. }
      apply G. intros j Hj. apply HM. lia. }
    rewrite Z. replace (0 + k + 1 + (k' - k - 1)) with k' by lia. simpl (0 + k). unfold kfilter at 2 3. rewrite Ha, Hb.
    exists (flat_map (fun k0 => kfilter k0 es) (seq 0 k) ++ a), (b ++ flat_map (fun k0 => kfilter k0 es) (seq (k' + 1) (K - k' - 1))).
    rewrite <- !app_assoc. reflexivity. }
  destruct EL as (u & v & EL). destruct (cuts_adjacent l e e' u v EL HR) as (r & Hr & H1 & H2).
  destruct (In_nth _ _ [] Hr) as (n & Hn & En). fold rs in Hn, En.
  assert (SL : entries_of (starts 0 rs) l n = r) by (rewrite <- EC, <- En; apply (slice_starts entry rs n Hn)).
  specialize (H n e e'). rewrite starts_length, SL in H. specialize (H ltac:(lia) H1 H2).
  assert (K1 : ker e = k) by (apply (in_kfilter k es); unfold kfilter; rewrite Ha; apply in_or_app; right; left; auto).
  assert (K2 : ker e' = k') by (apply (in_kfilter k' es); unfold kfilter; rewrite Hb; left; auto).
  lia.
Qed.

(** ** Packing *)
Definition packed_inv (Wi pad : nat) (F : nat -> nat -> list entry) (p : packed) : Prop :=
  pk_pad p = pad /\ forall k t, pk_count p k t = length (F k t) /\
    forall j, match nth_error (F k t) j with
              | Some e => pk_hi p k t j = col e / Wi /\ pk_wi p k t j = col e mod Wi /\ pk_val p k t j = pv e
              | None => pk_hi p k t j = 0 /\ pk_wi p k t j = 0 /\ pk_val p k t j = 0%R
              end.

Lemma max_fold_ge : forall (f : nat -> nat) l m0, m0 <= fold_left (fun m i => Nat.max m (f i)) l m0 /\ forall i, In i l -> f i <= fold_left (fun m i => Nat.max m (f i)) l m0.
Proof.
  intros f l. induction l; intros m0; simpl; [split; [auto|tauto]|].
  destruct (IHl (Nat.max m0 (f a))) as [A B]. split; [lia|]. intros i [<-|Hi]; [lia|auto].
Qed.

Lemma pack_runs : forall K Ho Wi rs, runs_ok rs -> NoDup (heads rs) -> 1 <= K -> 1 <= Ho -> 1 <= Wi -> length rs <= K * Ho ->
  exists p, pack_psi_dense K Ho Wi (starts 0 rs) (concat rs) = Some p /\
   (exists pad, packed_inv Wi pad (fun k t => at_key k t (concat rs)) p).
Proof.
  intros K Ho Wi rs RO ND HK HH HW HL. unfold pack_psi_dense. rewrite starts_length. replace (S (length rs) - 1) with (length rs) by lia.
  assert (G : (0 <? K) && (0 <? Ho) && (0 <? Wi) && (length rs <=? K * Ho) = true).
  { rewrite !andb_true_iff, !Nat.ltb_lt, Nat.leb_le. lia. }
  rewrite G. cbn [guard bindo]. set (pad := fold_left _ (seq 0 (length rs)) 0).
  assert (PAD : forall i, i < length rs -> length (nth i rs []) <= pad).
  { intros i Hi. unfold pad. destruct (max_fold_ge (fun i => nth (i + 1) (starts 0 rs) 0 - nth i (starts 0 rs) 0) (seq 0 (length rs)) 0) as [_ B].
    specialize (B i ltac:(apply in_seq; lia)). rewrite nth_starts_mono in B by auto. cbv beta in *. lia. }
  clearbody pad.
  assert (H : forall n, n <= length rs -> exists p, fold_left (pack_row Wi (starts 0 rs) (concat rs)) (seq 0 n)
     (Some (mkPacked pad (fun _ _ _ => 0) (fun _ _ _ => 0) (fun _ _ _ => 0%R) (fun _ _ => 0))) = Some p /\ packed_inv Wi pad (fun k t => at_key k t (concat (firstn n rs))) p).
  { intros n. induction n as [|n IHn]; intros Hn.
    - eexists. split; [reflexivity|]. split; [reflexivity|]. intros k t. split; [reflexivity|]. intros j. simpl. destruct j; simpl; auto.
    - destruct (IHn ltac:(lia)) as (p & Ep & Ip & Vp). rewrite seq_S, fold_left_app, Ep. cbn [fold_left Nat.add]. unfold pack_row. cbn [bindo].
      destruct RO as [NE SK]. rewrite head_starts by (auto; lia). pose proof (PAD n ltac:(lia)) as Pn.
      assert (Hr : In (nth n rs []) rs) by (apply nth_In; lia). pose proof (nth_starts_mono _ rs n ltac:(lia)) as ST.
      assert (Nth : forall j, j < length (nth n rs []) -> e_at (concat rs) (nth n (starts 0 rs) 0 + j) = nth j (nth n rs []) (mkE 0 0 0 0)).
      { intros j Hj. unfold e_at. rewrite starts_nth_bound by lia. simpl.
        assert (EC : concat rs = concat (firstn n rs) ++ nth n rs [] ++ concat (skipn (S n) rs)).
        { rewrite <- (firstn_skipn (S n) rs) at 1. rewrite concat_app, (firstn_S_nth _ rs n []) by lia. rewrite concat_app. simpl. rewrite app_nil_r, <- app_assoc. reflexivity. }
        rewrite EC, app_nth2_plus. apply app_nth1. auto. }
      rewrite ST. replace (nth n (starts 0 rs) 0 + length (nth n rs []) - nth n (starts 0 rs) 0) with (length (nth n rs [])) by lia.
      set (r := nth n rs []) in *. destruct r as [|e0 q] eqn:Er; [exfalso; apply (NE [] Hr); auto|]. cbn [hd_error bindo].
      destruct (Nat.leb_spec (length (e0 :: q)) (pk_pad p)); [|lia]. cbn [guard bindo].
      eexists. split; [reflexivity|]. split; [exact Ip|]. cbn [pk_count pk_hi pk_wi pk_val].
      assert (F0 : at_key (ker e0) (row e0) (concat (firstn n rs)) = []).
      { apply at_key_none. intros e1 He1 EK. apply in_concat in He1. destruct He1 as (r1 & Hr1 & He1).
        destruct (In_nth _ _ [] Hr1) as (i & Hi & Ei). rewrite firstn_length in Hi.
        assert (Ei' : nth i rs [] = r1). { rewrite <- Ei. rewrite <- (firstn_skipn n rs) at 1. apply app_nth1. rewrite firstn_length. lia. }
        assert (X : nth i (heads rs) (0, 0) = nth n (heads rs) (0, 0)).
        { assert (MN : forall i, i < length rs -> nth i (heads rs) (0, 0) = match nth i rs [] with e :: _ => key e | [] => (0, 0) end).
          { intros i0 Hi0. unfold heads. set (F := fun r : list entry => match r with e :: _ => key e | [] => (0, 0) end). change (0, 0) with (F []). rewrite map_nth. reflexivity. }
          rewrite !MN by lia. rewrite Ei'. fold r. rewrite Er. destruct r1 as [|e2 r1]; [destruct He1|].
          transitivity (key e1); [|exact EK]. apply (SK (e2 :: r1)); [|left; reflexivity|exact He1]. rewrite <- Ei'. apply nth_In. lia. }
        apply (proj1 (NoDup_nth (heads rs) (0, 0)) ND) in X; unfold heads; rewrite ?map_length; lia. }
      assert (EF : forall k t, at_key k t (concat (firstn (S n) rs)) = at_key k t (concat (firstn n rs)) ++ at_key k t (e0 :: q)).
      { intros. rewrite (firstn_S_nth _ rs n []) by lia. rewrite concat_app, at_key_app. fold r. rewrite Er. simpl concat. rewrite app_nil_r. reflexivity. }
      assert (SQ : forall e, In e (e0 :: q) -> key e = (ker e0, row e0)) by (intros e He; apply (SK _ Hr e e0); simpl; auto).
      intros k t. rewrite EF. destruct (Vp k t) as [C0 V0]. unfold set2, set3.
      destruct (Nat.eqb_spec k (ker e0)) as [->|Nk]; [destruct (Nat.eqb_spec t (row e0)) as [->|Nt]|]; cbn [andb].
      + rewrite F0 in *. rewrite (at_key_all _ _ (e0 :: q)) by auto. cbn [app]. split; [reflexivity|].
        intros j. destruct (Nat.ltb_spec j (length (e0 :: q))) as [Hj|Hj].
        * rewrite (nth_error_nth' _ (mkE 0 0 0 0) Hj), Nth by auto. auto.
        * rewrite (proj2 (nth_error_None (e0 :: q) j) Hj). specialize (V0 j). rewrite (proj2 (nth_error_None [] j)) in V0 by (simpl; lia). exact V0.
      + rewrite (at_key_none _ _ (e0 :: q)) by (intros e He; rewrite (SQ e He); congruence). rewrite app_nil_r. auto.
      + rewrite (at_key_none _ _ (e0 :: q)) by (intros e He; rewrite (SQ e He); congruence). rewrite app_nil_r. auto. }
  destruct (H (length rs) ltac:(lia)) as (p & Ep & Vp). rewrite firstn_all in Vp. eauto.
Qed.

Lemma pack_spec : forall junk K Ho Hi Wi es roff es', 1 <= K -> 1 <= Wi -> psi_wf K Ho (Hi * Wi) es -> rows_sorted es -> kernels_separated K es -> es <> [] ->
  preprocess_psi junk K Ho es = Some (roff, es') ->
  exists p, pack_psi_dense K Ho Wi roff es' = Some p /\ forall k t, k < K -> pk_count p k t = length (at_key k t es) /\
    forall j, match nth_error (at_key k t es) j with
              | Some e => j < pk_pad p /\ pk_hi p k t j = col e / Wi /\ pk_wi p k t j = col e mod Wi /\ pk_val p k t j = pv e
              | None => pk_hi p k t j = 0 /\ pk_wi p k t j = 0 /\ pk_val p k t j = 0%R
              end.
Proof.
  intros junk K Ho Hi Wi es roff es' HK HW W RS SP NE E.
  pose proof E as E0. rewrite (preprocess_spec junk K Ho _ es HK W RS NE) in E. injection E as <- <-.
  set (l := ksorted K es) in *. set (rs := cuts l) in *. assert (EC : concat rs = l) by apply cuts_concat.
  assert (RO : runs_ok rs) by (split; [intros; eapply cuts_nonempty; eauto|apply cuts_same_key; apply sep_adj; auto]).
  assert (ND : NoDup (heads rs)) by (apply cuts_heads_NoDup, ksorted_lex; auto).
  assert (HH : 1 <= Ho) by (destruct es as [|e es]; [congruence|]; destruct (W e (or_introl eq_refl)) as (_ & ? & _); lia).
  destruct (pack_runs K Ho Wi rs RO ND HK HH HW) as (p & Ep & pad & Ip & Vp).
  { rewrite Nat.mul_comm. apply cuts_bound; [apply ksorted_lex; auto|]. intros e He. apply in_ksorted in He. destruct (W e) as (?&?&?); tauto. }
  rewrite EC in Ep, Vp. exists p. split; [exact Ep|]. intros k t Hk. destruct (Vp k t) as [C V].
  unfold l in C, V. rewrite at_key_ksorted in C, V by auto. split; [exact C|].
  intros j. specialize (V j). destruct (nth_error (at_key k t es) j) as [e|] eqn:Ej; [|exact V].
  split; [|exact V].
  assert (Hj : j < length (at_key k t es)) by (apply nth_error_Some; congruence).
  assert (NZ : at_key k t es <> []) by (intros X; rewrite X in Hj; simpl in Hj; lia).
  destruct (preprocess_separated junk K Ho _ es _ _ HK W RS NE SP E0) as [_ P2]. destruct (P2 k t NZ) as (r & Hr & Er & _).
  rewrite starts_length in Hr.
  assert (Er' : nth r rs [] = at_key k t es) by (rewrite <- Er, <- EC; symmetry; apply (slice_starts entry rs r); lia).
  unfold pack_psi_dense in Ep. destruct (guard _) as [u|]; [cbn [bindo] in Ep|discriminate].
  set (pd := fold_left (fun m i => Nat.max m (nth (i + 1) (starts 0 rs) 0 - nth i (starts 0 rs) 0)) (seq 0 (length (starts 0 rs) - 1)) 0) in *.
  assert (PP : forall n st q, fold_left (pack_row Wi (starts 0 rs) l) n st = Some q -> exists q0, st = Some q0 /\ pk_pad q0 = pk_pad q).
  { induction n; intros st q Eq; simpl in Eq; [eauto|]. destruct (IHn _ _ Eq) as (q0 & Eq0 & Pq). unfold pack_row in Eq0.
    destruct st as [s|]; [|discriminate]. cbn [bindo] in Eq0. destruct (nth_error l _); [cbn [bindo] in Eq0|discriminate]. destruct (guard _); [cbn [bindo] in Eq0|discriminate].
    injection Eq0 as <-. exists s. split; [reflexivity|]. exact Pq. }
  destruct (PP _ _ _ Ep) as (q0 & Eq0 & Pq). injection Eq0 as <-. cbn [pk_pad] in Pq. rewrite <- Pq.
  destruct (max_fold_ge (fun i => nth (i + 1) (starts 0 rs) 0 - nth i (starts 0 rs) 0) (seq 0 (length (starts 0 rs) - 1)) 0) as [_ B].
  specialize (B r ltac:(rewrite starts_length; apply in_seq; lia)). cbv beta in B. rewrite nth_starts_mono in B by lia. fold pd in B. rewrite Er' in B. lia.
Qed.

Lemma forall_below_true : forall n p, forall_below n p = true <-> forall i, i < n -> p i = true.
Proof. intros. unfold forall_below. rewrite forallb_forall. split; intros H i Hi; [apply H, in_seq; lia|apply in_seq in Hi; apply H; lia]. Qed.
Lemma kpack_spec : forall n_align K Ho p, 1 <= n_align -> 1 <= K ->
  ((exists q, maybe_kpack n_align K Ho p = Some q) <->
   forall k h, k < K -> h < Ho -> pk_count p k h = pk_count p 0 h /\ forall j, j < pk_pad p -> pk_hi p k h j = pk_hi p 0 h j /\ pk_wi p k h j = pk_wi p 0 h j) /\
  forall q, maybe_kpack n_align K Ho p = Some q ->
   K <= kp_K q /\ kp_K q mod n_align = 0 /\ kp_K q < K + n_align /\
   forall h j, h < Ho -> j < pk_pad p ->
     (forall k, k < K -> kp_val q h j k = pk_val p k h j /\ kp_hi q h j = pk_hi p k h j /\ kp_wi q h j = pk_wi p k h j /\ kp_count q h = pk_count p k h) /\
     (forall k, K <= k -> kp_val q h j k = 0%R).
Proof.
  intros n_align K Ho p HA HK. unfold maybe_kpack.
  set (same := forall_below K _).
  assert (SM : same = true <-> forall k h, k < K -> h < Ho -> pk_count p k h = pk_count p 0 h /\ forall j, j < pk_pad p -> pk_hi p k h j = pk_hi p 0 h j /\ pk_wi p k h j = pk_wi p 0 h j).
  { unfold same. rewrite forall_below_true. split.
    - intros H k h Hk Hh. specialize (H k Hk). rewrite forall_below_true in H. specialize (H h Hh). rewrite andb_true_iff, Nat.eqb_eq, forall_below_true in H.
      destruct H as [H1 H2]. split; [exact H1|]. intros j Hj. specialize (H2 j Hj). rewrite andb_true_iff, !Nat.eqb_eq in H2. exact H2.
    - intros H k Hk. apply forall_below_true. intros h Hh. rewrite andb_true_iff, Nat.eqb_eq, forall_below_true. destruct (H k h Hk Hh) as [H1 H2].
      split; [exact H1|]. intros j Hj. rewrite andb_true_iff, !Nat.eqb_eq. auto. }
  assert (OR : (K <=? 1) || same = same).
  { destruct (Nat.leb_spec K 1); [|reflexivity]. simpl. symmetry. apply SM. intros k h Hk Hh. replace k with 0 by lia. auto. }
  rewrite OR. clear OR. clearbody same. split.
  - rewrite <- SM. destruct same; split; intros H; auto; [eauto|destruct H; discriminate|discriminate].
  - intros q E. destruct same; [|discriminate]. injection E as <-. cbn [kp_K kp_hi kp_wi kp_val kp_count].
    destruct SM as [SM _]. specialize (SM eq_refl).
    pose proof (Nat.div_mod (K + n_align - 1) n_align ltac:(lia)) as DM. pose proof (Nat.mod_upper_bound (K + n_align - 1) n_align ltac:(lia)) as MB.
    split; [nia|]. split; [apply Nat.mod_mul; lia|]. split; [nia|].
    intros h j Hh Hj. split.
    + intros k Hk. destruct (SM k h Hk Hh) as [S1 S2]. destruct (S2 j Hj) as [S3 S4]. destruct (Nat.ltb_spec k K); [auto|lia].
    + intros k Hk. destruct (Nat.ltb_spec k K); [lia|reflexivity].
Qed.

(** per-kernel split *)
Lemma split_spec : forall junk K Ho N es roff es' k, 1 <= K -> psi_wf K Ho N es -> rows_sorted es -> kernels_separated K es -> es <> [] ->
  preprocess_psi junk K Ho es = Some (roff, es') -> k < K ->
  let s := build_split_csr roff es' K in
  firstn (nth (k + 1) (sc_nnzoff s) 0 - nth k (sc_nnzoff s) 0) (skipn (nth k (sc_nnzoff s) 0) (sc_es s)) = map zero_ker (filter (fun e => ker e =? k) es).
Proof.
  intros junk K Ho N es roff es' k HK W RS SP NE E Hk s.
  rewrite (preprocess_spec junk K Ho N es HK W RS NE) in E. injection E as <- <-.
  set (l := ksorted K es) in *. set (rs := cuts l) in *. assert (EC : concat rs = l) by apply cuts_concat.
  assert (RO : runs_ok rs) by (split; [intros; eapply cuts_nonempty; eauto|apply cuts_same_key; apply sep_adj; auto]).
  unfold s. rewrite <- EC, build_split_spec by apply RO. cbn zeta. cbn [sc_nnzoff sc_es].
  set (xs := map _ (seq 0 K)).
  change (firstn (nth (k + 1) (starts 0 xs) 0 - nth k (starts 0 xs) 0) (skipn (nth k (starts 0 xs) 0) (concat xs))) with (slice (concat xs) (nth k (starts 0 xs) 0) (nth (k + 1) (starts 0 xs) 0)).
  rewrite slice_starts by (unfold xs; rewrite map_length, seq_length; auto).
  unfold xs. rewrite (nth_indep _ [] (concat (selz 0 rs))) by (rewrite map_length, seq_length; auto).
  rewrite (map_nth (fun k => concat (selz k rs))), seq_nth by auto. simpl (0 + k).
  change (filter (fun e => ker e =? k) es) with (kfilter k es). rewrite <- (kfilter_ksorted K es k Hk). fold l. rewrite <- EC.
  destruct RO as [NE' SK]. clear -NE' SK. induction rs as [|r rs IH]; [reflexivity|].
  cbn [concat]. rewrite kfilter_app, map_app. rewrite <- IH by (intros; (apply NE' || apply SK); right; auto).
  unfold selz, sel. cbn [filter]. destruct r as [|e0 r]; [exfalso; apply (NE' []); [left|]; reflexivity|].
  assert (Q : forall e, In e (e0 :: r) -> ker e = ker e0) by (intros e He; specialize (SK _ (or_introl eq_refl) e e0 He (or_introl eq_refl)); unfold key in SK; congruence).
  destruct (Nat.eqb_spec (ker e0) k) as [Ek|Ek].
  - cbn [map concat]. f_equal. assert (F : kfilter k (e0 :: r) = e0 :: r).
    { clear -Q Ek. unfold kfilter. assert (G : forall m, (forall e, In e m -> ker e = k) -> filter (fun e => ker e =? k) m = m).
      { induction m; intros G; simpl; [reflexivity|]. rewrite (G a) by (left; auto). rewrite Nat.eqb_refl. f_equal. apply IHm. intros; apply G; right; auto. }
      apply G. intros e He. rewrite (Q e He). exact Ek. }
    rewrite F. reflexivity.
  - rewrite kfilter_none by (intros e He; rewrite (Q e He); exact Ek). reflexivity.
Qed.
