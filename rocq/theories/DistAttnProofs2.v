(** The local sparsity patterns and the halo radius. *)
From Coq Require Import List Arith Lia Bool ZArith Reals Permutation.
From Verif Require Import TensorModel TensorProofs BigSum DiscoModel DiscoSortProofs PrimModel PrimSpec PrimProofs AttnModel AttnSpec AttnCoreProofs AttnKernelProofs AttnUpProofs
  DistAttnModel DistAttnProofs.
Import ListNotations.
Local Open Scope nat_scope.

(** ** Lists *)
Lemma nth_skipn' : forall A (l : list A) s i d, nth i (skipn s l) d = nth (s + i) l d.
Proof. intros A l. induction l; intros s i d; destruct s; cbn [skipn Nat.add nth]; auto. destruct i; auto. Qed.
Lemma nth_firstn' : forall A (l : list A) n i d, i < n -> nth i (firstn n l) d = nth i l d.
Proof. intros A l. induction l; intros n i d H; destruct n; try lia; cbn [firstn]; auto. destruct i; cbn [nth]; auto. apply IHl. lia. Qed.
Lemma slice_nth : forall A (l : list A) a b i d, i < b - a -> nth i (DiscoModel.slice l a b) d = nth (a + i) l d.
Proof. intros. unfold DiscoModel.slice. rewrite nth_firstn' by auto. apply nth_skipn'. Qed.
Lemma slice_len : forall A (l : list A) a b, b <= length l -> length (DiscoModel.slice l a b) = b - a.
Proof. intros. unfold DiscoModel.slice. rewrite firstn_length, skipn_length. lia. Qed.
Lemma slice_ext : forall A (d : A) (l l' : list A) a b a' b', b <= length l -> b' <= length l' -> b - a = b' - a' ->
  (forall i, i < b - a -> nth (a + i) l d = nth (a' + i) l' d) -> DiscoModel.slice l a b = DiscoModel.slice l' a' b'.
Proof.
  intros A d l l' a b a' b' H1 H2 H3 H4. apply nth_ext with (d := d) (d' := d); rewrite !slice_len by auto; auto.
  intros i Hi. rewrite !slice_nth by lia. auto.
Qed.
Lemma slice_In : forall A (d : A) (l : list A) a b x, b <= length l -> In x (DiscoModel.slice l a b) <-> exists i, a <= i < b /\ nth i l d = x.
Proof.
  intros A d l a b x H. split.
  - intros Hx. destruct (In_nth _ _ d Hx) as (i & Hi & E). rewrite slice_len in Hi by auto. rewrite slice_nth in E by auto. exists (a + i). split; [lia|auto].
  - intros (i & Hi & E). rewrite <- E. replace i with (a + (i - a)) by lia. rewrite <- (slice_nth _ l a b) by lia. apply nth_In. rewrite slice_len by auto. lia.
Qed.
Lemma accumulate_nth : forall l acc s, s < length l -> nth s (accumulate acc l) 0 = acc + sum_list (firstn (S s) l).
Proof.
  induction l as [|x l IH]; intros acc s H; [cbn in H; lia|]. destruct s; cbn [accumulate nth]. { cbn. lia. }
  rewrite IH by (cbn [length] in H; lia). change (firstn (S (S s)) (x :: l)) with (x :: firstn (S s) l). cbn [sum_list fold_right]. unfold sum_list. lia.
Qed.
Lemma removelast_firstn' : forall A (l : list A) s, s < length l -> firstn s (removelast l) = firstn s l.
Proof.
  intros A l. induction l as [|a l IH]; intros s H; [cbn in H; lia|]. destruct s; [reflexivity|]. cbn [length] in H. destruct l as [|b l]; [cbn in H; lia|].
  change (removelast (a :: b :: l)) with (a :: removelast (b :: l)). cbn [firstn]. f_equal. apply IH. lia.
Qed.
Lemma removelast_length' : forall A (l : list A), length (removelast l) = length l - 1.
Proof. intros A l. induction l as [|a l IH]; [reflexivity|]. destruct l; [reflexivity|]. change (removelast (a :: a0 :: l)) with (a :: removelast (a0 :: l)). cbn [length] in *. lia. Qed.
Lemma split_starts_nth : forall l s, s < length l -> nth s (split_starts l) 0 = sum_list (firstn s l).
Proof.
  intros l s H. unfold split_starts. rewrite accumulate_nth by (cbn [length]; rewrite removelast_length'; lia).
  cbn [firstn]. rewrite removelast_firstn' by auto. reflexivity.
Qed.
Lemma starts_bal : forall W A s, 1 <= A -> s < A -> nth s (split_starts (bal W A)) 0 = chunk_lo W A s.
Proof. intros. rewrite split_starts_nth by (rewrite bal_length; auto). apply chunk_lo_sum; lia. Qed.

(** ** Offsets *)
Lemma offsets_length : forall P o, length (offsets o P) = S (length P).
Proof. intros. rewrite offsets_starts. apply starts_length. Qed.
Lemma offsets_nth : forall P i, i <= length P -> nth i (offsets 0 P) 0 = length (concat (firstn i P)).
Proof. intros. rewrite offsets_starts, starts_nth_bound by auto. reflexivity. Qed.
Lemma offsets_mono : forall P i j, i <= j -> j <= length P -> nth i (offsets 0 P) 0 <= nth j (offsets 0 P) 0.
Proof.
  intros P i j H1 H2. rewrite !offsets_nth by lia. replace (firstn j P) with (firstn i P ++ firstn (j - i) (skipn i P)).
  - rewrite concat_app, app_length. lia.
  - rewrite <- (firstn_skipn i (firstn j P)). f_equal; [rewrite firstn_firstn; f_equal; lia|]. symmetry. apply skipn_firstn_comm.
Qed.
Lemma offsets_le : forall P i, i <= length P -> nth i (offsets 0 P) 0 <= length (columns P).
Proof.
  intros P i H. rewrite offsets_nth by auto. unfold columns. rewrite <- (firstn_skipn i P) at 2. rewrite concat_app, app_length. lia.
Qed.
Lemma row_in_slice : forall P i a b c, a <= i -> i < b -> b <= length P -> In c (nth i P []) ->
  In c (DiscoModel.slice (columns P) (nth a (offsets 0 P) 0) (nth b (offsets 0 P) 0)).
Proof.
  intros P i a b c Ha Hb Hl Hc. rewrite <- csr_row_spec in Hc by lia. unfold csr_row in Hc.
  apply (proj1 (slice_In _ 0 _ _ _ _ (offsets_le P (i + 1) ltac:(lia)))) in Hc. destruct Hc as (j & Hj & E).
  apply (slice_In _ 0); [apply offsets_le; auto|]. exists j. split; auto. pose proof (offsets_mono P a i). pose proof (offsets_mono P (i + 1) b). lia.
Qed.

(** ** Gather *)
Definition shift_col (Wi Wo lon_lo c : nat) : nat := c / Wi * Wi + (c mod Wi + Wi / Wo * lon_lo) mod Wi.
Lemma local_psi_row : forall P Wi Wo lat_out p lon_lo ho, 
  let lo := nth p (split_starts lat_out) 0 in let n := nth p lat_out 0 in lo + n <= length P -> ho < n ->
  let psi := local_psi Wi Wo lat_out (offsets 0 P) (columns P) p lon_lo in
  csr_row (fst psi) (snd psi) ho = map (shift_col Wi Wo lon_lo) (nth (lo + ho) P []).
Proof.
  intros P Wi Wo lat_out p lon_lo ho lo n HP Hh psi. unfold csr_row, psi, local_psi. cbn [fst snd]. fold lo. fold n.
  set (base := nth lo (offsets 0 P) 0). set (e := nth (lo + n) (offsets 0 P) 0).
  assert (N : forall i, i <= n -> nth i (map (fun o => o - base) (DiscoModel.slice (offsets 0 P) lo (lo + n + 1))) 0 = nth (lo + i) (offsets 0 P) 0 - base).
  { intros i Hi. rewrite (map_nth (fun o => o - base) _ 0 i : nth i _ (0 - base) = _). rewrite slice_nth by lia. reflexivity. }
  rewrite !N by lia. rewrite <- csr_row_spec by lia. unfold csr_row.
  assert (M1 : base <= nth (lo + ho) (offsets 0 P) 0) by (apply offsets_mono; lia).
  assert (M2 : nth (lo + ho) (offsets 0 P) 0 <= nth (lo + ho + 1) (offsets 0 P) 0) by (apply offsets_mono; lia).
  assert (M3 : nth (lo + ho + 1) (offsets 0 P) 0 <= e) by (apply offsets_mono; lia).
  assert (M4 : e <= length (columns P)) by (apply offsets_le; lia).
  rewrite Nat.add_assoc. unfold DiscoModel.slice at 1. rewrite skipn_map, firstn_map. fold (shift_col Wi Wo lon_lo). f_equal.
  apply (slice_ext _ 0).
  - rewrite slice_len by lia. lia.
  - lia.
  - lia.
  - intros i Hi. rewrite slice_nth by lia. f_equal. lia.
Qed.
Lemma shift_col_split : forall Wi Wo lon_lo c, 1 <= Wi -> shift_col Wi Wo lon_lo c / Wi = c / Wi /\
  forall wo, (shift_col Wi Wo lon_lo c mod Wi + Wi / Wo * wo) mod Wi = (c mod Wi + Wi / Wo * (lon_lo + wo)) mod Wi.
Proof.
  intros Wi Wo lon_lo c H. unfold shift_col. set (u := (c mod Wi + Wi / Wo * lon_lo) mod Wi).
  assert (Hu : u < Wi) by (apply Nat.mod_upper_bound; lia).
  assert (E1 : (c / Wi * Wi + u) / Wi = c / Wi) by (rewrite Nat.div_add_l, (Nat.div_small u) by lia; lia).
  assert (E2 : (c / Wi * Wi + u) mod Wi = u) by (rewrite Nat.add_comm, Nat.mod_add, Nat.mod_small by lia; reflexivity).
  split; auto. intros wo. rewrite E2. unfold u. rewrite Nat.add_mod_idemp_l by lia. f_equal. ring.
Qed.

(** ** The halo radius *)
Lemma fold_min_le : forall l x, fold_left Nat.min l x <= x /\ forall y, In y l -> fold_left Nat.min l x <= y.
Proof.
  induction l as [|a l IH]; intros x; cbn [fold_left]; [split; [lia|intros y []]|]. destruct (IH (Nat.min x a)) as (H1 & H2). split; [lia|].
  intros y [<-|Hy]; [lia|auto].
Qed.
Lemma fold_max_ge : forall l x, x <= fold_left Nat.max l x /\ forall y, In y l -> y <= fold_left Nat.max l x.
Proof.
  induction l as [|a l IH]; intros x; cbn [fold_left]; [split; [lia|intros y []]|]. destruct (IH (Nat.max x a)) as (H1 & H2). split; [lia|].
  intros y [<-|Hy]; [lia|auto].
Qed.
Lemma reach_covers : forall lo hi l r h, In h l -> lo <= h + reach lo hi l r /\ h <= hi - 1 + reach lo hi l r.
Proof.
  intros lo hi l r h H. unfold reach. destruct l as [|x l]; [destruct H|]. cbn [length Nat.eqb lmin lmax].
  destruct (fold_min_le l x) as (A1 & A2), (fold_max_ge l x) as (B1 & B2). destruct H as [<-|H]; [lia|]. specialize (A2 _ H). specialize (B2 _ H). lia.
Qed.
Lemma reach_grows : forall lo hi l r, r <= reach lo hi l r.
Proof. intros. unfold reach. destruct (length l =? 0); lia. Qed.
Lemma fold_grows : forall (f : nat -> nat -> nat) l r, (forall r x, r <= f r x) -> r <= fold_left f l r.
Proof. intros f l. induction l; intros r H; cbn [fold_left]; [lia|]. pose proof (H r a). pose proof (IHl (f r a) H). lia. Qed.
Lemma fold_covers : forall (f : nat -> nat -> nat) (Q : nat -> Prop) l r x, (forall r x, r <= f r x) -> (forall a b, a <= b -> Q a -> Q b) ->
  In x l -> (forall r, Q (f r x)) -> Q (fold_left f l r).
Proof.
  intros f Q l. induction l as [|a l IH]; intros r x G M Hx Hq; [destruct Hx|]. cbn [fold_left]. destruct Hx as [->|Hx].
  - eapply M; [apply fold_grows; auto|apply Hq].
  - eapply IH; eauto.
Qed.
Lemma r_lat_covers : forall P Hi Ho Wi Np p ho c, 1 <= Np -> Np <= Hi -> Np <= Ho -> pattern_ok P Ho (Hi * Wi) -> p < Np ->
  chunk_lo Ho Np p <= ho -> ho < chunk_lo Ho Np p + chunk_len Ho Np p -> In c (nth ho P []) ->
  let r := compute_r_lat Np Wi (bal Hi Np) (bal Ho Np) (offsets 0 P) (columns P) in
  chunk_lo Hi Np p <= c / Wi + r /\ c / Wi < chunk_lo Hi Np p + chunk_len Hi Np p + r.
Proof.
  intros P Hi Ho Wi Np p ho c HN H1 H2 HP Hp L1 L2 Hc r. pose proof (chunk_bound Ho Np p HN Hp) as HB. pose proof (chunk_len_pos Hi Np p HN H1 Hp) as HL.
  assert (Lc : c / Wi < Hi). { eapply row_bound in Hc; [|exact HP]. apply col_split in Hc. tauto. }
  destruct HP as (LP & _). unfold r, compute_r_lat. destruct (Nat.eqb_spec Np 1) as [->|N1].
  { assert (p = 0) by lia. subst p. unfold chunk_len. rewrite (chunk_lo_total Hi 1) by lia. cbn [chunk_lo Nat.mul Nat.min Nat.add]. lia. }
  destruct (Nat.eqb_spec (length (columns P)) 0) as [Z|_].
  { exfalso. assert (In c (columns P)). { apply in_concat. exists (nth ho P []). split; auto. apply nth_In. lia. } destruct (columns P); [auto|discriminate]. }
  match goal with |- context [fold_left ?f _ _] => set (F := f) end.
  apply (fold_covers F (fun r => chunk_lo Hi Np p <= c / Wi + r /\ c / Wi < chunk_lo Hi Np p + chunk_len Hi Np p + r) (seq 0 Np) 0 p).
  - intros r0 x. unfold F. destruct (_ =? _); [lia|apply reach_grows].
  - intros; lia.
  - apply in_seq. lia.
  - intros r0. unfold F. rewrite !starts_bal, !chunk_len_nth by auto.
    pose proof (row_in_slice P ho (chunk_lo Ho Np p) (chunk_lo Ho Np p + chunk_len Ho Np p) c L1 L2 ltac:(lia) Hc) as Hs.
    destruct (Nat.eqb_spec (nth (chunk_lo Ho Np p) (offsets 0 P) 0) (nth (chunk_lo Ho Np p + chunk_len Ho Np p) (offsets 0 P) 0)) as [E|_].
    { unfold DiscoModel.slice in Hs. rewrite E, Nat.sub_diag in Hs. destruct Hs. }
    match goal with |- context [reach ?lo ?hi ?l ?r] => pose proof (reach_covers lo hi l r (c / Wi)) as Q end. cbv zeta in Q |- *.
    destruct Q as (Q1 & Q2); [apply in_map_iff; exists c; auto|]. lia.
Qed.

(** ** Scatter *)
Definition tagged (o : nat) (P : pattern) : list (nat * nat) := flat_map (fun x => map (pair (fst x)) (snd x)) (combine (seq o (length P)) P).
Lemma row_lengths_offsets : forall P o, row_lengths (offsets o P) = map (@length nat) P.
Proof.
  induction P as [|r P IH]; intros o; [reflexivity|]. cbn [map]. rewrite <- (IH (o + length r)). unfold row_lengths. cbn [offsets tl].
  destruct P; cbn [offsets combine map fst snd tl]; f_equal; lia.
Qed.
Lemma combine_tagged : forall P o, combine (flat_map (fun x => repeat (fst x) (snd x)) (combine (seq o (length P)) (map (@length nat) P))) (columns P) = tagged o P.
Proof.
  induction P as [|r P IH]; intros o; [reflexivity|]. unfold tagged, columns in *. cbn [length seq map combine flat_map concat fst snd]. rewrite <- IH.
  clear IH. induction r as [|c r IHr]; [reflexivity|]. cbn [length repeat app combine map]. f_equal. exact IHr.
Qed.
Lemma nz_tagged : forall P, combine (hi_of_nz (length P) (offsets 0 P)) (columns P) = tagged 0 P.
Proof. intros. unfold hi_of_nz. rewrite row_lengths_offsets. apply combine_tagged. Qed.
Lemma tagged_flat : forall X P o (F : nat -> nat -> list X), flat_map (fun x => F (fst x) (snd x)) (tagged o P) = flat_map (fun j => flat_map (F (o + j)) (nth j P [])) (seq 0 (length P)).
Proof.
  intros X P. induction P as [|r P IH]; intros o F; [reflexivity|]. unfold tagged. cbn [length seq combine flat_map fst snd]. rewrite flat_map_app. f_equal.
  - rewrite Nat.add_0_r. cbn [nth]. induction r as [|c r IHr]; [reflexivity|]. cbn [map flat_map fst snd]. f_equal. exact IHr.
  - fold (tagged (S o) P). rewrite IH, <- seq_shift. rewrite !flat_map_concat_map, map_map. f_equal. apply map_ext. intros j. cbn [nth]. f_equal.
    + apply (f_equal F). lia.
Qed.
Lemma tagged_in : forall P h c, h < length P -> In c (nth h P []) -> In (h, c) (tagged 0 P).
Proof.
  intros P h c Hh Hc.
  assert (E : tagged 0 P = flat_map (fun x => (fun a b => [(a, b)]) (fst x) (snd x)) (tagged 0 P)).
  { generalize (tagged 0 P). induction l as [|[a b] l IH]; [reflexivity|]. cbn [flat_map fst snd app]. f_equal. exact IH. }
  rewrite E, (tagged_flat _ P 0 (fun a b => [(a, b)])). apply in_flat_map. exists h. split; [apply in_seq; lia|]. apply in_flat_map. exists c. split; auto. left. reflexivity.
Qed.
Lemma r_lat_up_covers : forall P Hi Ho Wo Np p h c, 1 <= Np -> Np <= Hi -> Np <= Ho -> pattern_ok P Hi (Ho * Wo) -> p < Np -> h < Hi ->
  chunk_lo Ho Np p <= c / Wo -> c / Wo < chunk_lo Ho Np p + chunk_len Ho Np p -> In c (nth h P []) ->
  let r := compute_r_lat_up Np Wo Hi (bal Hi Np) (bal Ho Np) (offsets 0 P) (columns P) in
  chunk_lo Hi Np p <= h + r /\ h < chunk_lo Hi Np p + chunk_len Hi Np p + r.
Proof.
  intros P Hi Ho Wo Np p h c HN H1 H2 HP Hp Hh L1 L2 Hc r. pose proof (chunk_len_pos Hi Np p HN H1 Hp) as HL.
  destruct HP as (LP & _). unfold r, compute_r_lat_up. destruct (Nat.eqb_spec Np 1) as [->|N1].
  { assert (p = 0) by lia. subst p. unfold chunk_len. rewrite (chunk_lo_total Hi 1) by lia. cbn [chunk_lo Nat.mul Nat.min Nat.add]. lia. }
  destruct (Nat.eqb_spec (length (columns P)) 0) as [Z|_].
  { exfalso. assert (In c (columns P)). { apply in_concat. exists (nth h P []). split; auto. apply nth_In. lia. } destruct (columns P); [auto|discriminate]. }
  rewrite <- LP. rewrite nz_tagged. rewrite LP.
  match goal with |- context [fold_left ?f _ _] => set (F := f) end.
  apply (fold_covers F (fun r => chunk_lo Hi Np p <= h + r /\ h < chunk_lo Hi Np p + chunk_len Hi Np p + r) (seq 0 Np) 0 p).
  - intros r0 x. unfold F. apply reach_grows.
  - intros; lia.
  - apply in_seq. lia.
  - intros r0. unfold F. rewrite !starts_bal, !chunk_len_nth by auto.
    match goal with |- context [reach ?lo ?hi ?l ?r] => pose proof (reach_covers lo hi l r h) as Q end. cbv zeta in Q |- *.
    destruct Q as (Q1 & Q2); [|lia]. apply in_map_iff. exists (h, c). split; auto. apply filter_In. split; [apply tagged_in; [lia|auto]|].
    cbn [snd]. rewrite (proj2 (Nat.leb_le _ _)), (proj2 (Nat.ltb_lt _ _)) by lia. reflexivity.
Qed.

Lemma window : forall X (G : nat -> list X) a n M, a + n <= M -> (forall u, G u <> [] -> a <= u < a + n) -> flat_map G (seq 0 M) = flat_map G (seq a n).
Proof.
  intros X G a n M H HG. replace M with (a + (n + (M - a - n))) by lia. rewrite !seq_app, !flat_map_app. cbn [Nat.add].
  assert (E : forall s m, (forall u, s <= u < s + m -> ~ (a <= u < a + n)) -> flat_map G (seq s m) = []).
  { intros s m. revert s. induction m; intros s Hs; [reflexivity|]. cbn [seq flat_map]. rewrite IHm by (intros; apply Hs; lia).
    destruct (G s) eqn:Q; [reflexivity|]. exfalso. apply (Hs s); [lia|]. apply HG. rewrite Q. discriminate. }
  rewrite (E 0 a), (E (a + n)) by (intros; lia). rewrite app_nil_r. reflexivity.
Qed.
Lemma flat_map_shift : forall X (G : nat -> list X) a n, flat_map (fun j => G (a + j)) (seq 0 n) = flat_map G (seq a n).
Proof.
  intros X G a n. revert a. induction n; intros a; [reflexivity|]. cbn [seq flat_map]. rewrite Nat.add_0_r. f_equal. rewrite <- IHn, <- seq_shift.
  rewrite !flat_map_concat_map, map_map. f_equal. apply map_ext. intros. f_equal. lia.
Qed.
(** the same rows counted from two origins *)
Lemma two_windows : forall X (R : nat -> list X) Hi r lo n,
  flat_map (fun h => if (lo <=? h + r) && (h + r <? lo + n) then R h else []) (seq 0 Hi) =
  flat_map (fun j => if (r <=? lo + j) && (lo + j <? r + Hi) then R (lo + j - r) else []) (seq 0 n).
Proof.
  intros X R Hi r lo n.
  set (G := fun u => if (r <=? u) && (u <? r + Hi) && (lo <=? u) && (u <? lo + n) then R (u - r) else []).
  assert (HG : forall u, G u <> [] -> r <= u < r + Hi /\ lo <= u < lo + n).
  { intros u. unfold G. destruct (Nat.leb_spec r u), (Nat.ltb_spec u (r + Hi)), (Nat.leb_spec lo u), (Nat.ltb_spec u (lo + n)); cbn [andb]; try congruence; lia. }
  transitivity (flat_map (fun j => G (r + j)) (seq 0 Hi)).
  { rewrite !flat_map_concat_map. f_equal. apply map_ext_in. intros h Hh. apply in_seq in Hh. unfold G.
    rewrite (proj2 (Nat.leb_le r (r + h))), (proj2 (Nat.ltb_lt (r + h) (r + Hi))) by lia. cbn [andb]. replace (h + r) with (r + h) by lia.
    replace (r + h - r) with h by lia. reflexivity. }
  transitivity (flat_map (fun j => G (lo + j)) (seq 0 n)).
  2:{ rewrite !flat_map_concat_map. f_equal. apply map_ext_in. intros j Hj. apply in_seq in Hj. unfold G.
      rewrite (proj2 (Nat.leb_le lo (lo + j))), (proj2 (Nat.ltb_lt (lo + j) (lo + n))) by lia. rewrite !andb_true_r. reflexivity. }
  rewrite !flat_map_shift. rewrite <- (window _ G r Hi (r + Hi + lo + n)), <- (window _ G lo n (r + Hi + lo + n)); auto; try lia; intros u Hu; apply HG in Hu; lia.
Qed.
Lemma count_runs : forall (L : nat -> nat) n a h, count_occ Nat.eq_dec (flat_map (fun j => repeat j (L j)) (seq a n)) h = if (a <=? h) && (h <? a + n) then L h else 0.
Proof.
  intros L n. induction n; intros a h; cbn [seq flat_map].
  - rewrite (proj2 (andb_false_iff _ _)); [reflexivity|]. destruct (Nat.leb_spec a h); [right; apply Nat.ltb_ge; lia|left; reflexivity].
  - rewrite count_occ_app, IHn.
    assert (E : count_occ Nat.eq_dec (repeat a (L a)) h = if a =? h then L a else 0).
    { destruct (Nat.eqb_spec a h) as [<-|Ne].
      - induction (L a); cbn [repeat count_occ]; [reflexivity|]. destruct (Nat.eq_dec a a); [lia|congruence].
      - induction (L a); cbn [repeat count_occ]; [reflexivity|]. destruct (Nat.eq_dec a h); [congruence|auto]. }
    rewrite E. destruct (Nat.eqb_spec a h), (Nat.leb_spec a h), (Nat.leb_spec (S a) h), (Nat.ltb_spec h (a + S n)), (Nat.ltb_spec h (S a + n)); cbn [andb]; subst; lia.
Qed.
Lemma offsets_accumulate : forall P o, o :: accumulate o (map (@length nat) P) = offsets o P.
Proof. induction P as [|r P IH]; intros o; [reflexivity|]. cbn [map accumulate offsets]. f_equal. apply IH. Qed.
Lemma filter_map_flat : forall X Y (f : X -> bool) (g : X -> Y) l, map g (filter f l) = flat_map (fun x => if f x then [g x] else []) l.
Proof. intros. induction l as [|a l IH]; [reflexivity|]. cbn [filter flat_map]. destruct (f a); cbn [map app]; rewrite <- IH; reflexivity. Qed.
Lemma flat_ext : forall X Y (f g : X -> list Y) l, (forall x, In x l -> f x = g x) -> flat_map f l = flat_map g l.
Proof. intros. rewrite !flat_map_concat_map. f_equal. apply map_ext_in. auto. Qed.

(** one row of the local pattern: halo row j is the global row lo + j - r *)
Definition keep (out_lo out_hi Wo c : nat) : bool := (out_lo <=? c / Wo) && (c / Wo <? out_hi).
Definition recol (out_lo Wo lon_lo c : nat) : nat := (c / Wo - out_lo) * Wo + (c mod Wo + Wo - lon_lo) mod Wo.
Definition up_row (P : pattern) (Hi r lo out_lo out_hi Wo lon_lo j : nat) : list nat :=
  if (r <=? lo + j) && (lo + j <? r + Hi) then map (recol out_lo Wo lon_lo) (filter (keep out_lo out_hi Wo) (nth (lo + j - r) P [])) else [].
Lemma zmod_nat : forall x l W, 1 <= W -> l <= W -> Z.to_nat ((Z.of_nat x - Z.of_nat l) mod Z.of_nat W) = (x + W - l) mod W.
Proof.
  intros x l W HW Hl. replace (Z.of_nat x - Z.of_nat l)%Z with (Z.of_nat (x + W - l) + (-1) * Z.of_nat W)%Z by lia.
  rewrite Z.mod_add by lia. rewrite <- Nat2Z.inj_mod. apply Nat2Z.id.
Qed.
Lemma local_psi_up_pat : forall P Hi Wo lat_in lat_out p lon_lo r, length P = Hi -> 1 <= Wo -> lon_lo <= Wo ->
  let lo := nth p (split_starts lat_in) 0 in let out_lo := nth p (split_starts lat_out) 0 in let n := nth p lat_in 0 + 2 * r in
  let P' := map (up_row P Hi r lo out_lo (out_lo + nth p lat_out 0) Wo lon_lo) (seq 0 n) in
  local_psi_up Wo Hi lat_in lat_out (offsets 0 P) (columns P) p lon_lo r = (offsets 0 P', columns P').
Proof.
  intros P Hi Wo lat_in lat_out p lon_lo r LP HWo Hlon lo out_lo n P'. unfold P', local_psi_up. rewrite <- LP, nz_tagged. fold lo. fold out_lo.
  set (out_hi := out_lo + nth p lat_out 0). fold n.
  set (sel := filter _ (tagged 0 P)).
  set (rowL := up_row P Hi r lo out_lo out_hi Wo lon_lo).
  set (R := fun h => filter (keep out_lo out_hi Wo) (nth h P [])).
  assert (ES : forall Y (g : nat * nat -> Y), map g sel =
     flat_map (fun h => if (lo <=? h + r) && (h + r <? lo + n) then map (fun c => g (h, c)) (R h) else []) (seq 0 Hi)).
  { intros Y g. unfold sel. rewrite filter_map_flat.
    transitivity (flat_map (fun x => (fun h c => if (lo <=? h + r) && (h + r <? lo + n) && keep out_lo out_hi Wo c then [g (h, c)] else []) (fst x) (snd x)) (tagged 0 P)).
    { apply flat_ext. intros [h c] _. cbn [fst snd]. unfold keep.
      replace (0 <=? Z.of_nat h - (Z.of_nat lo - Z.of_nat r))%Z with (lo <=? h + r) by (destruct (Nat.leb_spec lo (h + r)), (Z.leb_spec 0 (Z.of_nat h - (Z.of_nat lo - Z.of_nat r))); auto; lia).
      replace (Z.of_nat h - (Z.of_nat lo - Z.of_nat r) <? Z.of_nat n)%Z with (h + r <? lo + n) by (destruct (Nat.ltb_spec (h + r) (lo + n)), (Z.ltb_spec (Z.of_nat h - (Z.of_nat lo - Z.of_nat r)) (Z.of_nat n)); auto; lia).
      destruct (out_lo <=? c / Wo), (c / Wo <? out_hi), (lo <=? h + r), (h + r <? lo + n); reflexivity. }
    rewrite (tagged_flat _ P 0 (fun h c => if (lo <=? h + r) && (h + r <? lo + n) && keep out_lo out_hi Wo c then [g (h, c)] else [])), LP. apply flat_ext. intros h _. cbn [Nat.add]. unfold R. rewrite filter_map_flat.
    destruct (lo <=? h + r), (h + r <? lo + n); cbn [andb]; try reflexivity; induction (nth h P []); cbn [flat_map]; auto. }
  assert (EC : map (fun x => (snd x / Wo - out_lo) * Wo + Z.to_nat ((Z.of_nat (snd x mod Wo) - Z.of_nat lon_lo) mod Z.of_nat Wo)) sel = columns (map rowL (seq 0 n))).
  { rewrite ES. unfold columns. rewrite <- flat_map_concat_map. cbn [snd].
    rewrite two_windows. apply flat_ext. intros j _. unfold rowL, up_row. destruct (_ && _); [|reflexivity]. apply map_ext. intros c. unfold recol. rewrite zmod_nat by auto. reflexivity. }
  assert (EH : map (fun x => Z.to_nat (Z.of_nat (fst x) - (Z.of_nat lo - Z.of_nat r))) sel = flat_map (fun j => repeat j (length (rowL j))) (seq 0 n)).
  { rewrite ES. cbn [fst].
    rewrite two_windows. apply flat_ext. intros j _. unfold rowL, up_row. destruct (Nat.leb_spec r (lo + j)); cbn [andb]; [|reflexivity]. destruct (lo + j <? r + Hi); [|reflexivity].
    rewrite map_length. unfold R. generalize (filter (keep out_lo out_hi Wo) (nth (lo + j - r) P [])). intros l.
    induction l as [|c l IH]; [reflexivity|]. cbn [map length repeat]. f_equal; [lia|exact IH]. }
  cbv zeta. cbn [fst snd]. rewrite EC, EH.
  replace (map (fun h => count_occ Nat.eq_dec (flat_map (fun j => repeat j (length (rowL j))) (seq 0 n)) h) (seq 0 n)) with (map (@length nat) (map rowL (seq 0 n))).
  2:{ rewrite map_map. apply map_ext_in. intros h Hh. apply in_seq in Hh. rewrite count_runs. cbn [Nat.leb andb Nat.add]. rewrite (proj2 (Nat.ltb_lt h n)) by lia. reflexivity. }
  rewrite offsets_accumulate. unfold rowL. rewrite LP. reflexivity.
Qed.
Lemma local_psi_up_row : forall P Hi Wo lat_in lat_out p lon_lo r hl, length P = Hi -> 1 <= Wo -> lon_lo <= Wo ->
  let lo := nth p (split_starts lat_in) 0 in let out_lo := nth p (split_starts lat_out) 0 in let n := nth p lat_in 0 + 2 * r in hl < n ->
  let psi := local_psi_up Wo Hi lat_in lat_out (offsets 0 P) (columns P) p lon_lo r in
  csr_row (fst psi) (snd psi) hl = up_row P Hi r lo out_lo (out_lo + nth p lat_out 0) Wo lon_lo hl.
Proof.
  intros P Hi Wo lat_in lat_out p lon_lo r hl LP HWo Hlon lo out_lo n Hhl psi. unfold psi. rewrite local_psi_up_pat by auto. cbn [fst snd]. fold lo. fold out_lo. fold n. set (rowL := up_row P Hi r lo out_lo (out_lo + nth p lat_out 0) Wo lon_lo).
  rewrite csr_row_spec by (rewrite map_length, seq_length; auto).
  rewrite (nth_indep _ [] (rowL 0)) by (rewrite map_length, seq_length; auto). rewrite map_nth, seq_nth by auto. reflexivity.
Qed.
