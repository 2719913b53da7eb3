(** The radius is the least sufficient one; failures; the serial layer. *)
From Coq Require Import List Arith Lia Bool ZArith Reals Lra Permutation.
From Verif Require Import TensorModel TensorProofs BigSum DiscoModel PrimModel PrimAutogradModel PrimSpec PrimProofs HaloProofs DistSHTModel DistSHTProofs DistSpectralProofs
  AttnModel AttnLayerModel AttnSpec AttnLayerSpec AttnCoreProofs AttnKernelProofs AttnUpProofs AttnLayerProofs AttnExProofs
  DistStateModel DistAttnModel DistAttnSpec DistAttnProofs DistAttnProofs2 DistAttnProofs3 DistAttnProofs4.
Import ListNotations.
Local Open Scope nat_scope.

Lemma fold_min_in : forall l x, In (fold_left Nat.min l x) (x :: l).
Proof.
  induction l as [|a l IH]; intros x; cbn [fold_left]; [left; reflexivity|]. destruct (IH (Nat.min x a)) as [E|E]; [|right; right; exact E].
  rewrite <- E. destruct (Nat.min_spec x a) as [(_ & ->)|(_ & ->)]; [left|right; left]; reflexivity.
Qed.
Lemma fold_max_in : forall l x, In (fold_left Nat.max l x) (x :: l).
Proof.
  induction l as [|a l IH]; intros x; cbn [fold_left]; [left; reflexivity|]. destruct (IH (Nat.max x a)) as [E|E]; [|right; right; exact E].
  rewrite <- E. destruct (Nat.max_spec x a) as [(_ & ->)|(_ & ->)]; [right; left|left]; reflexivity.
Qed.
Lemma reach_least : forall lo hi l r R, r <= R -> (forall h, In h l -> lo <= h + R /\ h <= hi - 1 + R) -> reach lo hi l r <= R.
Proof.
  intros lo hi l r R Hr H. unfold reach. destruct l as [|x l]; [exact Hr|]. cbn [length Nat.eqb lmin lmax].
  pose proof (H _ (fold_min_in l x)). pose proof (H _ (fold_max_in l x)). lia.
Qed.
Lemma fold_least : forall (f : nat -> nat -> nat) R l r, (forall r x, In x l -> r <= R -> f r x <= R) -> r <= R -> fold_left f l r <= R.
Proof. intros f R l. induction l; intros r H Hr; cbn [fold_left]; [exact Hr|]. apply IHl; [intros; apply H; auto; right; auto|apply H; [left|]; auto]. Qed.
Lemma slice_rows : forall P a b c, a <= b -> b <= length P -> In c (DiscoModel.slice (columns P) (nth a (offsets 0 P) 0) (nth b (offsets 0 P) 0)) -> exists i, a <= i < b /\ In c (nth i P []).
Proof.
  intros P a b c Hab Hb Hc. rewrite !offsets_nth in Hc by lia. unfold DiscoModel.slice, columns in Hc.
  assert (E : concat P = concat (firstn a P) ++ concat (firstn (b - a) (skipn a P)) ++ concat (skipn b P)).
  { rewrite <- !concat_app. f_equal. rewrite app_assoc. rewrite <- (firstn_skipn b P) at 1. f_equal.
    rewrite <- (firstn_skipn a (firstn b P)). f_equal; [rewrite firstn_firstn; f_equal; lia|]. apply skipn_firstn_comm. }
  assert (EL : length (concat (firstn b P)) = length (concat (firstn a P)) + length (concat (firstn (b - a) (skipn a P)))).
  { rewrite <- app_length, <- concat_app. f_equal. f_equal. rewrite <- (firstn_skipn a (firstn b P)). f_equal; [rewrite firstn_firstn; f_equal; lia|]. apply skipn_firstn_comm. }
  rewrite E, EL in Hc. rewrite skipn_app, skipn_all, Nat.sub_diag in Hc. cbn [app skipn] in Hc.
  replace (length (concat (firstn a P)) + length (concat (firstn (b - a) (skipn a P))) - length (concat (firstn a P))) with (length (concat (firstn (b - a) (skipn a P)))) in Hc by lia.
  rewrite firstn_app, firstn_all, Nat.sub_diag, firstn_O, app_nil_r in Hc.
  apply in_concat in Hc. destruct Hc as (row & Hr & Hc). apply (In_nth _ _ []) in Hr. destruct Hr as (i & Hi & <-). rewrite firstn_length, skipn_length in Hi.
  rewrite nth_firstn', nth_skipn' in Hc by lia. exists (a + i). split; [lia|exact Hc].
Qed.
Lemma tagged_of : forall P h c, In (h, c) (tagged 0 P) -> h < length P /\ In c (nth h P []).
Proof.
  intros P h c H.
  assert (E : tagged 0 P = flat_map (fun x => (fun a b => [(a, b)]) (fst x) (snd x)) (tagged 0 P)).
  { generalize (tagged 0 P). induction l as [|[a b] l IH]; [reflexivity|]. cbn [flat_map fst snd app]. f_equal. exact IH. }
  rewrite E, (tagged_flat _ P 0 (fun a b => [(a, b)])) in H. apply in_flat_map in H. destruct H as (j & Hj & H). apply in_seq in Hj.
  apply in_flat_map in H. destruct H as (c' & Hc & [Eq|[]]). injection Eq as <- <-. split; [lia|exact Hc].
Qed.

Lemma upsample_dec : forall Wi Wo, (Wi mod Wo = 0 \/ Wo mod Wi = 0) -> na_upsample Wi Wo = negb (Wi mod Wo =? 0).
Proof.
  intros Wi Wo Hd. unfold na_upsample. destruct (Nat.eqb_spec (Wi mod Wo) 0); cbn [negb]; [apply andb_false_r|]. rewrite andb_true_r. apply Nat.eqb_eq. tauto.
Qed.
Section Radius.
Variables (P : pattern) (Hi Wi Ho Wo Np : nat).
Hypothesis (HNp : 1 <= Np) (HNi : Np <= Hi) (HNo : Np <= Ho) (HWi : 1 <= Wi) (HWo : 1 <= Wo).
Hypothesis Hd : Wi mod Wo = 0 \/ Wo mod Wi = 0.
Hypothesis HP : if Wi mod Wo =? 0 then pattern_ok P Ho (Hi * Wi) else pattern_ok P Hi (Ho * Wo).
Definition radius : nat :=
  if na_upsample Wi Wo then compute_r_lat_up Np Wo Hi (bal Hi Np) (bal Ho Np) (offsets 0 P) (columns P)
  else compute_r_lat Np Wi (bal Hi Np) (bal Ho Np) (offsets 0 P) (columns P).
Lemma radius_ok : radius_suffices P Hi Wi Ho Wo Np radius.
Proof.
  intros p y x pt Hp Hy Hx Hpt. unfold radius. rewrite (upsample_dec Wi Wo Hd). unfold nbrs in Hpt. destruct (Nat.eqb_spec (Wi mod Wo) 0) as [E|E]; cbn [negb].
  - unfold nbrs_gather, rotated in Hpt. apply in_map_iff in Hpt. destruct Hpt as (c & <- & Hc). cbn [fst]. apply (r_lat_covers P Hi Ho Wi Np p y c); auto; lia.
  - unfold nbrs_scatter in Hpt. apply in_flat_map in Hpt. destruct Hpt as (h & Hh & Hpt). apply in_seq in Hh. apply in_flat_map in Hpt. destruct Hpt as (w & Hw & Hpt). apply in_seq in Hw.
    apply in_map_iff in Hpt. destruct Hpt as (tg & <- & Ht). apply filter_In in Ht. destruct Ht as (Ht & Et). apply pt_eqb_iff in Et. subst tg.
    unfold rotated in Ht. apply in_map_iff in Ht. destruct Ht as (c & Ec & Hc). injection Ec as E1 E2. cbn [fst].
    apply (r_lat_up_covers P Hi Ho Wo Np p h c); auto; lia.
Qed.
Lemma radius_least : forall R, radius_suffices P Hi Wi Ho Wo Np R -> radius <= R.
Proof.
  intros R HR. unfold radius. rewrite (upsample_dec Wi Wo Hd). unfold radius_suffices, nbrs in HR. destruct (Nat.eqb_spec (Wi mod Wo) 0) as [E|E]; cbn [negb].
  - unfold compute_r_lat. destruct (Np =? 1); [lia|]. destruct (length (columns P) =? 0); [lia|]. apply fold_least; [|lia].
    intros r p Hp Hr. apply in_seq in Hp. destruct (_ =? _); [exact Hr|]. apply reach_least; [exact Hr|]. rewrite !starts_bal, !chunk_len_nth by lia.
    pose proof (chunk_bound Ho Np p HNp ltac:(lia)). intros h Hh. apply in_map_iff in Hh. destruct Hh as (c & <- & Hc).
    apply slice_rows in Hc; [|lia|rewrite (proj1 HP); lia]. destruct Hc as (i & Hi' & Hc).
    destruct (HR p i 0 (c / Wi, (c mod Wi + Wi / Wo * 0) mod Wi)) as (Q1 & Q2); [lia|lia|lia| |cbn [fst] in *; pose proof (chunk_len_pos Hi Np p HNp HNi ltac:(lia)); lia].
    unfold nbrs_gather, rotated. apply in_map_iff. exists c. auto.
  - unfold compute_r_lat_up. destruct (Np =? 1); [lia|]. destruct (length (columns P) =? 0); [lia|]. apply fold_least; [|lia].
    intros r p Hp Hr. apply in_seq in Hp. apply reach_least; [exact Hr|]. rewrite !starts_bal, !chunk_len_nth by lia.
    intros h Hh. apply in_map_iff in Hh. destruct Hh as ((h', c) & Eh & Hc). cbn [fst] in Eh. subst h'. apply filter_In in Hc. destruct Hc as (Hc & Hr').
    cbn [snd] in Hr'. apply andb_prop in Hr'. destruct Hr' as (R1 & R2). apply Nat.leb_le in R1. apply Nat.ltb_lt in R2.
    rewrite <- (proj1 HP) in Hc. rewrite nz_tagged in Hc. apply tagged_of in Hc. destruct Hc as (Lh & Hc). rewrite (proj1 HP) in Lh.
    assert (Lc : c < Ho * Wo) by (eapply row_bound; eauto). destruct (col_split c Ho Wo Lc) as (C1 & C2).
    destruct (HR p (c / Wo) (c mod Wo) (h, 0)) as (Q1 & Q2); [lia|lia|auto| |cbn [fst] in *; pose proof (chunk_len_pos Hi Np p HNp HNi ltac:(lia)); lia].
    unfold nbrs_scatter. apply in_flat_map. exists h. split; [apply in_seq; lia|]. apply in_flat_map. exists 0. split; [apply in_seq; lia|].
    apply in_map_iff. exists (c / Wo, c mod Wo). split; [reflexivity|]. apply filter_In. split; [|apply pt_eqb_iff; reflexivity].
    unfold rotated. apply in_map_iff. exists c. split; [|exact Hc]. rewrite Nat.mul_0_r, Nat.add_0_r, (Nat.mod_small (c mod Wo)) by auto. reflexivity.
Qed.
End Radius.

(** ** The constructor *)
Lemma uniform_iff : forall Wi Wo A, 1 <= A -> (Wi mod Wo = 0 \/ Wo mod Wi = 0) -> uniform_split (na_upsample Wi Wo) Wi Wo (bal Wi A) (bal Wo A) = true <-> same_ratio Wi Wo A.
Proof.
  intros Wi Wo A HA Hd. unfold uniform_split. rewrite forallb_forall. rewrite (upsample_dec Wi Wo Hd). unfold same_ratio. split.
  - intros H a Ha. specialize (H (nth a (combine (bal Wi A) (bal Wo A)) (0, 0))).
    assert (Hin : In (nth a (combine (bal Wi A) (bal Wo A)) (0, 0)) (combine (bal Wi A) (bal Wo A))) by (apply nth_In; rewrite combine_length, !bal_length by auto; lia).
    specialize (H Hin). rewrite combine_nth in H by (rewrite !bal_length by auto; reflexivity). cbn [fst snd] in H. rewrite !chunk_len_nth in H by auto.
    destruct (Wi mod Wo =? 0); cbn [negb] in H; apply Nat.eqb_eq; exact H.
  - intros H x Hx. apply (In_nth _ _ (0, 0)) in Hx. destruct Hx as (i & Hi & <-). rewrite combine_length, !bal_length, Nat.min_id in Hi by auto.
    rewrite combine_nth by (rewrite !bal_length by auto; reflexivity). cbn [fst snd]. rewrite !chunk_len_nth by auto. specialize (H i Hi).
    destruct (Wi mod Wo =? 0); cbn [negb]; apply Nat.eqb_eq; exact H.
Qed.
Lemma init_iff : forall argsort P A L p a, 1 <= P -> P <= na_Hi L -> P <= na_Ho L -> 1 <= A -> A <= na_Wi L -> A <= na_Wo L ->
  (na_Wi L mod na_Wo L = 0 \/ na_Wo L mod na_Wi L = 0) ->
  (exists o, dist_na_init argsort P A L p a = Some o) <-> same_ratio (na_Wi L) (na_Wo L) A.
Proof.
  intros argsort P A L p a H1 H2 H3 H4 H5 H6 Hd. rewrite <- uniform_iff by auto. unfold dist_na_init. rewrite !css_some by lia. cbn [bindo].
  rewrite (proj2 (Nat.leb_le 1 (na_Wi L))), (proj2 (Nat.leb_le 1 (na_Wo L))) by lia. cbn [andb guard bindo].
  destruct (uniform_split _ _ _ _ _); cbn [guard bindo].
  - split; auto. intros _. destruct (na_upsample _ _); [destruct (local_psi_up _ _ _ _ _ _ _ _ _)|destruct (local_psi _ _ _ _ _ _ _)]; eexists; reflexivity.
  - split; [intros (o & E); discriminate|discriminate].
Qed.
Lemma even_split_ok : forall Wi Wo A, 1 <= A -> 1 <= Wi -> 1 <= Wo -> Wi mod A = 0 -> Wo mod A = 0 -> (Wi mod Wo = 0 \/ Wo mod Wi = 0) -> same_ratio Wi Wo A.
Proof.
  assert (CL : forall W A a, 1 <= A -> W mod A = 0 -> a < A -> chunk_len W A a = W / A).
  { intros W A a HA E Ha. apply Nat.mod_divide in E; [|lia]. destruct E as (k & ->). rewrite Nat.div_mul by lia. rewrite <- chunk_len_nth by auto.
    pose proof (bal_sum (k * A) A). unfold bal. rewrite Nat.mod_mul, Nat.div_mul by lia. cbn. rewrite ?Nat.sub_0_r.
    rewrite nth_repeat_lt || rewrite nth_repeat; auto. }
  intros Wi Wo A HA HWi HWo E1 E2 Hd a Ha. rewrite !CL by auto. destruct (Nat.eqb_spec (Wi mod Wo) 0) as [E|E].
  - apply Nat.mod_divide in E1; [|lia]. apply Nat.mod_divide in E2; [|lia]. apply Nat.mod_divide in E; [|lia]. destruct E as (k & ->), E2 as (j & ->).
    rewrite Nat.div_mul by lia. rewrite (Nat.div_mul j) by lia. rewrite Nat.mul_assoc, Nat.div_mul by lia. reflexivity.
  - destruct Hd as [Hd|Hd]; [contradiction|]. apply Nat.mod_divide in E1; [|lia]. apply Nat.mod_divide in Hd; [|lia]. destruct Hd as (k & ->), E1 as (j & ->).
    rewrite (Nat.div_mul k) by lia. rewrite (Nat.div_mul j) by lia. rewrite Nat.mul_assoc, Nat.div_mul by lia. reflexivity.
Qed.

(** ** Against the serial layer *)
Lemma chunk_len_ex : forall n p m, (forall q, q < n -> m <= chunk_len p n q) \/ exists q, q < n /\ chunk_len p n q < m.
Proof.
  intros n p m. assert (G : forall k, (forall q, q < k -> m <= chunk_len p n q) \/ exists q, q < k /\ chunk_len p n q < m).
  { induction k as [|k IH]; [left; intros; lia|]. destruct IH as [IH|(q & Hq & E)]; [|right; exists q; split; [lia|exact E]].
    destruct (le_lt_dec m (chunk_len p n k)) as [G|G]; [left|right; exists k; split; [lia|exact G]].
    intros q Hq. destruct (Nat.eq_dec q k) as [->|]; [exact G|apply IH; lia]. }
  apply G.
Qed.
Section Serial.
Variables (argsort : list nat -> list nat) (eps : R) (L : weights) (B Ci Ck Cv nh Co Hi Wi Ho Wo : nat) (quad : nat -> R) (P : pattern).
Variables (Np A : nat) (ranks : nat -> list nat).
Let SL := na_layer L Hi Wi Ho Wo nh quad P.
Let obj := dist_na_init argsort Np A SL.
Hypothesis HW : weights_ok L Ci Ck Cv nh Co.
Hypothesis HArg : forall l, Permutation (argsort l) (seq 0 (length l)).
Hypothesis HG : grid_ok Hi Wi Ho Wo Np A ranks.

Lemma obj_radius : forall k v q p a o, na_ok B Ci nh Ck Cv Hi Wi Ho Wo quad P k v q -> p < Np -> a < A -> obj p a = Some o -> da_r_lat o = radius P Hi Wi Ho Wo Np.
Proof.
  intros k v q p a o HN Hp Ha EO. destruct HG as [(? & ? & ?) (? & ? & ?) HS HR].
  destruct (init_some argsort L B Ci Ck Cv nh Hi Wi Ho Wo quad P k v q Np A HN HArg) with (p := p) (a := a) as (row & E & _); auto.
  unfold obj, SL in EO. rewrite E in EO. injection EO as <-. reflexivity.
Qed.
Lemma radius_exact : forall k v q p a o, na_ok B Ci nh Ck Cv Hi Wi Ho Wo quad P k v q -> p < Np -> a < A -> obj p a = Some o ->
  radius_suffices P Hi Wi Ho Wo Np (da_r_lat o) /\ forall R, radius_suffices P Hi Wi Ho Wo Np R -> da_r_lat o <= R.
Proof.
  intros k v q p a o HN Hp Ha EO. rewrite (obj_radius k v q p a o HN Hp Ha EO). destruct HG as [(? & ? & ?) (? & ? & ?) HS HR].
  destruct HN as [_ _ _ _ HWi HWo _ _ _ Hd HP _ _]. split; [apply radius_ok; auto|intros R HR'; apply radius_least; auto].
Qed.
Lemma fits_iff : forall k v q, na_ok B Ci nh Ck Cv Hi Wi Ho Wo quad P k v q ->
  halo_fits P Hi Wi Ho Wo Np <-> forall p, p < Np -> radius P Hi Wi Ho Wo Np <= chunk_len Hi Np p.
Proof.
  intros k v q HN. destruct HG as [(? & ? & ?) (? & ? & ?) HS HR]. destruct HN as [_ _ _ _ HWi HWo _ _ _ Hd HP _ _]. split.
  - intros (r & HR1 & HR2) p Hp. etransitivity; [apply radius_least; eauto|apply HR2; auto].
  - intros Q. exists (radius P Hi Wi Ho Wo Np). split; [apply radius_ok; auto|exact Q].
Qed.
Section Run.
Variables (k v q : tensor R) (kf vf qf : pfam (tensor R)).
Hypothesis HN : na_ok B Ci nh Ck Cv Hi Wi Ho Wo quad P k v q.
Hypothesis Hk : holds2 Np A kf (fun p a => shard 2 Np p (shard 3 A a k)).
Hypothesis Hv : holds2 Np A vf (fun p a => shard 2 Np p (shard 3 A a v)).
Hypothesis Hq : holds2 Np A qf (fun p a => shard 2 Np p (shard 3 A a q)).
Theorem dist_equals_serial : forall op, library_op op -> halo_fits P Hi Wi Ho Wo Np -> exists y, na_forward op eps SL q (Some k) (Some v) = Some y /\
  holds2 Np A (dist_na_forward eps Np ranks obj qf (Some kf) (Some vf)) (fun p a => shard 2 Np p (shard 3 A a y)).
Proof.
  intros op HO HF. destruct (na_forward_spec op eps L B Ci Ck Cv nh Co Hi Wi Ho Wo quad P k v q (library_correct op HO) HW HN) as (y & E & Ty). exists y. split; [exact E|].
  pose proof (proj1 (fits_iff k v q HN) HF) as HF'. pose proof HG as [(? & ? & ?) (? & ? & ?) HS HR].
  eapply holds2_teq.
  - apply (dist_na_forward_spec argsort eps L B Ci Ck Cv nh Co Hi Wi Ho Wo quad P k v q); auto.
    intros p a o Hp Ha EO. pose proof (obj_radius k v q p a o HN Hp Ha EO) as ER. rewrite ER. auto.
  - intros p a Hp Ha. cbn beta. apply shard_proper; [lia|exact Hp|]. apply shard_proper; [lia|exact Ha|]. apply teq_sym. exact Ty.
Qed.
Theorem runs_iff_fits : (forall p a, p < Np -> a < A -> exists y, dist_na_forward eps Np ranks obj qf (Some kf) (Some vf) p a = Some y) <-> halo_fits P Hi Wi Ho Wo Np.
Proof.
  split.
  - intros HY. rewrite (fits_iff k v q HN). destruct (chunk_len_ex Np Hi (radius P Hi Wi Ho Wo Np)) as [G|(p & Hp & G)]; [exact G|]. exfalso.
    pose proof HG as [(? & ? & ?) (? & ? & ?) HS HR].
    assert (N1 : Np <> 1). { intros E. unfold radius, compute_r_lat, compute_r_lat_up in G. rewrite E in G. cbn [Nat.eqb] in G. destruct (na_upsample Wi Wo); lia. }
    set (p' := if p + 1 <? Np then p + 1 else p - 1).
    assert (Hp' : p' < Np /\ (p' = p + 1 \/ p = p' + 1)) by (unfold p'; destruct (Nat.ltb_spec (p + 1) Np); lia). destruct Hp' as (Hp' & Adj).
    assert (EN : dist_na_forward eps Np ranks obj qf (Some kf) (Some vf) p' 0 = None).
    { apply (short_shard_fails argsort eps L B Ci Ck Cv nh Co Hi Wi Ho Wo quad P k v q Np A) with (p := p); auto. }
    destruct (HY p' 0 Hp') as (y & E); [lia|]. rewrite EN in E. discriminate.
  - intros HF p a Hp Ha. destruct (dist_equals_serial attn_torch (or_introl eq_refl) HF) as (y & _ & HH). destruct (HH p a Hp Ha) as (t & E & _). exists t. exact E.
Qed.
Theorem any_order : forall p a o x visits visits', halo_fits P Hi Wi Ho Wo Np -> p < Np -> a < A -> obj p a = Some o -> dist_proj eps obj qf kf vf p a = Some x ->
  dist_visits ranks (dist_chunk Np obj (dist_proj eps obj qf kf vf)) p a o = Some visits -> Permutation visits visits' ->
  exists out out', ring_output o p a visits (snd x) = Some out /\ ring_output o p a visits' (snd x) = Some out' /\ teq out' out.
Proof.
  intros p a o x visits visits' HF. pose proof (proj1 (fits_iff k v q HN) HF) as HF'. pose proof HG as [(? & ? & ?) (? & ? & ?) HS HR].
  apply (ring_any_order argsort eps L B Ci Ck Cv nh Co Hi Wi Ho Wo quad P k v q Np A); auto.
  intros p' a' o' Hp' Ha' EO. pose proof (obj_radius k v q p' a' o' HN Hp' Ha' EO) as ER. rewrite ER. auto.
Qed.
End Run.
Theorem dist_self : forall q qf op, na_ok B Ci nh Ck Cv Hi Wi Ho Wo quad P q q q -> holds2 Np A qf (fun p a => shard 2 Np p (shard 3 A a q)) ->
  library_op op -> halo_fits P Hi Wi Ho Wo Np -> exists y, na_forward op eps SL q None None = Some y /\
  holds2 Np A (dist_na_forward eps Np ranks obj qf None None) (fun p a => shard 2 Np p (shard 3 A a y)).
Proof. intros q qf op HN Hq HO HF. exact (dist_equals_serial q q q qf qf qf HN Hq Hq Hq op HO HF). Qed.
End Serial.

(** ** Examples *)
Definition ex_ranks (p : nat) : list nat := [2 * p; 2 * p + 1].
Lemma ex_grid : grid_ok 2 4 2 2 2 2 ex_ranks.
Proof.
  constructor; [repeat split; lia|repeat split; lia| |].
  - apply even_split_ok; try lia; reflexivity || (left; reflexivity).
  - intros p Hp. split; [|reflexivity]. unfold ex_ranks. repeat constructor; cbn [In]; lia.
Qed.
Lemma ex_fits : halo_fits ex_P 2 4 2 2 2.
Proof.
  exists 1. split; [|intros [|[|p]] Hp; cbn; lia].
  intros [|[|p]] y [|[|x]] pt Hp Hy Hx Hpt; try lia; cbn in Hy; (assert (y = 0 \/ y = 1) as [-> | ->] by lia); try lia; cbn in Hpt; cbn;
    repeat match goal with H : _ \/ _ |- _ => destruct H as [<- | H]; cbn; try lia end; contradiction.
Qed.
Lemma ex_up_na_ok : na_ok 1 3 2 1 2 2 2 2 4 ex_quad ex_P2 (ex_t [1;3;2;2]) (ex_t [1;3;2;2]) (ex_t [1;3;2;4]).
Proof. destruct ex_up_ok as [? ? ? ? ? ? ? ? ? ? ? ? ?]. constructor; auto. Qed.
Lemma ex_up_grid : grid_ok 2 2 2 4 2 2 ex_ranks.
Proof.
  constructor; [repeat split; lia|repeat split; lia| |].
  - apply even_split_ok; try lia; reflexivity || (right; reflexivity).
  - intros p Hp. split; [|reflexivity]. unfold ex_ranks. repeat constructor; cbn [In]; lia.
Qed.
Lemma ex_up_fits : halo_fits ex_P2 2 2 2 4 2.
Proof.
  exists 1. split; [|intros [|[|p]] Hp; cbn; lia].
  intros [|[|p]] y x pt Hp Hy Hx Hpt; try lia; cbn in Hy; (assert (y = 0 \/ y = 1) as [-> | ->] by lia); try lia;
    (destruct x as [|[|[|[|x]]]]; [| | | |lia]); cbn in Hpt; cbn;
    repeat match goal with H : _ \/ _ |- _ => destruct H as [<- | H]; cbn; try lia end; contradiction.
Qed.
(** a neighbourhood reaching across three one-row shards *)
Lemma ex_wide : ~ halo_fits [[0; 1; 2]; [1]; [2]] 3 1 3 1 3.
Proof.
  intros (r & H1 & H2). specialize (H2 0 ltac:(lia)). cbn in H2. destruct (H1 0 0 0 (2, 0)) as (_ & Q); [lia|cbn; lia|lia|cbn; auto|]. cbn in Q. lia.
Qed.
Lemma ex_uneven : ~ same_ratio 12 4 3.
Proof. intros H. specialize (H 0 ltac:(lia)). cbn in H. lia. Qed.
Lemma sort_id : forall l : list nat, Permutation (seq 0 (length l)) (seq 0 (length l)).
Proof. intros. apply Permutation_refl. Qed.
