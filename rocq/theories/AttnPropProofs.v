(** Consequences for the attention properties. *)
From Coq Require Import List Arith Lia Bool Reals Lra Permutation.
From Coquelicot Require Import Coquelicot.
From Verif Require Import TensorModel TensorProofs BigSum SHTSpec SHTValueProofs DistSpectralProofs DiscoTensorProofs DiscoTransposeProofs
  AttnModel AttnLayerModel AttnSpec AttnLayerSpec AttnCoreProofs AttnKernelProofs AttnUpProofs AttnGradProofs AttnOpProofs AttnOpValProofs AttnLayerProofs AttnGlobalProofs.
Import ListNotations.
Local Open Scope nat_scope.

(** ** Online softmax: order, chunks, starting value *)
Lemma osm_chunks : forall X (s w : X -> R) v ls st,
  fold_left (fun st ch => fold_left (fun st x => osm_step (s x) (w x) (v x) st) ch st) ls st = osm_run s w v (concat ls) st.
Proof. intros X s w v ls. induction ls as [|l ls IH]; intros st; [reflexivity|]. cbn [fold_left concat]. rewrite IH. unfold osm_run. rewrite fold_left_app. reflexivity. Qed.
Theorem online_softmax : forall X (s w : X -> R) v l ls m, (forall x, In x l -> (0 < w x)%R) -> l <> [] -> Permutation (concat ls) l ->
  let st := fold_left (fun st ch => fold_left (fun st x => osm_step (s x) (w x) (v x) st) ch st) ls (mkO 0 m (fun _ => 0%R)) in
  (0 < o_sum st)%R /\ (forall x, In x l -> (s x <= o_max st)%R) /\ forall c, (o_acc st c / o_sum st)%R = softmax_avg s w (fun x => v x c) l.
Proof.
  intros X s w v l ls m Hw Hn HP st. subst st. rewrite osm_chunks.
  assert (Hw' : forall x, In x (concat ls) -> (0 < w x)%R) by (intros; apply Hw; eapply Permutation_in; eauto).
  assert (Hn' : concat ls <> []) by (intros E; apply Hn; rewrite E in HP; apply Permutation_nil in HP; exact HP).
  destruct (osm_run_final X s w v (concat ls) m Hw' Hn') as (H1 & H2). split; [exact H1|]. split.
  - intros x Hx. apply (proj2 (osm_run_max X s w v (concat ls) _)). eapply Permutation_in; [apply Permutation_sym; exact HP|exact Hx].
  - intros c. rewrite H2. apply softmax_avg_perm. exact HP.
Qed.

(** ** Convexity *)
Section Convex.
Variables (B nh Ck Cv Hi Wi Ho Wo : nat) (quad : nat -> R) (P : pattern) (kw vw qw : tensor R).
Hypothesis OK : attn_ok B nh Ck Cv Hi Wi Ho Wo quad P kw vw qw.
Lemma spec_at : forall y b ho wo h c, teq y (attn_spec nh Ck Cv quad (nbrs P Hi Wi Wo) Ho Wo kw vw qw) -> b < B -> ho < Ho -> wo < Wo -> h < nh -> c < Cv ->
  val y [b; ho; wo; h * Cv + c] = softmax_avg (score Ck (head kw Ck b h) (head qw Ck b h) ho wo) (fun p => quad (fst p)) (fun p => val vw [b; fst p; snd p; h * Cv + c]) (nbrs P Hi Wi Wo ho wo).
Proof.
  intros y b ho wo h c [Sy Vy] Hb Hh Hw Hhd Hc. destruct (head_split h nh Cv c Hhd Hc) as (L & E1 & E2). rewrite Vy.
  - unfold attn_spec, attn_packed. cbn [val nth]. rewrite E1, E2. reflexivity.
  - rewrite Sy. unfold attn_spec. cbn [shp]. destruct (shape4 _ _ _ _ _ (ao_q _ _ _ _ _ _ _ _ _ _ _ _ _ OK)) as (_ & -> & _). apply valid4_intro; auto.
Qed.
Lemma nbr_pos : forall ho wo, ho < Ho -> wo < Wo -> forall p, In p (nbrs P Hi Wi Wo ho wo) -> (0 < quad (fst p))%R.
Proof. intros ho wo Hh Hw p Hp. apply (ao_quad _ _ _ _ _ _ _ _ _ _ _ _ _ OK). apply (op_nin B nh Ck Cv Hi Wi Ho Wo quad P kw vw qw OK ho wo Hh Hw p Hp). Qed.
Theorem convex : forall y b ho wo h c lo hi, teq y (attn_spec nh Ck Cv quad (nbrs P Hi Wi Wo) Ho Wo kw vw qw) -> b < B -> ho < Ho -> wo < Wo -> h < nh -> c < Cv ->
  (forall p, In p (nbrs P Hi Wi Wo ho wo) -> (lo <= val vw [b; fst p; snd p; h * Cv + c]%nat <= hi)%R) -> (lo <= val y [b; ho; wo; h * Cv + c]%nat <= hi)%R.
Proof.
  intros y b ho wo h c lo hi T Hb Hh Hw Hhd Hc E. rewrite (spec_at y b ho wo h c) by auto. apply softmax_avg_bounds; auto.
  - apply nbr_pos; auto.
  - apply (ao_ne _ _ _ _ _ _ _ _ _ _ _ _ _ OK); auto.
Qed.
Theorem constants : forall y b ho wo h c a, teq y (attn_spec nh Ck Cv quad (nbrs P Hi Wi Wo) Ho Wo kw vw qw) -> b < B -> ho < Ho -> wo < Wo -> h < nh -> c < Cv ->
  (forall p, In p (nbrs P Hi Wi Wo ho wo) -> val vw [b; fst p; snd p; h * Cv + c] = a) -> val y [b; ho; wo; h * Cv + c] = a.
Proof.
  intros y b ho wo h c a T Hb Hh Hw Hhd Hc E. rewrite (spec_at y b ho wo h c) by auto. apply softmax_avg_const; auto.
  - apply nbr_pos; auto.
  - apply (ao_ne _ _ _ _ _ _ _ _ _ _ _ _ _ OK); auto.
Qed.
End Convex.

(** ** Layout *)
Lemma layout_round : forall t B C H W, shp t = [B; C; H; W] -> exists r t', to_nhwc t = Some r /\ to_nchw r = Some t' /\ teq t' t /\
  shp r = [B; H; W; C] /\ forall b c y x, val r [b; y; x; c] = val t [b; c; y; x].
Proof.
  intros t B C H W S. destruct (to_nhwc_val t B C H W S) as (r & E & Sr & Vr). destruct (to_nchw_val r B C H W Sr) as (t' & E' & St' & Vt').
  exists r, t'. split; [exact E|]. split; [exact E'|]. split; [|split; [exact Sr|intros; apply Vr]].
  split; [congruence|]. intros i V. rewrite St' in V. destruct (valid4 _ _ _ _ _ V) as (b & c & y & x & -> & _).
  change (cf t' b y x c = cf t b y x c). rewrite Vt', Vr. reflexivity.
Qed.
Lemma layout_round' : forall t B C H W, shp t = [B; H; W; C] -> exists r t', to_nchw t = Some r /\ to_nhwc r = Some t' /\ teq t' t.
Proof.
  intros t B C H W S. destruct (to_nchw_val t B C H W S) as (r & E & Sr & Vr). destruct (to_nhwc_val r B C H W Sr) as (t' & E' & St' & Vt').
  exists r, t'. split; [exact E|]. split; [exact E'|]. split; [congruence|]. intros i V. rewrite St' in V. destruct (valid4 _ _ _ _ _ V) as (b & y & x & c & -> & _).
  change (hwc t' b y x c = hwc t b y x c). rewrite Vt', Vr. reflexivity.
Qed.
Lemma unfold_heads_tval : forall t B nh H W C, 1 <= nh -> shp t = [B * nh; H; W; C] ->
  exists r, unfold_heads t nh = Some r /\ shp r = [B; H; W; nh * C] /\
  forall b y x n c, b < B -> y < H -> x < W -> n < nh -> c < C -> val r [b; y; x; n * C + c] = val t [b * nh + n; y; x; c].
Proof.
  intros t B nh H W C Hn S. unfold unfold_heads. destruct (Nat.eqb_spec nh 1) as [->|Hd].
  - eexists. split; [reflexivity|]. rewrite S, Nat.mul_1_r, Nat.mul_1_l. split; [reflexivity|].
    intros b y x n c Hb Hy Hx Hn' Hc. replace n with 0 by lia. rewrite Nat.mul_1_r, Nat.add_0_r. reflexivity.
  - destruct (shape4 _ _ _ _ _ S) as (_ & -> & -> & -> & ->). cbv zeta. rewrite Nat.div_mul by lia.
    destruct (reshape_val _ [B; nh; H; W; C] t) as (a & -> & Sa & Va). { rewrite S. cbn [prod_list fold_right]. ring. }
    cbn [bindo]. set (p := permute [0; 2; 3; 1; 4] a).
    assert (Sp : shp p = [B; H; W; nh; C]) by (unfold p, permute, dimsz; cbn [shp map]; rewrite Sa; reflexivity).
    destruct (reshape_val _ [B; H; W; nh * C] p) as (r & -> & Sr & Vr). { rewrite Sp. cbn [prod_list fold_right]. ring. }
    exists r. split; [reflexivity|]. split; [exact Sr|]. intros b y x n c Hb Hy Hx Hn' Hc.
    rewrite (Vr _ [b; y; x; n; c]).
    + unfold p, permute. cbn [val length seq map index_of Nat.eqb nth]. apply Va.
      * rewrite S. apply valid4_intro; auto. nia.
      * rewrite S. cbn [ravel prod_list fold_right]. ring.
    + rewrite Sp. apply valid5_intro; auto.
    + rewrite Sp. cbn [ravel prod_list fold_right]. ring.
Qed.
Lemma heads_round : forall t B nh H W C, 1 <= nh -> shp t = [B; H; W; nh * C] ->
  exists r t', fold_heads t nh = Some r /\ unfold_heads r nh = Some t' /\ teq t' t /\ shp r = [B * nh; H; W; C] /\
  forall b n y x c, b < B -> n < nh -> y < H -> x < W -> c < C -> val r [b * nh + n; y; x; c] = val t [b; y; x; n * C + c].
Proof.
  intros t B nh H W C Hn S. destruct (fold_heads_val B nh H W C t Hn S) as (r & E & Sr & Vr). destruct (unfold_heads_tval r B nh H W C Hn Sr) as (t' & E' & St' & Vt').
  exists r, t'. split; [exact E|]. split; [exact E'|]. split; [|split; [exact Sr|exact Vr]]. split; [congruence|].
  intros i V. rewrite St' in V. destruct (valid4 _ _ _ _ _ V) as (b & y & x & d & -> & Hb & Hy & Hx & Hd).
  destruct (split_head d nh C Hd) as (L1 & L2 & Ed). rewrite <- Ed. rewrite Vt' by auto. apply Vr; auto.
Qed.
Lemma heads_round' : forall t B nh H W C, 1 <= nh -> shp t = [B * nh; H; W; C] -> exists r t', unfold_heads t nh = Some r /\ fold_heads r nh = Some t' /\ teq t' t.
Proof.
  intros t B nh H W C Hn S. destruct (unfold_heads_tval t B nh H W C Hn S) as (r & E & Sr & Vr). destruct (fold_heads_val B nh H W C r Hn Sr) as (t' & E' & St' & Vt').
  exists r, t'. split; [exact E|]. split; [exact E'|]. split; [congruence|].
  intros i V. rewrite St' in V. destruct (valid4 _ _ _ _ _ V) as (b & y & x & d & -> & Hb & Hy & Hx & Hd).
  destruct (unfold_idx nh B b Hn Hb) as (L1 & L2 & Eb). rewrite <- Eb. change (hwc t' (b / nh * nh + b mod nh) y x d = val t [b / nh * nh + b mod nh; y; x; d]).
  rewrite Vt' by auto. apply Vr; auto.
Qed.
(** the reference's channels-first folding *)
Lemma cf_round : forall t B nh H W C, 1 <= nh -> 1 <= B -> 1 <= H -> 1 <= W -> shp t = [B; H; W; nh * C] ->
  exists r, to_cf t nh = Some r /\ shp r = [B * nh; C; H; W] /\
  (forall b n y x c, b < B -> n < nh -> y < H -> x < W -> c < C -> val r [b * nh + n; c; y; x] = val t [b; y; x; n * C + c]) /\
  exists t', of_cf (mk_cf (B * nh) C H W (cf r)) nh = Some t' /\ teq t' t.
Proof.
  intros t B nh H W C Hn HB HH HW S. destruct (to_cf_val B nh H W C t Hn HB HH HW S) as (r & E & Sr & Vr). exists r. split; [exact E|]. split; [exact Sr|]. split; [exact Vr|].
  destruct (of_cf_val B nh H W C (cf r) Hn) as (t' & E' & St' & Vt'). exists t'. split; [exact E'|]. split; [congruence|].
  intros i V. rewrite St' in V. destruct (valid4 _ _ _ _ _ V) as (b & y & x & d & -> & Hb & Hy & Hx & Hd).
  destruct (split_head d nh C Hd) as (L1 & L2 & Ed). rewrite Vt' by auto. rewrite Vr by auto. rewrite Ed. reflexivity.
Qed.

(** ** The scatter neighbourhood is the transposed relation *)
Lemma pt_eqb_refl : forall p, pt_eqb p p = true.
Proof. intros. unfold pt_eqb. rewrite !Nat.eqb_refl. reflexivity. Qed.
Lemma pt_eqb_true : forall p p', pt_eqb p p' = true -> p = p'.
Proof. intros [a b] [c d] H. unfold pt_eqb in H. apply andb_true_iff in H. destruct H as [H1 H2]. apply Nat.eqb_eq in H1. apply Nat.eqb_eq in H2. cbn in *. congruence. Qed.
Lemma filter_flat_map : forall A B (f : B -> bool) (g : A -> list B) l, filter f (flat_map g l) = flat_map (fun x => filter f (g x)) l.
Proof. intros. induction l as [|a l IH]; [reflexivity|]. cbn [flat_map]. rewrite filter_app, IH. reflexivity. Qed.
Lemma flat_map_pick : forall A n (g : nat -> list A) i, i < n -> (forall j, j < n -> j <> i -> g j = []) -> flat_map g (seq 0 n) = g i.
Proof.
  intros A n g i Hi E. assert (S : seq 0 n = seq 0 i ++ i :: seq (S i) (n - S i)).
  { replace n with (i + S (n - S i)) at 1 by lia. rewrite seq_app. cbn [seq Nat.add]. reflexivity. }
  rewrite S, flat_map_app. cbn [flat_map].
  assert (Z : forall l, (forall j, In j l -> g j = []) -> flat_map g l = []). { induction l as [|a l IH]; intros H; [reflexivity|]. cbn [flat_map]. rewrite H by (left; auto). apply IH. intros. apply H. right. auto. }
  rewrite !Z; [apply app_nil_r| |]; intros j Hj; apply in_seq in Hj; apply E; lia.
Qed.
Lemma scatter_transpose : forall P Hi Wi Wo ho wo hi wi, hi < Hi -> wi < Wi ->
  length (filter (pt_eqb (hi, wi)) (nbrs_scatter P Hi Wi Wo ho wo)) = length (filter (pt_eqb (ho, wo)) (rotated P Wo Wi hi wi)).
Proof.
  intros P Hi Wi Wo ho wo hi wi Hh Hw. unfold nbrs_scatter.
  assert (M : forall (a b : nat) (l : list (nat * nat)), (a, b) <> (hi, wi) -> filter (pt_eqb (hi, wi)) (map (fun _ => (a, b)) l) = []).
  { intros a b l N. induction l as [|z l IH]; [reflexivity|]. cbn [map filter]. destruct (pt_eqb (hi, wi) (a, b)) eqn:E; [|exact IH].
    apply pt_eqb_true in E. congruence. }
  rewrite filter_flat_map, (flat_map_pick _ Hi _ hi); [|auto|].
  2:{ intros j Hj Hne. rewrite filter_flat_map. induction (seq 0 Wi) as [|a l IH]; [reflexivity|]. cbn [flat_map]. rewrite IH, app_nil_r. apply M. congruence. }
  rewrite filter_flat_map, (flat_map_pick _ Wi _ wi); [|auto|intros j Hj Hne; apply M; congruence].
  induction (filter (pt_eqb (ho, wo)) (rotated P Wo Wi hi wi)) as [|z zs IHz]; [reflexivity|]. cbn [map filter]. rewrite pt_eqb_refl. cbn [length]. rewrite IHz. reflexivity.
Qed.

(** ** Rotation *)
Definition rl (n s j : nat) : nat := (j + (n - s mod n)) mod n.
Lemma rl_lt : forall n s j, 1 <= n -> rl n s j < n.
Proof. intros. apply Nat.mod_upper_bound. lia. Qed.
Section Roll.
Variables (P : pattern) (Hi Wi Ho Wo sin sout : nat).
Hypothesis (HWi : 1 <= Wi) (HWo : 1 <= Wo).
(** rotation by the same angle on both grids *)
Hypothesis Hang : sin * Wo = sout * Wi.
Lemma gather_roll : forall y x, Wi mod Wo = 0 -> nbrs_gather P Wi Wo y (rl Wo sout x) = map (fun p => (fst p, rl Wi sin (snd p))) (nbrs_gather P Wi Wo y x).
Proof.
  intros y x Hd. destruct (layer_ps Wi Wo HWo HWi Hd) as (ps & E & Eps & Hps). assert (Es : sin = ps * sout) by nia.
  unfold nbrs_gather, rotated. rewrite map_map, Eps. apply map_ext. intros c. cbn [fst snd]. f_equal. unfold rl. rewrite Es, E. symmetry. apply roll_index; auto.
Qed.
Lemma rlsum_seq : forall n (f : nat -> R), rlsum f (seq 0 n) = rsum n f.
Proof. intros. apply (lsum_seq RT). Qed.
Lemma scatter_roll : forall F y x, x < Wo -> Wo mod Wi = 0 -> rlsum F (nbrs_scatter P Hi Wi Wo y (rl Wo sout x)) = rlsum (fun p => F (fst p, rl Wi sin (snd p))) (nbrs_scatter P Hi Wi Wo y x).
Proof.
  intros F y x Hx Hd. destruct (layer_ps Wo Wi HWi HWo Hd) as (ps & E & Eps & Hps). assert (Es : sout = ps * sin) by nia.
  rewrite !scatter_sum. apply lsum_ext. intros hi _. rewrite !rlsum_seq, Eps.
  rewrite <- (bsum_rot RT Wi (Wi - sin mod Wi) (fun wi => rlsum (fun c => if pt_eqb (y, rl Wo sout x) (c / Wo, (c mod Wo + ps * wi) mod Wo) then F (hi, wi) else 0%R) (nth hi P []))).
  apply rsum_ext'. intros wi Hwi. apply lsum_ext. intros c _. fold (rl Wi sin wi). cbn [fst snd].
  assert (C : (c mod Wo + ps * rl Wi sin wi) mod Wo = rl Wo sout ((c mod Wo + ps * wi) mod Wo)).
  { unfold rl. rewrite Es, E. symmetry. apply roll_index; auto. }
  rewrite C. assert (D : (rl Wo sout x =? rl Wo sout ((c mod Wo + ps * wi) mod Wo)) = (x =? (c mod Wo + ps * wi) mod Wo)).
  { destruct (Nat.eqb_spec x ((c mod Wo + ps * wi) mod Wo)) as [->|N]; [apply Nat.eqb_refl|]. apply Nat.eqb_neq. intros K. apply N.
    apply (rollv_inj Wo sout); auto. apply Nat.mod_upper_bound. lia. }
  unfold pt_eqb. cbn [fst snd]. rewrite D. reflexivity.
Qed.
Lemma attn_roll : forall Ck quad k v q y x c, x < Wo -> Wi mod Wo = 0 \/ Wo mod Wi = 0 ->
  attn_at Ck quad (nbrs P Hi Wi Wo y x) (fun y x c => k y (rl Wi sin x) c) (fun y x c => v y (rl Wi sin x) c) (fun y x c => q y (rl Wo sout x) c) y x c =
  attn_at Ck quad (nbrs P Hi Wi Wo y (rl Wo sout x)) k v q y (rl Wo sout x) c.
Proof.
  intros Ck quad k v q y x c Hx Hd. unfold nbrs. destruct (Nat.eqb_spec (Wi mod Wo) 0) as [E|E].
  - rewrite gather_roll by auto. unfold attn_at at 2. rewrite softmax_avg_map. reflexivity.
  - destruct Hd as [Hd|Hd]; [congruence|]. unfold attn_at, softmax_avg, softmax_den. rewrite !scatter_roll by auto. reflexivity.
Qed.
End Roll.
(** channels-last rotation *)
Definition roll_lon (s : nat) (t : tensor R) : tensor R :=
  mkT (shp t) (fun i => val t [nth 0 i 0; nth 1 i 0; rl (dimsz t 2) s (nth 2 i 0); nth 3 i 0]).
Theorem op_roll : forall B nh Ck Cv Hi Wi Ho Wo quad P kw vw qw sin sout, attn_ok B nh Ck Cv Hi Wi Ho Wo quad P kw vw qw -> sin * Wo = sout * Wi ->
  attn_ok B nh Ck Cv Hi Wi Ho Wo quad P (roll_lon sin kw) (roll_lon sin vw) (roll_lon sout qw) /\
  teq (attn_spec nh Ck Cv quad (nbrs P Hi Wi Wo) Ho Wo (roll_lon sin kw) (roll_lon sin vw) (roll_lon sout qw))
      (roll_lon sout (attn_spec nh Ck Cv quad (nbrs P Hi Wi Wo) Ho Wo kw vw qw)).
Proof.
  intros B nh Ck Cv Hi Wi Ho Wo quad P kw vw qw sin sout OK Hang. destruct OK as [HB Hn HHi HHo HWi HWo Sk Sv Sq Hd HP Hq Hne]. split; [constructor; auto|].
  split; [reflexivity|]. intros i V. unfold attn_spec, roll_lon in *. cbn [shp val dimsz nth] in *. rewrite Sq in V. cbn [nth] in V.
  destruct (valid4 _ _ _ _ _ V) as (b & y & x & d & -> & Hb & Hy & Hx & Hdd). cbn [nth]. unfold attn_packed, head. cbn [val nth dimsz].
  unfold dimsz. cbn [shp nth]. rewrite Sk, Sv, Sq. cbn [nth].
  apply (attn_roll P Hi Wi Wo sin sout HWi HWo Hang Ck quad (fun y x c => val kw [b; y; x; d / Cv * Ck + c]) (fun y x c => val vw [b; y; x; d / Cv * Cv + c])
    (fun y x c => val qw [b; y; x; d / Cv * Ck + c])); auto.
Qed.
Theorem na_roll : forall op eps L B Ci Ck Cv nh Co Hi Wi Ho Wo quad P k v q sin sout, op_correct op -> weights_ok L Ci Ck Cv nh Co ->
  na_ok B Ci nh Ck Cv Hi Wi Ho Wo quad P k v q -> sin * Wo = sout * Wi ->
  exists y y', na_forward op eps (na_layer L Hi Wi Ho Wo nh quad P) q (Some k) (Some v) = Some y /\
    na_forward op eps (na_layer L Hi Wi Ho Wo nh quad P) (roll_last sout q) (Some (roll_last sin k)) (Some (roll_last sin v)) = Some y' /\
    teq y' (roll_last sout y).
Proof.
  intros op eps L B Ci Ck Cv nh Co Hi Wi Ho Wo quad P k v q sin sout Hop WO OK Hang.
  destruct (na_forward_spec op eps L B Ci Ck Cv nh Co Hi Wi Ho Wo quad P k v q Hop WO OK) as (y & Ey & Ty).
  pose proof OK as [HB Hn HHi HHo HWi HWo Sk Sv Sq Hd HP Hq Hne].
  destruct (na_forward_spec op eps L B Ci Ck Cv nh Co Hi Wi Ho Wo quad P (roll_last sin k) (roll_last sin v) (roll_last sout q) Hop WO) as (y' & Ey' & Ty').
  { constructor; auto. }
  exists y, y'. split; [exact Ey|]. split; [exact Ey'|]. eapply teq_trans; [exact Ty'|]. apply teq_sym.
  eapply teq_trans; [eapply (roll_teq y _ B Co Ho Wo); [exact (proj1 Ty)|auto|exact Ty]|].
  split; [reflexivity|]. intros i V. cbn [shp roll_last layer_spec] in V. destruct (valid4 _ _ _ _ _ V) as (b & o & h & x & -> & Hb & Ho' & Hh & Hx).
  rewrite (roll4 _ B Co Ho Wo) by reflexivity. unfold rollv. fold (rl Wo sout x). unfold layer_spec. cbn [val nth]. unfold layer_field. symmetry.
  assert (Ek : forall n y x c, of_cfirst (roll_last sin k) n y x c = of_cfirst k n y (rl Wi sin x) c) by (intros; unfold of_cfirst; rewrite (roll4 k B Ci Hi Wi) by auto; reflexivity).
  assert (Ev : forall n y x c, of_cfirst (roll_last sin v) n y x c = of_cfirst v n y (rl Wi sin x) c) by (intros; unfold of_cfirst; rewrite (roll4 v B Ci Hi Wi) by auto; reflexivity).
  assert (Eq : forall n y x c, of_cfirst (roll_last sout q) n y x c = of_cfirst q n y (rl Wo sout x) c) by (intros; unfold of_cfirst; rewrite (roll4 q B Ci Ho Wo) by auto; reflexivity).
  set (Kf := normed eps (w_kn L) Ck (affine (w_k L) (w_kb L) Ci (of_cfirst k))). set (Vf := affine (w_v L) (w_vb L) Ci (of_cfirst v)).
  set (Qf := fun n y x c => (normed eps (w_qn L) Ck (affine (w_q L) (w_qb L) Ci (of_cfirst q)) n y x c * w_scale L)%R).
  assert (AF : forall W b0 f g n y x o r, (forall c, g n y x c = f n y (r x) c) -> affine W b0 Ci g n y x o = affine W b0 Ci f n y (r x) o).
  { intros. unfold affine. f_equal. apply rsum_ext'. intros. rewrite H. reflexivity. }
  assert (NF : forall w C f g n y x d r, (forall c, g n y x c = f n y (r x) c) -> normed eps w C g n y x d = normed eps w C f n y (r x) d).
  { intros w C f g n y0 x0 d r H. destruct w as [w|]; [|apply H]. unfold normed. rewrite H. f_equal. f_equal. f_equal. f_equal. f_equal. apply rsum_ext'. intros. rewrite H. reflexivity. }
  transitivity (affine (w_p L) (w_pb L) (nh * Cv) (fun n y x d => multihead Ck Cv quad (nbrs P Hi Wi Wo) Kf Vf Qf n y (rl Wo sout x) d) b h x o); [|reflexivity].
  apply affine_ext. intros d Hdd. unfold multihead. cbv zeta.
  etransitivity; [|apply (attn_roll P Hi Wi Wo sin sout HWi HWo Hang Ck quad (fun y x c => Kf b y x (d / Cv * Ck + c)) (fun y x c => Vf b y x (d / Cv * Cv + c))
    (fun y x c => Qf b y x (d / Cv * Ck + c))); auto].
  unfold attn_at. apply softmax_avg_ext. intros p Hp. split; [|split; [reflexivity|]].
  - unfold score. apply rsum_ext'. intros c Hc. f_equal.
    + unfold Qf. f_equal. apply (NF _ _ _ _ b h x _ (rl Wo sout)). intros. apply (AF _ _ _ _ b h x _ (rl Wo sout)). intros. apply Eq.
    + unfold Kf. apply (NF _ _ _ _ b (fst p) (snd p) _ (rl Wi sin)). intros. apply (AF _ _ _ _ b (fst p) (snd p) _ (rl Wi sin)). intros. apply Ek.
  - unfold Vf. apply (AF _ _ _ _ b (fst p) (snd p) _ (rl Wi sin)). intros. apply Ev.
Qed.
