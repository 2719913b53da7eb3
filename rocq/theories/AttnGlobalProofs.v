(** Global attention is the layer with every point a neighbour. *)
From Coq Require Import List Arith Lia Bool Reals Lra Permutation.
From Coquelicot Require Import Coquelicot.
From Verif Require Import TensorModel TensorProofs BigSum DistSpectralProofs DiscoTensorProofs
  AttnModel AttnLayerModel AttnSpec AttnLayerSpec AttnCoreProofs AttnUpProofs AttnGradProofs AttnOpProofs AttnOpValProofs AttnLayerProofs.
Import ListNotations.
Local Open Scope nat_scope.

Lemma seq_shift_by : forall n s, seq s n = map (fun x => s + x) (seq 0 n).
Proof.
  induction n as [|n IH]; intros s; [reflexivity|]. cbn [seq map]. rewrite (IH (S s)), (IH 1), map_map. f_equal; [lia|]. apply map_ext. intros. lia.
Qed.
Lemma all_points_seq : forall H W, all_points H W = map (fun s => (s / W, s mod W)) (seq 0 (H * W)).
Proof.
  intros H W. unfold all_points. induction H as [|H IH]; [reflexivity|]. rewrite seq_S, flat_map_app, IH. cbn [flat_map]. rewrite app_nil_r.
  replace (S H * W) with (H * W + W) by lia. rewrite seq_app, map_app. f_equal. rewrite !Nat.add_0_l, (seq_shift_by W (H * W)), map_map.
  apply map_ext_in. intros x Hx. apply in_seq in Hx. f_equal; [apply (Nat.div_unique _ _ _ x)|apply (Nat.mod_unique _ _ H)]; lia.
Qed.
Definition gp (W s : nat) : nat * nat := (s / W, s mod W).
Lemma rlsum_points : forall H W (f : nat * nat -> R), rlsum f (all_points H W) = rsum (H * W) (fun s => f (gp W s)).
Proof. intros. rewrite all_points_seq, lsum_map, (lsum_seq RT). reflexivity. Qed.

Section Tokens.
Lemma to_tokens_val : forall t B nh C H W, 1 <= nh -> shp t = [B; nh * C; H; W] ->
  exists r, to_tokens nh t = Some r /\ shp r = [B; nh; H * W; C] /\
  forall n h y x c, n < B -> h < nh -> y < H -> x < W -> c < C -> val r [n; h; y * W + x; c] = cf t n y x (h * C + c).
Proof.
  intros t B nh C H W Hn S. unfold to_tokens. destruct (shape4 _ _ _ _ _ S) as (_ & -> & -> & -> & ->). cbv zeta.
  rewrite (proj2 (Nat.leb_le 1 nh)) by auto. cbn [guard bindo]. replace (nh * C / nh) with C by (rewrite Nat.mul_comm, Nat.div_mul; lia).
  destruct (reshape_val _ [B; nh; C; H; W] t) as (a & -> & Sa & Va). { rewrite S. cbn [prod_list fold_right]. ring. }
  cbn [bindo]. set (p := permute [0; 1; 3; 4; 2] a).
  assert (Sp : shp p = [B; nh; H; W; C]) by (unfold p, permute, dimsz; cbn [shp map]; rewrite Sa; reflexivity).
  destruct (reshape_val _ [B; nh; H * W; C] p) as (r & -> & Sr & Vr). { rewrite Sp. cbn [prod_list fold_right]. ring. }
  exists r. split; [reflexivity|]. split; [exact Sr|]. intros n h y x c Hb Hh Hy Hx Hc. unfold cf.
  rewrite (Vr _ [n; h; y; x; c]).
  - unfold p, permute. cbn [val length seq map index_of Nat.eqb nth]. apply Va.
    + rewrite S. apply valid4_intro; auto. nia.
    + rewrite S. cbn [ravel prod_list fold_right]. ring.
  - rewrite Sp. apply valid5_intro; auto.
  - rewrite Sp. cbn [ravel prod_list fold_right]. ring.
Qed.
Lemma rms_opt_val : forall eps w t B nh S C (f : field) H W, bias_shape w C -> shp t = [B; nh; S; C] -> S = H * W ->
  (forall n h y x c, n < B -> h < nh -> y < H -> x < W -> c < C -> val t [n; h; y * W + x; c] = f n y x (h * C + c)) ->
  exists r, rms_opt eps w t = Some r /\ shp r = [B; nh; S; C] /\
  forall n h y x c, n < B -> h < nh -> y < H -> x < W -> c < C -> val r [n; h; y * W + x; c] = normed eps w C f n y x (h * C + c).
Proof.
  intros eps w t B nh S C f H W Sw St ES E. unfold rms_opt. destruct w as [w|].
  2:{ exists t. split; [reflexivity|]. split; [exact St|]. exact E. }
  cbn in Sw. unfold rms_norm. unfold ndim, dimsz. rewrite Sw, St. cbn [length nth Nat.sub Nat.leb Nat.eqb andb]. rewrite Nat.eqb_refl. cbn [guard bindo].
  eexists. split; [reflexivity|]. split; [reflexivity|]. intros n h y x c Hb Hh Hy Hx Hc. cbn [val last removelast app]. unfold normed.
  destruct (head_split h nh C c Hh Hc) as (_ & -> & ->). rewrite E by auto. unfold Rdiv at 2. f_equal. f_equal. f_equal. f_equal. f_equal. f_equal.
  apply rsum_ext'. intros d Hd. rewrite !E by auto. reflexivity.
Qed.
End Tokens.

Lemma normed_affine_ext : forall eps w C nh W b Ci f g n y x d, d < nh * C -> (forall c, c < Ci -> f n y x c = g n y x c) ->
  normed eps w C (affine W b Ci f) n y x d = normed eps w C (affine W b Ci g) n y x d.
Proof. intros. apply (normed_ext eps w C nh); auto. intros. apply affine_ext. auto. Qed.

Lemma softmax_rsum : forall Hi Wi (s : nat * nat -> R) (quad : nat -> R) (f : nat * nat -> R), 1 <= Wi -> (forall h, h < Hi -> (0 < quad h)%R) -> 1 <= Hi ->
  rsum (Hi * Wi) (fun j => (exp (s (gp Wi j) + ln (quad (fst (gp Wi j)))) / rsum (Hi * Wi) (fun j' => exp (s (gp Wi j') + ln (quad (fst (gp Wi j'))))) * f (gp Wi j))%R)
  = softmax_avg s (fun p => quad (fst p)) f (all_points Hi Wi).
Proof.
  intros Hi Wi s quad f HW Hq HH. unfold softmax_avg, softmax_den. rewrite !rlsum_points.
  assert (E : forall j, j < Hi * Wi -> exp (s (gp Wi j) + ln (quad (fst (gp Wi j)))) = (quad (fst (gp Wi j)) * exp (s (gp Wi j)))%R).
  { intros j Hj. rewrite exp_plus, exp_ln; [ring|]. apply Hq. cbn [gp fst]. apply Nat.div_lt_upper_bound; lia. }
  rewrite (rsum_ext' (Hi * Wi) (fun j' => exp (s (gp Wi j') + ln (quad (fst (gp Wi j'))))) (fun j' => quad (fst (gp Wi j')) * exp (s (gp Wi j')))%R) by auto.
  set (D := rsum (Hi * Wi) (fun j' => quad (fst (gp Wi j')) * exp (s (gp Wi j')))%R). unfold Rdiv at 2. rewrite <- (bsum_scal_r RT). apply rsum_ext'. intros j Hj. rewrite E by auto.
  unfold Rdiv. ring.
Qed.

(** AttentionS2 with these weights; [sc] is its scale option *)
Definition ga_layer (L : weights) (sc : option R) (Hi Wi Ho Wo nh : nat) (quad : nat -> R) : galayer :=
  mkGA Hi Wi Ho Wo nh (w_q L) (w_k L) (w_v L) (w_p L) (w_qb L) (w_kb L) (w_vb L) (w_pb L) (w_qn L) (w_kn L) sc quad.
Theorem ga_forward_spec : forall eps L sc B Ci Ck Cv nh Co Hi Wi Ho Wo quad k v q, weights_ok L Ci Ck Cv nh Co ->
  1 <= nh -> 1 <= Hi -> 1 <= Wi -> 1 <= Wo -> shp k = [B; Ci; Hi; Wi] -> shp v = [B; Ci; Hi; Wi] -> shp q = [B; Ci; Ho; Wo] ->
  (forall h, h < Hi -> (0 < quad h)%R) -> w_scale L = na_scale_of sc (nh * Ck) nh ->
  exists y, ga_forward eps (ga_layer L sc Hi Wi Ho Wo nh quad) q (Some k) (Some v) = Some y /\
    teq y (layer_spec eps L Ci Ck Cv nh B Co Ho Wo quad (fun _ _ => all_points Hi Wi) k v q).
Proof.
  intros eps L sc B Ci Ck Cv nh Co Hi Wi Ho Wo quad k v q WO Hn HHi HWi HWo Sk Sv Sq Hq Esc.
  destruct WO as [Wq Wk Wv Wp Bq Bk Bv Bp Nq Nk]. unfold ga_forward, ga_layer.
  cbn [ga_Hi ga_Wi ga_Ho ga_Wo ga_nh ga_q ga_k ga_v ga_p ga_qb ga_kb ga_vb ga_pb ga_qn ga_kn ga_scale ga_quad].
  destruct (shape4 _ _ _ _ _ Sq) as (-> & _). destruct (shape4 _ _ _ _ _ Sk) as (-> & _). destruct (shape4 _ _ _ _ _ Sv) as (-> & _).
  cbn [Nat.eqb andb guard bindo].
  destruct (conv1x1_val (w_q L) (w_qb L) q B Ho Wo Ci (nh * Ck)) as (q2 & -> & Sq2 & Vq2); auto.
  destruct (conv1x1_val (w_k L) (w_kb L) k B Hi Wi Ci (nh * Ck)) as (k2 & -> & Sk2 & Vk2); auto.
  destruct (conv1x1_val (w_v L) (w_vb L) v B Hi Wi Ci (nh * Cv)) as (v2 & -> & Sv2 & Vv2); auto. cbn [bindo].
  destruct (to_tokens_val q2 B nh Ck Ho Wo) as (q3 & -> & Sq3 & Vq3); auto. destruct (to_tokens_val k2 B nh Ck Hi Wi) as (k3 & -> & Sk3 & Vk3); auto.
  destruct (to_tokens_val v2 B nh Cv Hi Wi) as (v3 & -> & Sv3 & Vv3); auto. cbn [bindo].
  set (QF := affine (w_q L) (w_qb L) Ci (of_cfirst q)). set (KF := affine (w_k L) (w_kb L) Ci (of_cfirst k)). set (VF := affine (w_v L) (w_vb L) Ci (of_cfirst v)).
  destruct (rms_opt_val eps (w_qn L) q3 B nh (Ho * Wo) Ck QF Ho Wo) as (q4 & -> & Sq4 & Vq4); auto.
  { intros n h y x c H1 H2 H3 H4 H5. rewrite Vq3, Vq2 by (auto; nia). reflexivity. }
  destruct (rms_opt_val eps (w_kn L) k3 B nh (Hi * Wi) Ck KF Hi Wi) as (k4 & -> & Sk4 & Vk4); auto.
  { intros n h y x c H1 H2 H3 H4 H5. rewrite Vk3, Vk2 by (auto; nia). reflexivity. }
  cbn [bindo]. unfold sdpa at 1.
  destruct (shape4 _ _ _ _ _ Sq4) as (_ & -> & -> & -> & ->). destruct (shape4 _ _ _ _ _ Sk4) as (_ & _ & _ & -> & _). destruct (shape4 _ _ _ _ _ Sv3) as (_ & _ & _ & _ & ->).
  cbv zeta. rewrite Sq4, Sk4, Sv3, !(proj2 (shape_eqb_true _ _) eq_refl).
  set (LQ := log_quad _). assert (SLQ : shp LQ = [1; 1; Hi * Wi]) by reflexivity. cbn [andb orb guard bindo].
  set (o1 := mkT [B; nh; Ho * Wo; Cv] _). unfold dimsz at 1 2. cbn [o1 shp nth]. fold o1. set (p := permute [0; 1; 3; 2] o1).
  assert (Sp : shp p = [B; nh; Cv; Ho * Wo]) by reflexivity.
  destruct (reshape_val _ [B; nh * Cv; Ho; Wo] p) as (o2 & -> & So2 & Vo2). { rewrite Sp. cbn [prod_list fold_right]. ring. }
  cbn [bindo]. destruct (conv1x1_val (w_p L) (w_pb L) o2 B Ho Wo (nh * Cv) Co) as (y & -> & Sy & Vy); auto. exists y. split; [reflexivity|].
  split; [exact Sy|]. intros i Vi. rewrite Sy in Vi. destruct (valid4 _ _ _ _ _ Vi) as (b & o & h & x & -> & Hb & Ho' & Hh & Hx).
  change (val y [b; o; h; x]) with (cf y b h x o). rewrite Vy by auto. unfold layer_spec. cbn [val nth]. unfold layer_field. fold QF KF VF.
  apply affine_ext. intros d Hdd. destruct (split_head d nh Cv Hdd) as (L1 & L2 & Ed). unfold cf at 1.
  rewrite (Vo2 _ [b; d / Cv; d mod Cv; h * Wo + x]).
  2:{ rewrite Sp. apply valid4_intro; auto. nia. }
  2:{ rewrite Sp. cbn [ravel prod_list fold_right]. rewrite <- Ed at 1. ring. }
  unfold p, permute. cbn [val length seq map index_of Nat.eqb nth o1]. unfold multihead, attn_at.
  etransitivity; [|apply (softmax_rsum Hi Wi)]; auto.
  set (AS := fun j : nat => (rsum Ck (fun c => val q4 [b; d / Cv; h * Wo + x; c]%nat * val k4 [b; d / Cv; j; c]%nat) *
    match sc with Some s => s | None => 1 / sqrt (INR Ck) end + val LQ [0; 0; if dimsz LQ 2 =? 1 then 0 else j]%nat)%R).
  transitivity (rsum (Hi * Wi) (fun j => exp (AS j) / rsum (Hi * Wi) (fun j' => exp (AS j')) * val v3 [b; d / Cv; j; d mod Cv]%nat)%R); [reflexivity|].
  assert (EA : forall j, j < Hi * Wi -> AS j = (score Ck (fun y0 x0 c => normed eps (w_kn L) Ck KF b y0 x0 (d / Cv * Ck + c)%nat)
      (fun y0 x0 c => normed eps (w_qn L) Ck QF b y0 x0 (d / Cv * Ck + c)%nat * w_scale L)%R h x (gp Wi j) + ln (quad (fst (gp Wi j))))%R).
  { intros j Hj. unfold AS. f_equal.
    - unfold score. cbn [gp fst snd]. rewrite <- (bsum_scal_r RT). apply rsum_ext'. intros c Hc. rewrite Vq4 by auto.
      assert (D1 : j / Wi < Hi) by (apply Nat.div_lt_upper_bound; lia). assert (D2 : j mod Wi < Wi) by (apply Nat.mod_upper_bound; lia).
      pose proof (Nat.div_mod j Wi) as DM. replace j with (j / Wi * Wi + j mod Wi) at 1 by lia. rewrite Vk4 by auto. rewrite Esc. unfold na_scale_of.
      replace (nh * Ck / nh) with Ck by (rewrite Nat.mul_comm, Nat.div_mul; lia). ring.
    - unfold LQ, log_quad, dimsz. cbn [shp val nth ga_quad ga_Hi ga_Wi]. destruct (Nat.eqb_spec (Hi * Wi) 1) as [E1|E1]; [|reflexivity].
      replace j with 0 by lia. reflexivity. }
  apply rsum_ext'. intros j Hj. rewrite EA by auto. rewrite (rsum_ext' (Hi * Wi) (fun j' => exp (AS j')) _ (fun j' Hj' => f_equal exp (EA j' Hj'))). f_equal.
  cbn [gp fst snd]. assert (D1 : j / Wi < Hi) by (apply Nat.div_lt_upper_bound; lia). assert (D2 : j mod Wi < Wi) by (apply Nat.mod_upper_bound; lia).
  pose proof (Nat.div_mod j Wi) as DM. replace j with (j / Wi * Wi + j mod Wi) at 1 by lia. rewrite Vv3, Vv2 by (auto; nia). reflexivity.
Qed.

(** every row complete: every point is a neighbour of every point *)
Definition complete (P : pattern) (rows N : nat) : Prop := length P = rows /\ forall r, In r P -> Permutation r (seq 0 N).
Lemma NoDup_map_in : forall A B (f : A -> B) l, NoDup l -> (forall a b, In a l -> In b l -> f a = f b -> a = b) -> NoDup (map f l).
Proof.
  intros A B f l. induction l as [|a l IH]; intros N E; [constructor|]. inversion N as [|? ? Na Nl]; subst. cbn [map]. constructor.
  - intros I. apply in_map_iff in I. destruct I as (b & Eb & Hb). assert (b = a) by (apply E; [right; auto|left; auto|auto]). subst. auto.
  - apply IH; auto. intros x y Hx Hy. apply E; right; auto.
Qed.
Lemma shift_perm : forall W s, Permutation (map (fun x => (x + s) mod W) (seq 0 W)) (seq 0 W).
Proof.
  intros W s. apply NoDup_Permutation_bis.
  - destruct W as [|W]; [constructor|]. apply NoDup_map_in; [apply seq_NoDup|]. intros a b Ha Hb E. apply in_seq in Ha. apply in_seq in Hb.
    assert (K : forall a b, a <= b -> b < S W -> (a + s) mod S W = (b + s) mod S W -> a = b).
    { clear. intros a b L Hb E. pose proof (Nat.div_mod (a + s) (S W)). pose proof (Nat.div_mod (b + s) (S W)).
      assert ((b + s) / S W = (a + s) / S W \/ (b + s) / S W >= 1 + (a + s) / S W). { assert ((a + s) / S W <= (b + s) / S W) by (apply Nat.div_le_mono; lia). lia. }
      destruct H1; [nia|nia]. }
    destruct (Nat.le_ge_cases a b); [apply K; auto; lia|symmetry; apply K; auto; lia].
  - rewrite map_length. auto.
  - intros z Hz. apply in_map_iff in Hz. destruct Hz as (x & <- & Hx). apply in_seq in Hx. apply in_seq. split; [lia|]. apply Nat.mod_upper_bound. lia.
Qed.
Lemma complete_nbrs : forall P Hi Wi Wo ho wo rows, complete P rows (Hi * Wi) -> ho < rows -> 1 <= Wi ->
  Permutation (nbrs_gather P Wi Wo ho wo) (all_points Hi Wi).
Proof.
  intros P Hi Wi Wo ho wo rows [HL HP] Hh HW. unfold nbrs_gather, rotated.
  assert (Hr : Permutation (nth ho P []) (seq 0 (Hi * Wi))) by (apply HP, nth_In; lia).
  eapply Permutation_trans; [apply Permutation_map; exact Hr|]. set (s := Wi / Wo * wo).
  transitivity (map (fun p => (fst p, (snd p + s) mod Wi)) (all_points Hi Wi)).
  { rewrite all_points_seq, map_map. cbn [fst snd]. reflexivity. }
  unfold all_points. clear. induction (seq 0 Hi) as [|a l IH]; [constructor|]. cbn [flat_map]. rewrite map_app. apply Permutation_app; [|exact IH].
  rewrite map_map. cbn [fst snd]. rewrite <- (map_map (fun x => (x + s) mod Wi) (fun x => (a, x))). apply Permutation_map, shift_perm.
Qed.
Lemma complete_pattern_ok : forall P rows N, complete P rows N -> pattern_ok P rows N.
Proof. intros P rows N [HL HP]. split; [exact HL|]. intros r c Hr Hc. eapply Permutation_in in Hc; [|apply HP; eauto]. apply in_seq in Hc. lia. Qed.
Theorem na_is_global : forall op eps L sc B Ci Ck Cv nh Co Hi Wi Ho Wo quad P k v q, op_correct op -> weights_ok L Ci Ck Cv nh Co ->
  1 <= B -> 1 <= nh -> 1 <= Hi -> 1 <= Wi -> 1 <= Ho -> 1 <= Wo -> shp k = [B; Ci; Hi; Wi] -> shp v = [B; Ci; Hi; Wi] -> shp q = [B; Ci; Ho; Wo] ->
  (forall h, h < Hi -> (0 < quad h)%R) -> w_scale L = na_scale_of sc (nh * Ck) nh -> Wi mod Wo = 0 -> complete P Ho (Hi * Wi) ->
  exists y y', na_forward op eps (na_layer L Hi Wi Ho Wo nh quad P) q (Some k) (Some v) = Some y /\
    ga_forward eps (ga_layer L sc Hi Wi Ho Wo nh quad) q (Some k) (Some v) = Some y' /\ teq y y'.
Proof.
  intros op eps L sc B Ci Ck Cv nh Co Hi Wi Ho Wo quad P k v q Hop WO HB Hn HHi HWi HHo HWo Sk Sv Sq Hq Esc Hd HP.
  assert (EN : forall ho wo, ho < Ho -> Permutation (nbrs P Hi Wi Wo ho wo) (all_points Hi Wi)).
  { intros ho wo Hh. unfold nbrs. rewrite Hd. cbn [Nat.eqb]. apply (complete_nbrs _ _ _ _ _ _ Ho); auto. }
  destruct (na_forward_spec op eps L B Ci Ck Cv nh Co Hi Wi Ho Wo quad P k v q Hop WO) as (y & Ey & Ty).
  { constructor; auto; [rewrite Hd; cbn [Nat.eqb]; apply complete_pattern_ok; auto|]. intros ho wo Hh Hw E. specialize (EN ho wo Hh). rewrite E in EN.
    apply Permutation_nil in EN. assert (In (0, 0) (all_points Hi Wi)) as I0; [|rewrite EN in I0; destruct I0].
    unfold all_points. apply in_flat_map. exists 0. split; [apply in_seq; lia|]. apply in_map_iff. exists 0. split; [reflexivity|apply in_seq; lia]. }
  destruct (ga_forward_spec eps L sc B Ci Ck Cv nh Co Hi Wi Ho Wo quad k v q WO) as (y' & Ey' & Ty'); auto.
  exists y, y'. split; [exact Ey|]. split; [exact Ey'|]. eapply teq_trans; [exact Ty|]. apply teq_sym. eapply teq_trans; [exact Ty'|].
  split; [reflexivity|]. intros i Vi. unfold layer_spec in *. cbn [shp val] in *. destruct (valid4 _ _ _ _ _ Vi) as (b & o & h & x & -> & Hb & Ho' & Hh & Hx).
  cbn [nth]. unfold layer_field. apply affine_ext. intros d _. unfold multihead, attn_at. cbv zeta. symmetry. apply softmax_avg_perm. apply EN. auto.
Qed.
