(** The gradients of the distributed DISCO convolutions are derivatives of their forward
    passes. *)
From Coq Require Import List Arith Lia Bool Reals Lra.
From Verif Require Import TensorModel TensorProofs BigSum PrimModel PrimSpec PrimProofs PrimProofs2 PrimAutogradModel AdjointProofs PrimPropProofs DistSHTModel DistSHTProofs DistSHTProofs2 DistMiscProofs DistSpectralProofs
  DiscoModel DiscoSpec DiscoTensorProofs DiscoLayerProofs DiscoTransposeProofs DiscoRunProofs DiscoGradModel DiscoGradProofs DistDiscoModel DistDiscoSpec DistDiscoProofs DistDiscoProofs2 DistDiscoProofs3 DistDiscoProofs4 DistDiscoBwdModel DistDiscoBwdSpec DistDiscoBwdProofs DistDiscoBwdProofs2 DistDiscoBwdProofs3 DistDiscoBwdProofs4.
Import ListNotations.
Local Open Scope nat_scope.

Lemma dot_inner4 : forall x y a b c d, shp x = [a; b; c; d] -> PrimSpec.dot x y = inner4 x y.
Proof. intros. unfold PrimSpec.dot, inner4, dimsz. rewrite H. reflexivity. Qed.
Lemma grid_inner_shards : forall P A f g X Y a b c d, 1 <= P -> 1 <= A -> shp X = [a; b; c; d] -> shp Y = shp X ->
  holds2 P A f (fun p a => shard 2 P p (shard 3 A a X)) -> holds2 P A g (fun p a => shard 2 P p (shard 3 A a Y)) -> grid_inner P A f g (inner4 X Y).
Proof.
  intros P A f g X Y a b c d HP HA SX SY Hf Hg.
  assert (S3 : forall q T, shp T = [a; b; c; d] -> shp (shard 3 A q T) = [a; b; c; chunk_len d A q]) by (intros; rewrite (shard4 T a b c d); auto).
  assert (S2 : forall p q T, shp T = [a; b; c; d] -> shp (shard 2 P p (shard 3 A q T)) = [a; b; chunk_len c P p; chunk_len d A q]) by (intros; rewrite (shard4 _ _ _ _ _ _ _ _ (S3 q T ltac:(auto))); auto).
  rewrite <- (dot_inner4 X Y a b c d SX).
  exists (fun p a => match f p a with Some t => t | None => shard 2 P p (shard 3 A a X) end), (fun p a => match g p a with Some t => t | None => shard 2 P p (shard 3 A a Y) end). split.
  - intros p q Hp Hq. destruct (Hf p q Hp Hq) as (t & -> & Tt). destruct (Hg p q Hp Hq) as (u & -> & Tu). split; auto. split; auto. rewrite (teq_shp _ _ _ Tt), (teq_shp _ _ _ Tu), !S2; auto; congruence.
  - rewrite (dot_shards A 3 X Y) by (auto; unfold ndim; rewrite SX; cbn; lia). rewrite rsum_swap. apply rsum_ext. intros q Hq.
    rewrite (dot_shards P 2 (shard 3 A q X) (shard 3 A q Y)) by (auto; try (unfold ndim; rewrite S3 by auto; cbn; lia); rewrite !S3; congruence).
    apply rsum_ext. intros p Hp. destruct (Hf p q Hp Hq) as (t & -> & Tt). destruct (Hg p q Hp Hq) as (u & -> & Tu). apply dot_proper; [apply teq_sym; auto|apply teq_sym; auto|rewrite !S2; auto; congruence].
Qed.

(** ** The layer *)
Lemma conv_opt_inner : forall junk junk' hi wi ho wo G Og Cg K weight bias es d (x : tensor R) B, layer_ok K hi wi ho wo G Og Cg weight bias es ->
  conv_s2_init junk hi wi ho wo G K weight bias es = Some d -> shp x = [B; G * Cg; hi; wi] ->
  exists z, conv_s2_opt junk' d x = Some z /\ shp z = [B; G * Og; ho; wo] /\ teq z (conv_spec K Og Cg ho wo es weight bias x).
Proof.
  intros junk junk' hi wi ho wo G Og Cg K weight bias es d x B L I Sx. destruct (conv_opt_spec junk junk' hi wi ho wo G Og Cg K weight bias es d x B L I Sx) as (z & Ez & Tz). exists z. split; auto. split; auto.
  destruct L. rewrite (teq_shp _ _ _ Tz). unfold conv_spec, dimsz. cbn [shp]. rewrite Sx, lo_weight. reflexivity.
Qed.
Lemma bias_sum : forall B C h w (v : nat -> R) (g : tensor R), shp g = [B; C; h; w] ->
  rsum B (fun b => rsum C (fun o => rsum h (fun t => rsum w (fun q => Rmult (v o) (val g [b; o; t; q]))))) = rsum C (fun o => Rmult (v o) (val (bias_grad g) [o])).
Proof.
  intros B C h w v g Sg. rewrite rsum_swap. apply rsum_ext. intros o Ho. unfold bias_grad, dimsz. cbn [val nth]. rewrite Sg. cbn [nth]. rewrite <- (bsum_scal_l RT). apply rsum_ext; intros b Hb.
  rewrite <- (bsum_scal_l RT). apply rsum_ext; intros t Ht. rewrite <- (bsum_scal_l RT). reflexivity.
Qed.
(** weights and bias together *)
Lemma conv_parameter_gradient : forall junk junk' junk'' hi wi ho wo G Og Cg K weight weight' bias bias' es d d' (x g : tensor R) B,
  layer_ok K hi wi ho wo G Og Cg weight bias es -> layer_ok K hi wi ho wo G Og Cg weight' bias' es ->
  conv_s2_init junk hi wi ho wo G K weight bias es = Some d -> conv_s2_init junk hi wi ho wo G K weight' bias' es = Some d' ->
  shp x = [B; G * Cg; hi; wi] -> shp g = [B; G * Og; ho; wo] ->
  exists z z' V, conv_s2_opt junk' d x = Some z /\ conv_s2_opt junk' d' x = Some z' /\ conv_s2_wgrad junk'' d x g = Some V /\
    (inner4 z' g - inner4 z g = (inner3 weight' V - inner3 weight V) + rsum (G * Og) (fun o => (bias_at bias' o - bias_at bias o) * val (bias_grad g) [o]))%R.
Proof.
  intros junk junk' junk'' hi wi ho wo G Og Cg K weight weight' bias bias' es d d' x g B L L' I I' Sx Sg.
  assert (Lm : layer_ok K hi wi ho wo G Og Cg weight' bias es) by (destruct L, L'; split; auto). destruct (conv_init_ok junk _ _ _ _ _ _ _ _ _ _ _ Lm) as (dm & Im).
  destruct (conv_weight_gradient junk junk'' hi wi ho wo G Og Cg K weight weight' bias es d dm x g B L Lm I Im Sx Sg) as (z1 & zm & V & E1 & Em & EV & SV & D1).
  destruct (conv_opt_inner junk junk' hi wi ho wo G Og Cg K weight bias es d x B L I Sx) as (z & Ez & Sz & Tz).
  destruct (conv_opt_inner junk junk' hi wi ho wo G Og Cg K weight' bias' es d' x B L' I' Sx) as (z' & Ez' & Sz' & Tz').
  destruct (conv_opt_inner junk junk'' hi wi ho wo G Og Cg K weight bias es d x B L I Sx) as (z1' & E1' & S1 & T1). assert (z1' = z1) by congruence. subst z1'.
  destruct (conv_opt_inner junk junk'' hi wi ho wo G Og Cg K weight' bias es dm x B Lm Im Sx) as (zm' & Em' & Sm & Tm). assert (zm' = zm) by congruence. subst zm'.
  exists z, z', V. split; auto. split; auto. split; auto.
  assert (N : forall t : tensor R, shp t = [B; G * Og; ho; wo] -> ndim t = 4) by (intros t St; unfold ndim; rewrite St; reflexivity).
  rewrite (inner4_teq_l _ _ _ T1), (inner4_teq_l _ _ _ Tm) in D1 by auto. rewrite (inner4_teq_l _ _ _ Tz), (inner4_teq_l _ _ _ Tz') by auto. rewrite <- D1.
  rewrite (conv_diff hi wi ho wo G Og Cg K weight' bias' es L' B) by auto. rewrite (conv_diff hi wi ho wo G Og Cg K weight' bias es Lm B) by auto.
  rewrite !(bias_sum B (G * Og) ho wo (fun o => bias_at bias' o)), !(bias_sum B (G * Og) ho wo (fun o => bias_at bias o)) by auto.
  rewrite (rsum_ext (G * Og) (fun o => ((bias_at bias' o - bias_at bias o) * val (bias_grad g) [o])%R) (fun o => (bias_at bias' o * val (bias_grad g) [o] + (-1) * (bias_at bias o * val (bias_grad g) [o]))%R)) by (intros; ring).
  rewrite (bsum_plus RT), (bsum_scal_l RT). ring.
Qed.

(** ** The serial transposed layer *)
Section TSerial.
Context (hi wi ho wo G Og Cg K B : nat) (es : list entry) (weight : tensor R) (bias : option (tensor R)).
Context (L : layer_ok K ho wo hi wi G Og Cg weight bias es) (X g : tensor R) (SX : shp X = [B; G * Cg; hi; wi]) (Sg : shp g = [B; G * Og; ho; wo]).
Let Dg (b o k t q : nat) : R := disco_sum wo (wo / wi) es (fun h w => val g [b; o; h; w]) k t q.
Lemma tconv_inner : inner4 (tconv_spec Og Cg ho wo es weight bias X) g =
  (rsum B (fun b => rsum (G * Og) (fun o => rsum K (fun k => rsum hi (fun t => rsum wi (fun q => Dg b o k t q * rsum Cg (fun c => val X [b; (o / Og * Cg + c)%nat; t; q] * val weight [o; c; k])))))) +
   rsum (G * Og) (fun o => bias_at bias o * val (bias_grad g) [o]))%R.
Proof.
  destruct L. rewrite <- (bias_sum B (G * Og) ho wo (bias_at bias) g Sg). unfold inner4, tconv_spec, dimsz. cbn [shp nth val]. unfold dimsz. rewrite SX, lo_weight. cbn [nth]. rewrite <- (bsum_plus RT). apply rsum_ext; intros b Hb.
  rewrite <- (bsum_plus RT). apply rsum_ext; intros o Ho. unfold tconv_value.
  unfold Dg. rewrite (adjoint_plane K hi ho wo (wo / wi) wi es (fun h w => val g [b; o; h; w]) (fun k t q => rsum Cg (fun c => (val X [b; (o / Og * Cg + c)%nat; t; q] * val weight [o; c; k])%R)) lo_wf lo_wi).
  rewrite <- (bsum_plus RT). apply rsum_ext; intros h Hh. rewrite <- (bsum_plus RT). apply rsum_ext; intros w Hw. ring.
Qed.
Lemma tconv_inner_input : inner4 (tconv_spec Og Cg ho wo es weight bias X) g =
  (inner4 X (tdgrad hi wi wo G Og Cg K B weight es g) + rsum (G * Og) (fun o => bias_at bias o * val (bias_grad g) [o]))%R.
Proof.
  rewrite tconv_inner. f_equal. unfold inner4, dimsz. rewrite SX. cbn [nth]. apply rsum_ext; intros b Hb.
  transitivity (rsum (G * Og) (fun o => rsum hi (fun t => rsum wi (fun q => rsum Cg (fun c => rsum K (fun k => (val X [b; (o / Og * Cg + c)%nat; t; q] * (Dg b o k t q * val weight [o; c; k]))%R)))))).
  - apply rsum_ext; intros o Ho. rewrite rsum_swap. apply rsum_ext; intros t Ht. rewrite rsum_swap. apply rsum_ext; intros q Hq.
    rewrite (rsum_ext K _ (fun k => rsum Cg (fun c => (val X [b; (o / Og * Cg + c)%nat; t; q] * (Dg b o k t q * val weight [o; c; k]))%R))) by (intros k Hk; rewrite <- (bsum_scal_l RT); apply rsum_ext; intros; ring).
    apply rsum_swap.
  - rewrite !(bsum_mul_range RT). apply rsum_ext; intros a Ha.
    transitivity (rsum Og (fun o => rsum Cg (fun c => rsum hi (fun t => rsum wi (fun q => rsum K (fun k => (val X [b; (a * Cg + c)%nat; t; q] * (Dg b (a * Og + o) k t q * val weight [(a * Og + o)%nat; c; k]))%R)))))).
    + apply rsum_ext; intros o Ho. destruct (bc_div Og a o Ho) as [-> _].
      rewrite (rsum_ext hi _ (fun t => rsum Cg (fun c => rsum wi (fun q => rsum K (fun k => (val X [b; (a * Cg + c)%nat; t; q] * (Dg b (a * Og + o) k t q * val weight [(a * Og + o)%nat; c; k]))%R))))) by (intros; apply rsum_swap).
      apply rsum_swap.
    + rewrite rsum_swap. apply rsum_ext; intros c Hc. rewrite rsum_swap. apply rsum_ext; intros t Ht. rewrite rsum_swap. apply rsum_ext; intros q Hq.
      unfold tdgrad. cbn [val nth]. destruct (bc_div Cg a c Hc) as [-> ->]. rewrite <- (bsum_scal_l RT). apply rsum_ext; intros o Ho. rewrite <- (bsum_scal_l RT). apply rsum_ext; intros k Hk. reflexivity.
Qed.
Lemma tconv_inner_weight : inner4 (tconv_spec Og Cg ho wo es weight bias X) g =
  (inner3 weight (twgrad hi wi wo G Og Cg K B es X g) + rsum (G * Og) (fun o => bias_at bias o * val (bias_grad g) [o]))%R.
Proof.
  rewrite tconv_inner. f_equal. assert (Sw := lo_weight _ _ _ _ _ _ _ _ _ _ _ L). unfold inner3, dimsz. rewrite Sw. cbn [nth].
  rewrite rsum_swap. apply rsum_ext; intros o Ho. rewrite (rsum_swap Cg K).
  rewrite (rsum_ext B _ (fun b => rsum K (fun k => rsum Cg (fun c => rsum hi (fun t => rsum wi (fun q => (val weight [o; c; k] * (val X [b; (o / Og * Cg + c)%nat; t; q] * Dg b o k t q))%R)))))).
  - rewrite rsum_swap. apply rsum_ext; intros k Hk. rewrite rsum_swap. apply rsum_ext; intros c Hc. unfold twgrad. cbn [val nth]. rewrite <- (bsum_scal_l RT). apply rsum_ext; intros b Hb.
    rewrite <- (bsum_scal_l RT). apply rsum_ext; intros t Ht. rewrite <- (bsum_scal_l RT). reflexivity.
  - intros b Hb. apply rsum_ext; intros k Hk.
    rewrite (rsum_ext hi _ (fun t => rsum Cg (fun c => rsum wi (fun q => (val weight [o; c; k] * (val X [b; (o / Og * Cg + c)%nat; t; q] * Dg b o k t q))%R)))).
    + rewrite (rsum_swap Cg hi). apply rsum_ext; intros t Ht. apply rsum_ext; intros c Hc. reflexivity.
    + intros t Ht. rewrite rsum_swap. apply rsum_ext; intros q Hq. rewrite <- (bsum_scal_l RT). apply rsum_ext; intros c Hc. ring.
Qed.
End TSerial.
Lemma tconv_opt_inner : forall junk hi wi ho wo G Og Cg K weight bias es d (x : tensor R) B, layer_ok K ho wo hi wi G Og Cg weight bias es ->
  conv_transpose_s2_init junk hi wi ho wo G K weight bias es = Some d -> shp x = [B; G * Cg; hi; wi] ->
  exists z, conv_transpose_s2_opt d x = Some z /\ shp z = [B; G * Og; ho; wo] /\ forall y, inner4 z y = inner4 (tconv_spec Og Cg ho wo es weight bias x) y.
Proof.
  intros junk hi wi ho wo G Og Cg K weight bias es d x B L I Sx. destruct (tconv_opt_spec junk hi wi ho wo G Og Cg K weight bias es d x B L I Sx) as (z & Ez & Tz). exists z. split; auto.
  assert (Sz : shp z = [B; G * Og; ho; wo]) by (destruct L; rewrite (teq_shp _ _ _ Tz); unfold tconv_spec, dimsz; cbn [shp]; rewrite Sx, lo_weight; reflexivity).
  split; auto. intros y. apply inner4_teq_l; auto. unfold ndim. rewrite Sz. reflexivity.
Qed.
Theorem tconv_input_gradient : forall junk junk' hi wi ho wo G Og Cg K weight bias es s (x x' g : tensor R) B,
  layer_ok K ho wo hi wi G Og Cg weight bias es -> conv_transpose_s2_init junk hi wi ho wo G K weight bias es = Some s ->
  shp x = [B; G * Cg; hi; wi] -> shp x' = [B; G * Cg; hi; wi] -> shp g = [B; G * Og; ho; wo] ->
  exists z z' v, conv_transpose_s2_opt s x = Some z /\ conv_transpose_s2_opt s x' = Some z' /\ conv_transpose_s2_dgrad junk' s g = Some v /\
    shp v = shp x /\ (inner4 z' g - inner4 z g = inner4 x' v - inner4 x v)%R.
Proof.
  intros junk junk' hi wi ho wo G Og Cg K weight bias es s x x' g B L I Sx Sx' Sg.
  destruct (tconv_opt_inner junk hi wi ho wo G Og Cg K weight bias es s x B L I Sx) as (z & Ez & Sz & Tz).
  destruct (tconv_opt_inner junk hi wi ho wo G Og Cg K weight bias es s x' B L I Sx') as (z' & Ez' & Sz' & Tz').
  destruct (t_serial_dgrad junk junk' hi wi ho wo G Og Cg K B weight bias es s L I g Sg) as (v & Ev & Tv).
  exists z, z', v. split; auto. split; auto. split; auto. split; [rewrite (teq_shp _ _ _ Tv), Sx; reflexivity|].
  rewrite Tz, Tz', !(tconv_inner_input hi wi ho wo G Og Cg K B es weight bias L) by auto.
  rewrite (inner4_teq_r x v _ Tv), (inner4_teq_r x' v _ Tv) by (try (rewrite (teq_shp _ _ _ Tv), ?Sx, ?Sx'; reflexivity); unfold ndim; rewrite ?Sx, ?Sx'; reflexivity). ring.
Qed.
Theorem tconv_parameter_gradient : forall junk junk' hi wi ho wo G Og Cg K weight weight' bias bias' es d d' (x g : tensor R) B,
  layer_ok K ho wo hi wi G Og Cg weight bias es -> layer_ok K ho wo hi wi G Og Cg weight' bias' es ->
  conv_transpose_s2_init junk hi wi ho wo G K weight bias es = Some d -> conv_transpose_s2_init junk hi wi ho wo G K weight' bias' es = Some d' ->
  shp x = [B; G * Cg; hi; wi] -> shp g = [B; G * Og; ho; wo] ->
  exists z z' V, conv_transpose_s2_opt d x = Some z /\ conv_transpose_s2_opt d' x = Some z' /\ conv_transpose_s2_wgrad junk' d x g = Some V /\
    (inner4 z' g - inner4 z g = (inner3 weight' V - inner3 weight V) + rsum (G * Og) (fun o => (bias_at bias' o - bias_at bias o) * val (bias_grad g) [o]))%R.
Proof.
  intros junk junk' hi wi ho wo G Og Cg K weight weight' bias bias' es d d' x g B L L' I I' Sx Sg.
  destruct (tconv_opt_inner junk hi wi ho wo G Og Cg K weight bias es d x B L I Sx) as (z & Ez & Sz & Tz).
  destruct (tconv_opt_inner junk hi wi ho wo G Og Cg K weight' bias' es d' x B L' I' Sx) as (z' & Ez' & Sz' & Tz').
  destruct (t_serial_wgrad junk junk' hi wi ho wo G Og Cg K B weight bias es d L I x g Sx Sg) as (V & EV & TV).
  exists z, z', V. split; auto. split; auto. split; auto.
  assert (I3 : forall w, shp w = [G * Og; Cg; K] -> inner3 w V = inner3 w (twgrad hi wi wo G Og Cg K B es x g)).
  { intros w Sw. unfold inner3, dimsz. rewrite Sw. cbn [nth]. apply rsum_ext; intros o Ho. apply rsum_ext; intros c Hc. apply rsum_ext; intros k Hk. f_equal. apply (proj2 TV). rewrite (teq_shp _ _ _ TV).
    cbn [shp twgrad]. repeat (apply valid_cons; split; [auto|]). apply valid_nil. }
  rewrite Tz, Tz', (tconv_inner_weight hi wi ho wo G Og Cg K B es weight bias L), (tconv_inner_weight hi wi ho wo G Og Cg K B es weight' bias' L') by auto.
  rewrite !I3 by (destruct L, L'; auto).
  rewrite (rsum_ext (G * Og) (fun o => ((bias_at bias' o - bias_at bias o) * val (bias_grad g) [o])%R) (fun o => (bias_at bias' o * val (bias_grad g) [o] + (-1) * (bias_at bias o * val (bias_grad g) [o]))%R)) by (intros; ring).
  rewrite (bsum_plus RT), (bsum_scal_l RT). ring.
Qed.

(** ** Distributed *)
Lemma dot_inner3 : forall x y a b c, shp x = [a; b; c] -> PrimSpec.dot x y = inner3 x y.
Proof. intros. unfold PrimSpec.dot, inner3, dimsz. rewrite H. reflexivity. Qed.
Theorem dist_conv_input_gradient : forall junk junk' debug P A hi wi ho wo G Og Cg K B weight bias es (X X' Y : tensor R) x x' g,
  layer_ok K hi wi ho wo G Og Cg weight bias es -> slices_filled hi wi P es -> slices_separated K hi wi P es ->
  1 <= P <= hi -> P <= ho -> 1 <= A <= wi -> A <= wo -> A <= G * Cg ->
  shp X = [B; G * Cg; hi; wi] -> shp X' = [B; G * Cg; hi; wi] -> shp Y = [B; G * Og; ho; wo] ->
  holds2 P A x (fun p a => shard 2 P p (shard 3 A a X)) -> holds2 P A x' (fun p a => shard 2 P p (shard 3 A a X')) -> holds2 P A g (fun p a => shard 2 P p (shard 3 A a Y)) ->
  let d := dist_conv_init junk true P A hi wi ho wo G K weight bias es in
  grid_input_gradient P A (dist_conv junk' true debug P A d) (dist_conv_dgrad junk' debug P A d x) x x' g /\
  grid_input_gradient P A (dist_conv_reordered junk' debug P A d) (dist_conv_reordered_dgrad junk' debug P A d x) x x' g.
Proof.
  intros junk junk' debug P A hi wi ho wo G Og Cg K B weight bias es X X' Y x x' g L F S HP HPo HA HAo HAC SX SX' SY Hx Hx' Hg d.
  destruct (conv_init_ok junk _ _ _ _ _ _ _ _ _ _ _ L) as (s & I).
  destruct (conv_input_gradient junk junk' hi wi ho wo G Og Cg K weight bias es s X X' Y B L I SX SX' SY) as (z & z' & v & Ez & Ez' & Ev & Sv & D).
  destruct (conv_opt_inner junk junk' hi wi ho wo G Og Cg K weight bias es s X B L I SX) as (z0 & Ez0 & Sz & _). assert (z0 = z) by congruence. subst z0.
  destruct (conv_opt_inner junk junk' hi wi ho wo G Og Cg K weight bias es s X' B L I SX') as (z0 & Ez0' & Sz' & _). assert (z0 = z') by congruence. subst z0.
  split; exists (inner4 z Y), (inner4 z' Y), (inner4 X v), (inner4 X' v).
  - destruct (dist_conv_serial junk junk' junk' debug P A hi wi ho wo G Og Cg K B weight bias es s X x L I F S HP HPo HA HAo HAC SX Hx) as (w & Ew & Hw). assert (w = z) by congruence. subst w.
    destruct (dist_conv_serial junk junk' junk' debug P A hi wi ho wo G Og Cg K B weight bias es s X' x' L I F S HP HPo HA HAo HAC SX' Hx') as (w & Ew' & Hw'). assert (w = z') by congruence. subst w.
    destruct (dist_conv_bwd_serial junk junk' junk' debug P A hi wi ho wo G Og Cg K B weight bias es s X Y x g L I F S HP HPo HA HAo HAC SX SY Hx Hg) as (V & W & EV & EW & HV & _). assert (V = v) by congruence. subst V.
    split; [eapply grid_inner_shards; eauto; try lia; congruence|]. split; [eapply grid_inner_shards; eauto; try lia; congruence|]. split; [eapply grid_inner_shards; eauto; lia|]. split; [eapply grid_inner_shards; eauto; try lia; congruence|]. exact D.
  - destruct (dist_conv_reordered_serial junk junk' junk' debug P A hi wi ho wo G Og Cg K B weight bias es s X x L I F S HP HPo HA HAo HAC SX Hx) as (w & Ew & Hw). assert (w = z) by congruence. subst w.
    destruct (dist_conv_reordered_serial junk junk' junk' debug P A hi wi ho wo G Og Cg K B weight bias es s X' x' L I F S HP HPo HA HAo HAC SX' Hx') as (w & Ew' & Hw'). assert (w = z') by congruence. subst w.
    destruct (dist_conv_reordered_bwd_serial junk junk' junk' debug P A hi wi ho wo G Og Cg K B weight bias es s X Y x g L I F S HP HPo HA HAo HAC SX SY Hx Hg) as (V & W & EV & EW & HV & _). assert (V = v) by congruence. subst V.
    split; [eapply grid_inner_shards; eauto; try lia; congruence|]. split; [eapply grid_inner_shards; eauto; try lia; congruence|]. split; [eapply grid_inner_shards; eauto; lia|]. split; [eapply grid_inner_shards; eauto; try lia; congruence|]. exact D.
Qed.
Theorem dist_tconv_input_gradient : forall junk junk' debug P A hi wi ho wo G Og Cg K B weight bias es (X X' Y : tensor R) x x' g,
  layer_ok K ho wo hi wi G Og Cg weight bias es -> slices_filled ho wo P es -> slices_separated K ho wo P es ->
  1 <= P <= hi -> P <= ho -> 1 <= A <= wi -> A <= wo -> A <= G * Og ->
  shp X = [B; G * Cg; hi; wi] -> shp X' = [B; G * Cg; hi; wi] -> shp Y = [B; G * Og; ho; wo] ->
  holds2 P A x (fun p a => shard 2 P p (shard 3 A a X)) -> holds2 P A x' (fun p a => shard 2 P p (shard 3 A a X')) -> holds2 P A g (fun p a => shard 2 P p (shard 3 A a Y)) ->
  let d := dist_tconv_init junk true P A hi wi ho wo G K weight bias es in
  grid_input_gradient P A (dist_tconv true debug P A d) (dist_tconv_dgrad junk' debug P A d x) x x' g.
Proof.
  intros junk junk' debug P A hi wi ho wo G Og Cg K B weight bias es X X' Y x x' g L F S HP HPo HA HAo HAC SX SX' SY Hx Hx' Hg d.
  destruct (tconv_init_ok junk _ _ _ _ _ _ _ _ _ _ _ L) as (s & I).
  destruct (tconv_input_gradient junk junk' hi wi ho wo G Og Cg K weight bias es s X X' Y B L I SX SX' SY) as (z & z' & v & Ez & Ez' & Ev & Sv & D).
  destruct (tconv_opt_inner junk hi wi ho wo G Og Cg K weight bias es s X B L I SX) as (z0 & Ez0 & Sz & _). assert (z0 = z) by congruence. subst z0.
  destruct (tconv_opt_inner junk hi wi ho wo G Og Cg K weight bias es s X' B L I SX') as (z0 & Ez0' & Sz' & _). assert (z0 = z') by congruence. subst z0.
  exists (inner4 z Y), (inner4 z' Y), (inner4 X v), (inner4 X' v).
  destruct (dist_tconv_serial junk debug P A hi wi ho wo G Og Cg K B weight bias es s X x L I F S HP HPo HA HAo HAC SX Hx) as (w & Ew & Hw). assert (w = z) by congruence. subst w.
  destruct (dist_tconv_serial junk debug P A hi wi ho wo G Og Cg K B weight bias es s X' x' L I F S HP HPo HA HAo HAC SX' Hx') as (w & Ew' & Hw'). assert (w = z') by congruence. subst w.
  destruct (dist_tconv_bwd_serial junk junk' junk' debug P A hi wi ho wo G Og Cg K B weight bias es s X Y x g L I F S HP HPo HA HAo HAC SX SY Hx Hg) as (V & W & EV & EW & HV & _). assert (V = v) by congruence. subst V.
  split; [eapply grid_inner_shards; eauto; try lia; congruence|]. split; [eapply grid_inner_shards; eauto; try lia; congruence|]. split; [eapply grid_inner_shards; eauto; lia|]. split; [eapply grid_inner_shards; eauto; try lia; congruence|]. exact D.
Qed.

Theorem dist_conv_parameter_gradient : forall junk junk' debug P A hi wi ho wo G Og Cg K B weight weight' bias bias' es (X Y : tensor R) x g,
  layer_ok K hi wi ho wo G Og Cg weight bias es -> layer_ok K hi wi ho wo G Og Cg weight' bias' es -> slices_filled hi wi P es -> slices_separated K hi wi P es ->
  1 <= P <= hi -> P <= ho -> 1 <= A <= wi -> A <= wo -> A <= G * Cg ->
  shp X = [B; G * Cg; hi; wi] -> shp Y = [B; G * Og; ho; wo] ->
  holds2 P A x (fun p a => shard 2 P p (shard 3 A a X)) -> holds2 P A g (fun p a => shard 2 P p (shard 3 A a Y)) ->
  let d := dist_conv_init junk true P A hi wi ho wo G K weight bias es in
  let d' := dist_conv_init junk true P A hi wi ho wo G K weight' bias' es in
  grid_parameter_gradient P A (G * Og) (dist_conv junk' true debug P A d x) (dist_conv junk' true debug P A d' x) (dist_conv_wgrad junk' debug P A d x g) (dist_bias_grad g) g weight weight' bias bias' /\
  grid_parameter_gradient P A (G * Og) (dist_conv_reordered junk' debug P A d x) (dist_conv_reordered junk' debug P A d' x) (dist_conv_reordered_wgrad junk' debug P A d x g) (dist_bias_grad g) g weight weight' bias bias'.
Proof.
  intros junk junk' debug P A hi wi ho wo G Og Cg K B weight weight' bias bias' es X Y x g L L' F S HP HPo HA HAo HAC SX SY Hx Hg d d'.
  destruct (conv_init_ok junk _ _ _ _ _ _ _ _ _ _ _ L) as (s & I). destruct (conv_init_ok junk _ _ _ _ _ _ _ _ _ _ _ L') as (s' & I').
  destruct (conv_parameter_gradient junk junk' junk' hi wi ho wo G Og Cg K weight weight' bias bias' es s s' X Y B L L' I I' SX SY) as (z & z' & V & Ez & Ez' & EV & D).
  destruct (conv_opt_inner junk junk' hi wi ho wo G Og Cg K weight bias es s X B L I SX) as (z0 & Ez0 & Sz & _). assert (z0 = z) by congruence. subst z0.
  destruct (conv_opt_inner junk junk' hi wi ho wo G Og Cg K weight' bias' es s' X B L' I' SX) as (z0 & Ez0' & Sz' & _). assert (z0 = z') by congruence. subst z0.
  destruct (conv_wgrad_value junk junk' hi wi ho wo G Og Cg K weight bias es s X Y B L I SX SY) as (V0 & EV0 & SV & _). assert (V0 = V) by congruence. subst V0.
  assert (Sw : shp weight = [G * Og; Cg; K]) by (destruct L; auto). assert (Sw' : shp weight' = [G * Og; Cg; K]) by (destruct L'; auto).
  assert (BT : grid_total P A (dist_bias_grad g) (bias_grad Y)) by (eapply (bias_grad_total P A B (G * Og) ho wo); eauto; lia).
  assert (BS : shp (bias_grad Y) = [G * Og]) by (unfold bias_grad, dimsz; cbn [shp]; rewrite SY; reflexivity).
  split; exists (inner4 z Y), (inner4 z' Y), V, (bias_grad Y).
  - destruct (dist_conv_serial junk junk' junk' debug P A hi wi ho wo G Og Cg K B weight bias es s X x L I F S HP HPo HA HAo HAC SX Hx) as (w & Ew & Hw). assert (w = z) by congruence. subst w.
    destruct (dist_conv_serial junk junk' junk' debug P A hi wi ho wo G Og Cg K B weight' bias' es s' X x L' I' F S HP HPo HA HAo HAC SX Hx) as (w & Ew' & Hw'). assert (w = z') by congruence. subst w.
    destruct (dist_conv_bwd_serial junk junk' junk' debug P A hi wi ho wo G Og Cg K B weight bias es s X Y x g L I F S HP HPo HA HAo HAC SX SY Hx Hg) as (V1 & W & EV1 & EW & _ & HW & _). assert (W = V) by congruence. subst W.
    split; [eapply grid_inner_shards; eauto; try lia; congruence|]. split; [eapply grid_inner_shards; eauto; try lia; congruence|]. split; [exact HW|]. split; [congruence|]. split; [exact BT|]. split; [exact BS|].
    rewrite !(dot_inner3 _ V (G * Og) Cg K) by auto. exact D.
  - destruct (dist_conv_reordered_serial junk junk' junk' debug P A hi wi ho wo G Og Cg K B weight bias es s X x L I F S HP HPo HA HAo HAC SX Hx) as (w & Ew & Hw). assert (w = z) by congruence. subst w.
    destruct (dist_conv_reordered_serial junk junk' junk' debug P A hi wi ho wo G Og Cg K B weight' bias' es s' X x L' I' F S HP HPo HA HAo HAC SX Hx) as (w & Ew' & Hw'). assert (w = z') by congruence. subst w.
    destruct (dist_conv_reordered_bwd_serial junk junk' junk' debug P A hi wi ho wo G Og Cg K B weight bias es s X Y x g L I F S HP HPo HA HAo HAC SX SY Hx Hg) as (V1 & W & EV1 & EW & _ & HW). assert (W = V) by congruence. subst W.
    split; [eapply grid_inner_shards; eauto; try lia; congruence|]. split; [eapply grid_inner_shards; eauto; try lia; congruence|]. split; [exact HW|]. split; [congruence|]. split; [exact BT|]. split; [exact BS|].
    rewrite !(dot_inner3 _ V (G * Og) Cg K) by auto. exact D.
Qed.
Theorem dist_tconv_parameter_gradient : forall junk junk' debug P A hi wi ho wo G Og Cg K B weight weight' bias bias' es (X Y : tensor R) x g,
  layer_ok K ho wo hi wi G Og Cg weight bias es -> layer_ok K ho wo hi wi G Og Cg weight' bias' es -> slices_filled ho wo P es -> slices_separated K ho wo P es ->
  1 <= P <= hi -> P <= ho -> 1 <= A <= wi -> A <= wo -> A <= G * Og ->
  shp X = [B; G * Cg; hi; wi] -> shp Y = [B; G * Og; ho; wo] ->
  holds2 P A x (fun p a => shard 2 P p (shard 3 A a X)) -> holds2 P A g (fun p a => shard 2 P p (shard 3 A a Y)) ->
  let d := dist_tconv_init junk true P A hi wi ho wo G K weight bias es in
  let d' := dist_tconv_init junk true P A hi wi ho wo G K weight' bias' es in
  grid_parameter_gradient P A (G * Og) (dist_tconv true debug P A d x) (dist_tconv true debug P A d' x) (dist_tconv_wgrad junk' debug P A d x g) (dist_bias_grad g) g weight weight' bias bias'.
Proof.
  intros junk junk' debug P A hi wi ho wo G Og Cg K B weight weight' bias bias' es X Y x g L L' F S HP HPo HA HAo HAC SX SY Hx Hg d d'.
  destruct (tconv_init_ok junk _ _ _ _ _ _ _ _ _ _ _ L) as (s & I). destruct (tconv_init_ok junk _ _ _ _ _ _ _ _ _ _ _ L') as (s' & I').
  destruct (tconv_parameter_gradient junk junk' hi wi ho wo G Og Cg K weight weight' bias bias' es s s' X Y B L L' I I' SX SY) as (z & z' & V & Ez & Ez' & EV & D).
  destruct (tconv_opt_inner junk hi wi ho wo G Og Cg K weight bias es s X B L I SX) as (z0 & Ez0 & Sz & _). assert (z0 = z) by congruence. subst z0.
  destruct (tconv_opt_inner junk hi wi ho wo G Og Cg K weight' bias' es s' X B L' I' SX) as (z0 & Ez0' & Sz' & _). assert (z0 = z') by congruence. subst z0.
  destruct (t_serial_wgrad junk junk' hi wi ho wo G Og Cg K B weight bias es s L I X Y SX SY) as (V0 & EV0 & TV). assert (V0 = V) by congruence. subst V0.
  assert (SV : shp V = [G * Og; Cg; K]) by (rewrite (teq_shp _ _ _ TV); reflexivity).
  assert (Sw : shp weight = [G * Og; Cg; K]) by (destruct L; auto). assert (Sw' : shp weight' = [G * Og; Cg; K]) by (destruct L'; auto).
  assert (BT : grid_total P A (dist_bias_grad g) (bias_grad Y)) by (eapply (bias_grad_total P A B (G * Og) ho wo); eauto; lia).
  assert (BS : shp (bias_grad Y) = [G * Og]) by (unfold bias_grad, dimsz; cbn [shp]; rewrite SY; reflexivity).
  exists (inner4 z Y), (inner4 z' Y), V, (bias_grad Y).
  destruct (dist_tconv_serial junk debug P A hi wi ho wo G Og Cg K B weight bias es s X x L I F S HP HPo HA HAo HAC SX Hx) as (w & Ew & Hw). assert (w = z) by congruence. subst w.
  destruct (dist_tconv_serial junk debug P A hi wi ho wo G Og Cg K B weight' bias' es s' X x L' I' F S HP HPo HA HAo HAC SX Hx) as (w & Ew' & Hw'). assert (w = z') by congruence. subst w.
  destruct (dist_tconv_bwd_serial junk junk' junk' debug P A hi wi ho wo G Og Cg K B weight bias es s X Y x g L I F S HP HPo HA HAo HAC SX SY Hx Hg) as (V1 & W & EV1 & EW & _ & HW & _). assert (W = V) by congruence. subst W.
  split; [eapply grid_inner_shards; eauto; try lia; congruence|]. split; [eapply grid_inner_shards; eauto; try lia; congruence|]. split; [exact HW|]. split; [congruence|]. split; [exact BT|]. split; [exact BS|].
  rewrite !(dot_inner3 _ V (G * Og) Cg K) by auto. exact D.
Qed.

(** ** The intermediate values are those of the forward models *)
Lemma conv_x4_forward : forall junk debug P A d x, dist_conv junk true debug P A d x =
  pzip (fun o t => do z <- weight_contract (d_groups o) (d_weight o) t; add_chan_bias (d_bias o) z) d (conv_x4 junk debug P A d x).
Proof. reflexivity. Qed.
Lemma tconv_x3_forward : forall debug P A d x, dist_tconv true debug P A d x =
  pzip (fun o t => add_chan_bias (d_bias o) t) d (az_transpose debug A 3 1 (pmap (fun t => compute_split_shapes (dimsz t 1) A) (tconv_x0 d x)) (tconv_x3 debug P A d x)).
Proof. reflexivity. Qed.
Lemma reordered_x2_forward : forall junk debug P A d x, dist_conv_reordered junk debug P A d x =
  pzip (fun o t => add_chan_bias (d_bias o) t) d (if 1 <? A then az_reduce_scatter A 3 (po_reduce_scatter P 2 (reordered_x2 junk debug A d x)) else po_reduce_scatter P 2 (reordered_x2 junk debug A d x)).
Proof. reflexivity. Qed.
(** the fused operator sees the prepared shard *)
Lemma reordered_local_prepared : forall junk A a o x, reordered_local junk A a o x =
  do r <- reordered_prepare A a o x;
  do y <- disco_cpu_fwd junk (d_K o) (d_nlat_out o) (d_nlon_out o) (d_roff o) (d_es o) (re_input r);
  do z <- weight_contract (re_groups r) (re_weight r) y;
  Some (if d_groups o =? 1 then z else
        mkT (upd 1 (dimsz (d_weight o) 0) (shp z))
          (fun i => if (re_out_off r <=? nth 1 i 0) && (nth 1 i 0 <? re_out_off r + re_groups r * (dimsz (d_weight o) 0 / d_groups o)) then val z (upd 1 (nth 1 i 0 - re_out_off r) i) else 0%R)).
Proof.
  intros. unfold reordered_local, reordered_prepare. cbv zeta. destruct (if 1 <? A then _ else _) as [cs|]; [|reflexivity]. cbn [bindo].
  destruct (guard _); [|reflexivity]. cbn [bindo]. destruct (d_groups o =? 1).
  - cbn [bindo re_input re_groups re_weight]. destruct (disco_cpu_fwd _ _ _ _ _ _ _); [|reflexivity]. cbn [bindo]. destruct (weight_contract _ _ _); reflexivity.
  - cbn [bindo re_input re_groups re_weight re_out_off]. reflexivity.
Qed.
