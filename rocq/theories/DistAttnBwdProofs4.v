(** The gradients of attention on a grid of ranks are the blocks of the serial ones. *)
From Coq Require Import List Arith Lia Bool ZArith Reals Lra Permutation.
From Coquelicot Require Import Coquelicot.
From Verif Require Import TensorModel TensorProofs BigSum AdjointProofs PrimModel PrimSpec PrimProofs DistSHTModel DistSHTProofs DistSpectralProofs DiscoTensorProofs DistDiscoProofs AttnModel AttnLayerModel AttnSpec AttnLayerSpec AttnCoreProofs AttnKernelProofs AttnGradProofs AttnOpProofs AttnOpValProofs AttnLayerProofs AttnExProofs
  DistStateModel DistAttnModel DistAttnSpec DistAttnBwdModel DistAttnBwdSpec DistAttnProofs DistAttnProofs4 DistAttnProofs5 DistAttnBwdProofs3.
Import ListNotations.
Local Open Scope nat_scope.

Lemma folded_cf : forall B nh C H W t, shp t = [B; H; W; nh * C] -> teq (folded_heads nh C t) (mk_cf (B * nh) C H W (ffld nh C t)).
Proof.
  intros B nh C H W t S. unfold folded_heads, dimsz. rewrite S. cbn [nth]. split; [reflexivity|]. cbn [shp]. intros i Vi.
  destruct (valid4 _ _ _ _ _ Vi) as (b & c & y & x & -> & _). reflexivity.
Qed.
Lemma folded_unpk : forall B nh C H W g t, 1 <= nh -> teq t (unpk B nh C H W g) -> teq (folded_heads nh C t) (mk_cf (B * nh) C H W g).
Proof.
  intros B nh C H W g t Hn [S V]. assert (St : shp t = [B; H; W; nh * C]) by (rewrite S; reflexivity). eapply teq_trans; [apply (folded_cf B nh C H W); exact St|].
  split; [reflexivity|]. cbn [shp mk_cf]. intros i Vi. destruct (valid4 _ _ _ _ _ Vi) as (b & c & y & x & -> & Hb & Hc & Hy & Hx). cbn [val mk_cf nth]. unfold ffld.
  destruct (unfold_idx nh B b Hn Hb) as (L1 & L2 & E). destruct (head_split (b mod nh) nh C c L2 Hc) as (L3 & E1 & E2).
  rewrite V by (rewrite St; apply valid4_intro; auto). unfold unpk. cbn [val nth]. rewrite E1, E2, E. reflexivity.
Qed.
Lemma block_teq : forall Np A X Y p a, 1 <= Np -> 1 <= A -> p < Np -> a < A -> teq X Y -> teq (block Np A X p a) (block Np A Y p a).
Proof. intros. unfold block. apply shard_proper; auto. apply shard_proper; auto. Qed.
Lemma rank_dot_blocks : forall Np A B C H W X Y, 1 <= Np -> 1 <= A -> shp X = [B; C; H; W] -> shp Y = [B; C; H; W] ->
  rank_dot Np A (block Np A X) (block Np A Y) = PrimSpec.dot X Y.
Proof.
  intros Np A B C H W X Y HN HA SX SY. unfold rank_dot. rewrite (bsum_swap RT). rewrite (dot_shards A 3 X Y) by (unfold ndim; rewrite ?SX, ?SY; auto).
  apply rsum_ext'. intros a Ha. symmetry. apply dot_shards; auto; unfold ndim, shard, narrow, dimsz; cbn [shp]; rewrite ?SX, ?SY; cbn; auto.
Qed.
Lemma rank_dot_teq : forall Np A x y x' y', (forall p a, p < Np -> a < A -> teq (x p a) (x' p a) /\ teq (y p a) (y' p a) /\ shp (x p a) = shp (y p a)) ->
  rank_dot Np A x y = rank_dot Np A x' y'.
Proof. intros Np A x y x' y' H. apply rsum_ext'. intros p Hp. apply rsum_ext'. intros a Ha. destruct (H p a Hp Ha) as (? & ? & ?). apply dot_proper; auto. Qed.
Lemma folded_dot : forall B nh C H W x y, 1 <= nh -> shp x = [B; H; W; nh * C] -> PrimSpec.dot (folded_heads nh C x) (folded_heads nh C y) = pairing B H W (nh * C) x y.
Proof.
  intros B nh C H W x y Hn Sx. rewrite pairing_ip by auto. unfold PrimSpec.dot, folded_heads, dimsz. cbn [shp]. rewrite Sx. cbn [nth isum]. unfold ip.
  apply rsum_ext'. intros b _. cbn [val nth]. rewrite (bsum_swap RT). apply rsum_ext'. intros h _. rewrite (bsum_swap RT). apply rsum_ext'. intros w _. reflexivity.
Qed.

Section Final.
Variables (argsort : list nat -> list nat) (L : weights) (B Ck Cv nh Hi Wi Ho Wo : nat) (quad : nat -> R) (P : pattern) (Np A : nat) (ranks : nat -> list nat).
Let obj := dist_na_init argsort Np A (na_layer L Hi Wi Ho Wo nh quad P).
Hypothesis HArg : forall l, Permutation (argsort l) (seq 0 (length l)).
Hypothesis HG : grid_ok Hi Wi Ho Wo Np A ranks.
Hypothesis HF : halo_fits P Hi Wi Ho Wo Np.

Section One.
Variables (kw vw qw : tensor R) (kf vf qf : pfam (tensor R)).
Hypothesis OK : attn_ok B nh Ck Cv Hi Wi Ho Wo quad P kw vw qw.
Hypothesis Hk : holds2 Np A kf (block Np A (folded_heads nh Ck kw)).
Hypothesis Hv : holds2 Np A vf (block Np A (folded_heads nh Cv vw)).
Hypothesis Hq : holds2 Np A qf (block Np A (folded_heads nh Ck qw)).
Let dummy H W := mk_cf B 1 H W (fun _ _ _ _ => 0%R).
Lemma na_dummy : na_ok B 1 nh Ck Cv Hi Wi Ho Wo quad P (dummy Hi Wi) (dummy Hi Wi) (dummy Ho Wo).
Proof. destruct OK. constructor; auto. Qed.
Lemma HP : forall p a, p < Np -> a < A -> exists kt vt qt, triples kf vf qf p a = Some (kt, vt, qt) /\
  teq kt (shard 2 Np p (shard 3 A a (mk_cf (B * nh) Ck Hi Wi (ffld nh Ck kw)))) /\ teq vt (shard 2 Np p (shard 3 A a (mk_cf (B * nh) Cv Hi Wi (ffld nh Cv vw)))) /\
  teq qt (shard 2 Np p (shard 3 A a (mk_cf (B * nh) Ck Ho Wo (ffld nh Ck qw)))).
Proof.
  intros p a Hp Ha. pose proof HG as [(? & ? & ?) (? & ? & ?) HS HR]. pose proof OK as [HB Hn HHi HHo HWi HWo Sk Sv Sq Hd HPt Hqd Hne].
  destruct (Hk p a Hp Ha) as (kt & Ek & Tk). destruct (Hv p a Hp Ha) as (vt & Ev & Tv). destruct (Hq p a Hp Ha) as (qt & Eq & Tq).
  exists kt, vt, qt. split; [unfold triples; rewrite Ek, Ev, Eq; reflexivity|].
  split; [eapply teq_trans; [exact Tk|]; apply block_teq; auto; apply folded_cf; auto|]. split; [eapply teq_trans; [exact Tv|]; apply block_teq; auto; apply folded_cf; auto|].
  eapply teq_trans; [exact Tq|]; apply block_teq; auto; apply folded_cf; auto.
Qed.
Lemma HH : forall p a o, p < Np -> a < A -> obj p a = Some o -> da_r_lat o <= chunk_len Hi Np p.
Proof.
  intros p a o Hp Ha EO. pose proof na_dummy as HN. destruct (radius_exact argsort L B 1 Ck Cv nh Hi Wi Ho Wo quad P Np A ranks HArg HG _ _ _ p a o HN Hp Ha EO) as (_ & Q).
  destruct HF as (r & R1 & R2). specialize (Q r R1). specialize (R2 p Hp). lia.
Qed.
Theorem op_fwd : exists y, attn_torch kw vw qw quad (columns P) (offsets 0 P) nh Wi Ho Wo = Some y /\ teq y (attn_spec nh Ck Cv quad (nbrs P Hi Wi Wo) Ho Wo kw vw qw) /\
  holds2 Np A (dist_op Np ranks obj (triples kf vf qf)) (block Np A (folded_heads nh Cv y)).
Proof.
  pose proof HG as [(? & ? & ?) (? & ? & ?) HS HR]. pose proof OK as [HB Hn HHi HHo HWi HWo Sk Sv Sq Hd HPt Hqd Hne].
  destruct (torch_correct _ _ _ _ _ _ _ _ _ _ _ _ _ OK) as (y & E & T). exists y. split; [exact E|]. split; [exact T|].
  eapply holds2_teq; [exact (op_forward argsort L B 1 Ck Cv nh Hi Wi Ho Wo quad P _ _ _ Np A ranks na_dummy HArg H H0 H1 H2 H3 H4 HS HR HH _ _ _ _ HP)|].
  intros p a Hp Ha. apply block_teq; auto. apply teq_sym.
  assert (Sy : shp y = [B; Ho; Wo; nh * Cv]) by (rewrite (proj1 T); unfold attn_spec, dimsz; cbn [shp]; rewrite Sq; reflexivity).
  eapply teq_trans; [apply (folded_cf B nh Cv Ho Wo); exact Sy|]. split; [reflexivity|]. cbn [shp mk_cf]. intros i Vi. destruct (valid4 _ _ _ _ _ Vi) as (b & c & h & w & -> & Hb & Hc & Hh & Hw).
  cbn [val mk_cf nth]. unfold ffld at 1. destruct (unfold_idx nh B b Hn Hb) as (L1 & L2 & Eb). destruct (head_split (b mod nh) nh Cv c L2 Hc) as (L3 & E1 & E2).
  rewrite (proj2 T) by (rewrite Sy; apply valid4_intro; auto). unfold attn_spec, attn_packed. cbn [val nth]. rewrite E1, E2. reflexivity.
Qed.
Variables (dyw : tensor R) (dyf : pfam (tensor R)).
Hypothesis Sdy : shp dyw = [B; Ho; Wo; nh * Cv].
Hypothesis Hdy : holds2 Np A dyf (block Np A (folded_heads nh Cv dyw)).
Theorem op_bwd : exists dk dv dq, attn_bwd_torch kw vw qw dyw quad (columns P) (offsets 0 P) nh Wi Ho Wo = Some (dk, dv, dq) /\
  (teq dk (dK B nh Ck Cv Hi Wi Ho Wo quad P kw vw qw dyw) /\ teq dv (dV B nh Ck Cv Hi Wi Ho Wo quad P kw qw dyw) /\ teq dq (dQ B nh Ck Cv Hi Wi Ho Wo quad P kw vw qw dyw)) /\
  let g := dist_op_bwd Np ranks obj (triples kf vf qf) dyf in
  holds2 Np A (fst (fst g)) (block Np A (folded_heads nh Ck dk)) /\ holds2 Np A (snd (fst g)) (block Np A (folded_heads nh Cv dv)) /\
  holds2 Np A (snd g) (block Np A (folded_heads nh Ck dq)).
Proof.
  pose proof HG as [(? & ? & ?) (? & ? & ?) HS HR]. pose proof OK as [HB Hn HHi HHo HWi HWo Sk Sv Sq Hd HPt Hqd Hne].
  destruct (attn_bwd_torch_val B nh Ck Cv Hi Wi Ho Wo quad P kw vw qw OK dyw Sdy) as (dk & dv & dq & E & Tk & Tv & Tq).
  exists dk, dv, dq. split; [exact E|]. split; [auto|]. cbv zeta.
  assert (HD : holds2 Np A dyf (fun p a => shard 2 Np p (shard 3 A a (mk_cf (B * nh) Cv Ho Wo (ffld nh Cv dyw))))).
  { eapply holds2_teq; [exact Hdy|]. intros p a Hp Ha. apply block_teq; auto. apply folded_cf; auto. }
  split; [|split].
  - eapply holds2_teq; [exact (op_dk argsort L B 1 Ck Cv nh Hi Wi Ho Wo quad P _ _ _ Np A ranks na_dummy HArg H H0 H1 H2 H3 H4 HS HR HH _ _ _ _ _ _ HP HD)|].
    intros p a Hp Ha. apply block_teq; auto. apply teq_sym, folded_unpk; auto.
  - eapply holds2_teq; [exact (op_dv argsort L B 1 Ck Cv nh Hi Wi Ho Wo quad P _ _ _ Np A ranks na_dummy HArg H H0 H1 H2 H3 H4 HS HR HH _ _ _ _ _ _ HP HD)|].
    intros p a Hp Ha. apply block_teq; auto. apply teq_sym, folded_unpk; auto.
  - eapply holds2_teq; [exact (op_dq argsort L B 1 Ck Cv nh Hi Wi Ho Wo quad P _ _ _ Np A ranks na_dummy HArg H H0 H1 H2 H3 H4 HS HR HH _ _ _ _ _ _ HP HD)|].
    intros p a Hp Ha. apply block_teq; auto. apply teq_sym, folded_unpk; auto.
Qed.
End One.
End Final.

Lemma given_holds : forall Np A X, holds2 Np A (given X) X.
Proof. intros Np A X p a _ _. exists (X p a). split; [reflexivity|apply teq_refl]. Qed.
Lemma rank_dot_folded : forall Np A B nh C H W x y, 1 <= Np -> 1 <= A -> 1 <= nh -> shp x = [B; H; W; nh * C] -> shp y = [B; H; W; nh * C] ->
  rank_dot Np A (block Np A (folded_heads nh C x)) (block Np A (folded_heads nh C y)) = pairing B H W (nh * C) x y.
Proof.
  intros Np A B nh C H W x y HN HA Hn Sx Sy. rewrite <- (folded_dot B nh C H W) by auto. apply (rank_dot_blocks Np A (B * nh) C H W); auto; unfold folded_heads, dimsz; cbn [shp]; rewrite ?Sx, ?Sy; reflexivity.
Qed.
Lemma holds2_get : forall Np A (x : pfam (tensor R)) g, holds2 Np A x g -> exists f, forall p a, p < Np -> a < A -> x p a = Some (f p a) /\ teq (f p a) (g p a).
Proof.
  intros Np A x g H. exists (fun p a => match x p a with Some t => t | None => g p a end). intros p a Hp Ha. destruct (H p a Hp Ha) as (t & -> & T). auto.
Qed.
Theorem dist_gradients : forall argsort L B Ck Cv nh Hi Wi Ho Wo quad P Np A ranks,
  (forall l, Permutation (argsort l) (seq 0 (length l))) -> grid_ok Hi Wi Ho Wo Np A ranks -> halo_fits P Hi Wi Ho Wo Np ->
  forall kw vw qw dyw, attn_ok B nh Ck Cv Hi Wi Ho Wo quad P kw vw qw -> shp dyw = [B; Ho; Wo; nh * Cv] ->
  let obj := dist_na_init argsort Np A (na_layer L Hi Wi Ho Wo nh quad P) in
  let inputs := fun k v q => triples (given (block Np A (folded_heads nh Ck k))) (given (block Np A (folded_heads nh Cv v))) (given (block Np A (folded_heads nh Ck q))) in
  let g := dist_op_bwd Np ranks obj (inputs kw vw qw) (given (block Np A (folded_heads nh Cv dyw))) in
  exists dk dv dq, (forall p a, p < Np -> a < A -> fst (fst g) p a = Some (dk p a) /\ snd (fst g) p a = Some (dv p a) /\ snd g p a = Some (dq p a)) /\
  forall k' v' q', shp k' = shp kw -> shp v' = shp vw -> shp q' = shp qw -> exists yt,
    (forall t p a, p < Np -> a < A -> dist_op Np ranks obj (inputs (along kw k' t) (along vw v' t) (along qw q' t)) p a = Some (yt t p a)) /\
    is_derive (fun t => rank_dot Np A (block Np A (folded_heads nh Cv dyw)) (yt t)) 0%R
      (rank_dot Np A dk (block Np A (folded_heads nh Ck k')) + rank_dot Np A dv (block Np A (folded_heads nh Cv v')) + rank_dot Np A dq (block Np A (folded_heads nh Ck q')))%R.
Proof.
  intros argsort L B Ck Cv nh Hi Wi Ho Wo quad P Np A ranks HArg HG HF kw vw qw dyw OK Sdy obj inputs g.
  pose proof HG as [(N1 & _ & _) (A1 & _ & _) _ _]. pose proof OK as [HB Hn HHi HHo HWi HWo Sk Sv Sq Hd HPt Hqd Hne].
  destruct (op_bwd argsort L B Ck Cv nh Hi Wi Ho Wo quad P Np A ranks HArg HG HF kw vw qw _ _ _ OK (given_holds _ _ _) (given_holds _ _ _) (given_holds _ _ _) dyw _ Sdy (given_holds _ _ _))
    as (sk & sv & sq & E & (Tk & Tv & Tq) & Gk & Gv & Gq).
  destruct (holds2_get _ _ _ _ Gk) as (dk & Dk). destruct (holds2_get _ _ _ _ Gv) as (dv & Dv). destruct (holds2_get _ _ _ _ Gq) as (dq & Dq).
  assert (Ssk : shp sk = [B; Hi; Wi; nh * Ck]) by (rewrite (proj1 Tk); reflexivity). assert (Ssv : shp sv = [B; Hi; Wi; nh * Cv]) by (rewrite (proj1 Tv); reflexivity).
  assert (Ssq : shp sq = [B; Ho; Wo; nh * Ck]) by (rewrite (proj1 Tq); reflexivity).
  exists dk, dv, dq. split. { intros p a Hp Ha. split; [apply Dk; auto|]. split; [apply Dv; auto|apply Dq; auto]. }
  intros k' v' q' Sk' Sv' Sq'. rewrite Sk in Sk'. rewrite Sv in Sv'. rewrite Sq in Sq'.
  assert (FW : forall t, exists y f, teq y (attn_spec nh Ck Cv quad (nbrs P Hi Wi Wo) Ho Wo (along kw k' t) (along vw v' t) (along qw q' t)) /\
    forall p a, p < Np -> a < A -> dist_op Np ranks obj (inputs (along kw k' t) (along vw v' t) (along qw q' t)) p a = Some (f p a) /\ teq (f p a) (block Np A (folded_heads nh Cv y) p a)).
  { intros t. destruct (op_fwd argsort L B Ck Cv nh Hi Wi Ho Wo quad P Np A ranks HArg HG HF (along kw k' t) (along vw v' t) (along qw q' t) _ _ _ (along_ok _ _ _ _ _ _ _ _ _ _ _ _ _ k' v' q' t OK)
      (given_holds _ _ _) (given_holds _ _ _) (given_holds _ _ _)) as (y & _ & Ty & G). destruct (holds2_get _ _ _ _ G) as (f & Df). exists y, f. split; [exact Ty|exact Df]. }
  exists (fun t p a => match dist_op Np ranks obj (inputs (along kw k' t) (along vw v' t) (along qw q' t)) p a with Some y => y | None => dyw end).
  split. { intros t p a Hp Ha. destruct (FW t) as (y & f & _ & Hf). destruct (Hf p a Hp Ha) as (-> & _). reflexivity. }
  assert (BS : forall C H W x y, shp x = [B; H; W; nh * C] -> shp y = [B; H; W; nh * C] -> forall p a, shp (block Np A (folded_heads nh C x) p a) = shp (block Np A (folded_heads nh C y) p a)).
  { intros C H W x y Sx Sy p a. unfold block, shard, narrow, folded_heads, dimsz. cbn [shp]. rewrite Sx, Sy. reflexivity. }
  assert (RD : forall C H W (x : nat -> nat -> tensor R) (f : pfam (tensor R)) s d, (forall p a, p < Np -> a < A -> f p a = Some (x p a) /\ teq (x p a) (block Np A (folded_heads nh C s) p a)) ->
    shp s = [B; H; W; nh * C] -> shp d = [B; H; W; nh * C] -> rank_dot Np A x (block Np A (folded_heads nh C d)) = pairing B H W (nh * C) s d).
  { intros C H W x f s d Hx Ss Sd. rewrite <- (rank_dot_folded Np A) by auto. apply rank_dot_teq. intros p a Hp Ha. destruct (Hx p a Hp Ha) as (_ & T). split; [exact T|]. split; [apply teq_refl|].
    rewrite (proj1 T). apply (BS C H W); auto. }
  rewrite (RD Ck Hi Wi dk _ sk k' Dk Ssk Sk'), (RD Cv Hi Wi dv _ sv v' Dv Ssv Sv'), (RD Ck Ho Wo dq _ sq q' Dq Ssq Sq').
  rewrite (pairing_teq B Hi Wi (nh * Ck) sk _ k' Ssk Tk), (pairing_teq B Hi Wi (nh * Cv) sv _ v' Ssv Tv), (pairing_teq B Ho Wo (nh * Ck) sq _ q' Ssq Tq).
  eapply is_derive_ext; [|apply (op_deriv B nh Ck Cv Hi Wi Ho Wo quad P kw vw qw OK dyw k' v' q')].
  intros t. cbv beta. destruct (FW t) as (y & f & Ty & Hf).
  assert (Sy : shp y = [B; Ho; Wo; nh * Cv]) by (rewrite (proj1 Ty); unfold attn_spec, along, dimsz; cbn [shp]; rewrite Sq; reflexivity).
  rewrite <- (pairing_teq_r B Ho Wo (nh * Cv) dyw _ _ Sy Ty). symmetry. rewrite <- (rank_dot_folded Np A) by auto. apply rank_dot_teq. intros p a Hp Ha. destruct (Hf p a Hp Ha) as (-> & T).
  split; [apply teq_refl|]. split; [exact T|]. rewrite (proj1 T). apply (BS Cv Ho Wo); auto.
Qed.
(** the layer's forward pass is this operation between its projections *)
Lemma forward_op : forall eps P ranks obj qf kf vf p a, dist_na_forward eps P ranks obj qf (Some kf) (Some vf) p a =
  (do o <- obj p a; do out <- dist_op P ranks obj (dist_proj eps obj qf kf vf) p a;
   do out <- reshape [dimsz out 0 / na_nh (da_L o); na_nh (da_L o) * dimsz out 1; dimsz out 2; dimsz out 3] out; conv1x1 (na_p (da_L o)) (na_pb (da_L o)) out).
Proof.
  intros. unfold dist_na_forward, dist_op. destruct (obj p a) as [o|]; [|reflexivity]. cbn [bindo]. destruct (dist_proj eps obj qf kf vf p a) as [x|]; [|reflexivity]. cbn [bindo].
  destruct (dist_visits _ _ _ _ _) as [vs|]; reflexivity.
Qed.
