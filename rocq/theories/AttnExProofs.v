(** The properties of the attention operators in final form, and concrete cases. *)
From Coq Require Import List Arith Lia Bool Reals Lra Permutation.
From Coquelicot Require Import Coquelicot.
From Verif Require Import TensorModel TensorProofs BigSum SHTSpec DistSpectralProofs DiscoTensorProofs
  AttnModel AttnLayerModel AttnSpec AttnLayerSpec AttnCoreProofs AttnKernelProofs AttnUpProofs AttnGradProofs AttnOpProofs AttnOpValProofs AttnLayerProofs AttnGlobalProofs AttnPropProofs.
Import ListNotations.
Local Open Scope nat_scope.

(** the attention handles: the reference, and the CPU kernel with any block width,
    any very negative starting value and any scratch contents *)
Definition library_op (op : handle) : Prop := op = attn_torch \/ exists m0 BS junk, 1 <= BS /\ op = attn_cpu m0 BS junk.
Lemma library_correct : forall op, library_op op -> op_correct op.
Proof. intros op [->|(m0 & BS & junk & HB & ->)]; [apply torch_correct|apply cpu_correct; auto]. Qed.
Section Final.
Variables (op : handle) (B nh Ck Cv Hi Wi Ho Wo : nat) (quad : nat -> R) (P : pattern) (kw vw qw : tensor R).
Hypothesis (HL : library_op op) (OK : attn_ok B nh Ck Cv Hi Wi Ho Wo quad P kw vw qw).
Let fwd := op kw vw qw quad (columns P) (offsets 0 P) nh Wi Ho Wo.
Lemma fin_spec : exists y, fwd = Some y /\ teq y (attn_spec nh Ck Cv quad (nbrs P Hi Wi Wo) Ho Wo kw vw qw).
Proof. exact (library_correct op HL _ _ _ _ _ _ _ _ _ _ _ _ _ OK). Qed.
Lemma fin_some : forall y, fwd = Some y -> teq y (attn_spec nh Ck Cv quad (nbrs P Hi Wi Wo) Ho Wo kw vw qw).
Proof. intros y E. destruct fin_spec as (y' & E' & T). rewrite E in E'. injection E' as <-. exact T. Qed.
Lemma fin_bounds : forall y b ho wo h c lo hi, fwd = Some y -> b < B -> ho < Ho -> wo < Wo -> h < nh -> c < Cv ->
  (forall p, In p (nbrs P Hi Wi Wo ho wo) -> (lo <= val vw [b; fst p; snd p; h * Cv + c]%nat <= hi)%R) -> (lo <= val y [b; ho; wo; h * Cv + c]%nat <= hi)%R.
Proof. intros y b ho wo h c lo hi E. apply (convex B nh Ck Cv Hi Wi Ho Wo quad P kw vw qw OK). apply fin_some. exact E. Qed.
Lemma fin_constants : forall y b ho wo h c a, fwd = Some y -> b < B -> ho < Ho -> wo < Wo -> h < nh -> c < Cv ->
  (forall p, In p (nbrs P Hi Wi Wo ho wo) -> val vw [b; fst p; snd p; h * Cv + c] = a) -> val y [b; ho; wo; h * Cv + c] = a.
Proof. intros y b ho wo h c a E. apply (constants B nh Ck Cv Hi Wi Ho Wo quad P kw vw qw OK). apply fin_some. exact E. Qed.
End Final.
(** only the neighbours matter *)
Lemma fin_local : forall op B nh Ck Cv Hi Wi Ho Wo quad P kw vw qw kw' vw' qw' y y' b ho wo d, library_op op ->
  attn_ok B nh Ck Cv Hi Wi Ho Wo quad P kw vw qw -> attn_ok B nh Ck Cv Hi Wi Ho Wo quad P kw' vw' qw' -> b < B -> ho < Ho -> wo < Wo -> d < nh * Cv ->
  op kw vw qw quad (columns P) (offsets 0 P) nh Wi Ho Wo = Some y -> op kw' vw' qw' quad (columns P) (offsets 0 P) nh Wi Ho Wo = Some y' ->
  (forall p e, In p (nbrs P Hi Wi Wo ho wo) -> val kw [b; fst p; snd p; e] = val kw' [b; fst p; snd p; e] /\ val vw [b; fst p; snd p; e] = val vw' [b; fst p; snd p; e]) ->
  (forall e, val qw [b; ho; wo; e] = val qw' [b; ho; wo; e]) ->
  val y [b; ho; wo; d] = val y' [b; ho; wo; d].
Proof.
  intros op B nh Ck Cv Hi Wi Ho Wo quad P kw vw qw kw' vw' qw' y y' b ho wo d HL OK OK' Hb Hh Hw Hd E E' Ekv Eq.
  destruct (split_head d nh Cv Hd) as (L1 & L2 & Ed). rewrite <- Ed.
  rewrite (spec_at B nh Ck Cv Hi Wi Ho Wo quad P kw vw qw OK y), (spec_at B nh Ck Cv Hi Wi Ho Wo quad P kw' vw' qw' OK' y') by (auto; eapply fin_some; eauto).
  apply softmax_avg_ext. intros p Hp. split; [|split; [reflexivity|apply (Ekv p _ Hp)]]. apply score_ext.
  - intros c _. unfold head. apply (Ekv p _ Hp).
  - intros c _. unfold head. apply Eq.
Qed.

Lemma along_ok : forall B nh Ck Cv Hi Wi Ho Wo quad P kw vw qw k' v' q' t, attn_ok B nh Ck Cv Hi Wi Ho Wo quad P kw vw qw ->
  attn_ok B nh Ck Cv Hi Wi Ho Wo quad P (along kw k' t) (along vw v' t) (along qw q' t).
Proof. intros B nh Ck Cv Hi Wi Ho Wo quad P kw vw qw k' v' q' t [HB Hn HHi HHo HWi HWo Sk Sv Sq Hd HP Hq Hne]. constructor; auto. Qed.
Definition grads_of (op : handle) (B nh Ck Cv Hi Wi Ho Wo : nat) (quad : nat -> R) (P : pattern) (kw vw qw dyw dk dv dq : tensor R) : Prop :=
  shp dk = shp kw /\ shp dv = shp vw /\ shp dq = shp qw /\
  forall k' v' q', exists yt, (forall t, op (along kw k' t) (along vw v' t) (along qw q' t) quad (columns P) (offsets 0 P) nh Wi Ho Wo = Some (yt t)) /\
    is_derive (fun t => pairing B Ho Wo (nh * Cv) dyw (yt t)) 0%R
      (pairing B Hi Wi (nh * Ck) dk k' + pairing B Hi Wi (nh * Cv) dv v' + pairing B Ho Wo (nh * Ck) dq q')%R.
Lemma pairing_teq_r : forall B H W D x y y', shp y = [B; H; W; D] -> teq y y' -> pairing B H W D x y = pairing B H W D x y'.
Proof.
  intros B H W D x y y' S [_ E]. unfold pairing. apply rsum_ext'. intros. apply rsum_ext'. intros. apply rsum_ext'. intros. apply rsum_ext'. intros.
  rewrite E; [reflexivity|]. rewrite S. apply valid4_intro; auto.
Qed.
Lemma grads_final : forall op B nh Ck Cv Hi Wi Ho Wo quad P kw vw qw dyw dk dv dq, library_op op -> attn_ok B nh Ck Cv Hi Wi Ho Wo quad P kw vw qw ->
  shp dyw = [B; Ho; Wo; nh * Cv] -> teq dk (dK B nh Ck Cv Hi Wi Ho Wo quad P kw vw qw dyw) -> teq dv (dV B nh Ck Cv Hi Wi Ho Wo quad P kw qw dyw) ->
  teq dq (dQ B nh Ck Cv Hi Wi Ho Wo quad P kw vw qw dyw) -> grads_of op B nh Ck Cv Hi Wi Ho Wo quad P kw vw qw dyw dk dv dq.
Proof.
  intros op B nh Ck Cv Hi Wi Ho Wo quad P kw vw qw dyw dk dv dq HL OK Sd Tk Tv Tq. pose proof OK as [HB Hn HHi HHo HWi HWo Sk Sv Sq Hd HP Hq Hne].
  split; [rewrite (proj1 Tk), Sk; reflexivity|]. split; [rewrite (proj1 Tv), Sv; reflexivity|]. split; [rewrite (proj1 Tq), Sq; reflexivity|].
  intros k' v' q'.
  exists (fun t => match op (along kw k' t) (along vw v' t) (along qw q' t) quad (columns P) (offsets 0 P) nh Wi Ho Wo with Some y => y | None => dyw end).
  assert (E : forall t, exists y, op (along kw k' t) (along vw v' t) (along qw q' t) quad (columns P) (offsets 0 P) nh Wi Ho Wo = Some y /\
    teq y (attn_spec nh Ck Cv quad (nbrs P Hi Wi Wo) Ho Wo (along kw k' t) (along vw v' t) (along qw q' t))).
  { intros t. eapply fin_spec; [exact HL|]. apply (along_ok B). exact OK. }
  split. { intros t. destruct (E t) as (y & -> & _). reflexivity. }
  rewrite (pairing_teq B Hi Wi (nh * Ck) dk _ k' ltac:(rewrite (proj1 Tk); reflexivity) Tk).
  rewrite (pairing_teq B Hi Wi (nh * Cv) dv _ v' ltac:(rewrite (proj1 Tv); reflexivity) Tv).
  rewrite (pairing_teq B Ho Wo (nh * Ck) dq _ q' ltac:(rewrite (proj1 Tq); reflexivity) Tq).
  eapply is_derive_ext; [|apply (op_deriv B nh Ck Cv Hi Wi Ho Wo quad P kw vw qw OK dyw k' v' q')].
  intros t. cbv beta. destruct (E t) as (y & -> & Ty). symmetry. apply pairing_teq_r; [|exact Ty]. rewrite (proj1 Ty). unfold attn_spec, along, dimsz. cbn [shp]. rewrite Sq. reflexivity.
Qed.
Theorem torch_grads : forall op B nh Ck Cv Hi Wi Ho Wo quad P kw vw qw dyw, library_op op -> attn_ok B nh Ck Cv Hi Wi Ho Wo quad P kw vw qw ->
  shp dyw = [B; Ho; Wo; nh * Cv] ->
  exists dk dv dq, attn_bwd_torch kw vw qw dyw quad (columns P) (offsets 0 P) nh Wi Ho Wo = Some (dk, dv, dq) /\
    grads_of op B nh Ck Cv Hi Wi Ho Wo quad P kw vw qw dyw dk dv dq.
Proof.
  intros op B nh Ck Cv Hi Wi Ho Wo quad P kw vw qw dyw HL OK Sd.
  destruct (attn_bwd_torch_val B nh Ck Cv Hi Wi Ho Wo quad P kw vw qw OK dyw Sd) as (dk & dv & dq & E & Tk & Tv & Tq).
  exists dk, dv, dq. split; [exact E|]. apply grads_final; auto.
Qed.
Theorem cpu_grads : forall op m0 B nh Ck Cv Hi Wi Ho Wo quad P kw vw qw dyw, library_op op -> attn_ok B nh Ck Cv Hi Wi Ho Wo quad P kw vw qw ->
  shp dyw = [B; Ho; Wo; nh * Cv] ->
  exists dk dv dq, attn_bwd_cpu m0 kw vw qw dyw quad (columns P) (offsets 0 P) nh Wi Ho Wo = Some (dk, dv, dq) /\
    grads_of op B nh Ck Cv Hi Wi Ho Wo quad P kw vw qw dyw dk dv dq.
Proof.
  intros op m0 B nh Ck Cv Hi Wi Ho Wo quad P kw vw qw dyw HL OK Sd.
  destruct (attn_bwd_cpu_val B nh Ck Cv Hi Wi Ho Wo quad P kw vw qw OK dyw Sd m0) as (dk & dv & dq & E & Tk & Tv & Tq).
  exists dk, dv, dq. split; [exact E|]. apply grads_final; auto.
Qed.
Theorem bwd_agree : forall m0 B nh Ck Cv Hi Wi Ho Wo quad P kw vw qw dyw, attn_ok B nh Ck Cv Hi Wi Ho Wo quad P kw vw qw -> shp dyw = [B; Ho; Wo; nh * Cv] ->
  exists dk dv dq dk' dv' dq', attn_bwd_torch kw vw qw dyw quad (columns P) (offsets 0 P) nh Wi Ho Wo = Some (dk, dv, dq) /\
    attn_bwd_cpu m0 kw vw qw dyw quad (columns P) (offsets 0 P) nh Wi Ho Wo = Some (dk', dv', dq') /\ teq dk dk' /\ teq dv dv' /\ teq dq dq'.
Proof.
  intros m0 B nh Ck Cv Hi Wi Ho Wo quad P kw vw qw dyw OK Sd.
  destruct (attn_bwd_torch_val B nh Ck Cv Hi Wi Ho Wo quad P kw vw qw OK dyw Sd) as (dk & dv & dq & E & Tk & Tv & Tq).
  destruct (attn_bwd_cpu_val B nh Ck Cv Hi Wi Ho Wo quad P kw vw qw OK dyw Sd m0) as (dk' & dv' & dq' & E' & Tk' & Tv' & Tq').
  exists dk, dv, dq, dk', dv', dq'. split; [exact E|]. split; [exact E'|].
  split; [eapply teq_trans; [exact Tk|apply teq_sym; exact Tk']|]. split; [eapply teq_trans; [exact Tv|apply teq_sym; exact Tv']|eapply teq_trans; [exact Tq|apply teq_sym; exact Tq']].
Qed.
Theorem fwd_agree : forall m0 BS junk B nh Ck Cv Hi Wi Ho Wo quad P kw vw qw, 1 <= BS -> attn_ok B nh Ck Cv Hi Wi Ho Wo quad P kw vw qw ->
  exists y y', attn_torch kw vw qw quad (columns P) (offsets 0 P) nh Wi Ho Wo = Some y /\
    attn_cpu m0 BS junk kw vw qw quad (columns P) (offsets 0 P) nh Wi Ho Wo = Some y' /\ teq y y'.
Proof.
  intros m0 BS junk B nh Ck Cv Hi Wi Ho Wo quad P kw vw qw HBS OK.
  destruct (torch_correct _ _ _ _ _ _ _ _ _ _ _ _ _ OK) as (y & E & T). destruct (cpu_correct m0 BS junk HBS _ _ _ _ _ _ _ _ _ _ _ _ _ OK) as (y' & E' & T').
  exists y, y'. split; [exact E|]. split; [exact E'|]. eapply teq_trans; [exact T|apply teq_sym; exact T'].
Qed.
(** rotating the inputs of the operator *)
Theorem op_rotation : forall op B nh Ck Cv Hi Wi Ho Wo quad P kw vw qw sin sout, library_op op -> attn_ok B nh Ck Cv Hi Wi Ho Wo quad P kw vw qw -> sin * Wo = sout * Wi ->
  exists y y', op kw vw qw quad (columns P) (offsets 0 P) nh Wi Ho Wo = Some y /\
    op (roll_lon sin kw) (roll_lon sin vw) (roll_lon sout qw) quad (columns P) (offsets 0 P) nh Wi Ho Wo = Some y' /\ teq y' (roll_lon sout y).
Proof.
  intros op B nh Ck Cv Hi Wi Ho Wo quad P kw vw qw sin sout HL OK Hang. destruct (op_roll B nh Ck Cv Hi Wi Ho Wo quad P kw vw qw sin sout OK Hang) as (OK' & T).
  destruct (fin_spec op B nh Ck Cv Hi Wi Ho Wo quad P kw vw qw HL OK) as (y & E & Ty). destruct (fin_spec op B nh Ck Cv Hi Wi Ho Wo quad P _ _ _ HL OK') as (y' & E' & Ty').
  exists y, y'. split; [exact E|]. split; [exact E'|]. eapply teq_trans; [exact Ty'|]. eapply teq_trans; [exact T|]. apply teq_sym.
  destruct OK as [HB Hn HHi HHo HWi HWo Sk Sv Sq Hd HP Hq Hne]. destruct Ty as [Sy Vy]. unfold attn_spec in Sy at 1. cbn [shp] in Sy. unfold dimsz in Sy. rewrite Sq in Sy. cbn [nth] in Sy.
  split. { unfold roll_lon. cbn [shp]. rewrite Sy. unfold attn_spec, dimsz. cbn [shp]. rewrite Sq. reflexivity. }
  intros i V. unfold roll_lon in V. cbn [shp] in V. rewrite Sy in V. destruct (valid4 _ _ _ _ _ V) as (b & h & x & d & -> & Hb & Hh & Hx & Hdd).
  unfold roll_lon. cbn [val nth]. unfold dimsz. unfold attn_spec at 1. cbn [shp nth]. rewrite Sy. cbn [nth]. apply Vy. rewrite Sy. apply valid4_intro; auto. apply rl_lt; auto.
Qed.

(** ** Concrete cases *)
(** two heads, downsampling 4 to 2 longitudes, 2 latitudes *)
Definition ex_P : pattern := [[0; 1; 4]; [5; 4]].
Definition ex_t (s : list nat) : tensor R := mkT s (fun i => INR (fold_right Nat.add 1 i)).
Definition ex_quad (h : nat) : R := INR (S h).
Lemma ex_gather_ok : attn_ok 1 2 1 2 2 4 2 2 ex_quad ex_P (ex_t [1; 2; 4; 2]) (ex_t [1; 2; 4; 4]) (ex_t [1; 2; 2; 2]).
Proof.
  constructor; auto; try reflexivity.
  - cbn. split; [reflexivity|]. intros r c Hr Hc. cbn in Hr. destruct Hr as [<-|[<-|[]]]; cbn in Hc; intuition lia.
  - intros h _. unfold ex_quad. apply lt_0_INR. lia.
  - intros ho wo Hh Hw. destruct ho as [|[|?]]; [| |lia]; cbn; discriminate.
Qed.
(** upsampling 2 to 4 longitudes *)
Definition ex_P2 : pattern := [[0; 1; 2; 3]; [4; 5; 2; 7]].
Lemma ex_up_ok : attn_ok 1 2 1 2 2 2 2 4 ex_quad ex_P2 (ex_t [1; 2; 2; 2]) (ex_t [1; 2; 2; 4]) (ex_t [1; 2; 4; 2]).
Proof.
  constructor; auto; try reflexivity.
  - cbn. split; [reflexivity|]. intros r c Hr Hc. cbn in Hr. destruct Hr as [<-|[<-|[]]]; cbn in Hc; intuition lia.
  - intros h _. unfold ex_quad. apply lt_0_INR. lia.
  - intros ho wo Hh Hw. destruct ho as [|[|?]]; [| |lia]; destruct wo as [|[|[|[|?]]]]; try lia; cbn; discriminate.
Qed.
Definition ex_W : weights := mkW (ex_t [2; 3; 1; 1]) (ex_t [2; 3; 1; 1]) (ex_t [4; 3; 1; 1]) (ex_t [5; 4; 1; 1]) (Some (ex_t [2])) None (Some (ex_t [4])) None
  (Some (ex_t [1])) (Some (ex_t [1])) 1.
Lemma ex_W_ok : weights_ok ex_W 3 1 2 2 5.
Proof. constructor; reflexivity. Qed.
Lemma ex_na_ok : na_ok 1 3 2 1 2 2 4 2 2 ex_quad ex_P (ex_t [1; 3; 2; 4]) (ex_t [1; 3; 2; 4]) (ex_t [1; 3; 2; 2]).
Proof. destruct ex_gather_ok as [HB Hn HHi HHo HWi HWo _ _ _ Hd HP Hq Hne]. constructor; auto. Qed.
Definition full_P : pattern := [seq 0 8; seq 0 8].
Lemma ex_full : complete full_P 2 (2 * 4).
Proof. split; [reflexivity|]. intros r [<-|[<-|[]]]; apply Permutation_refl. Qed.

(** ** AttentionS2 does not check the grid *)
(** Keys and values on a grid with latitude and longitude exchanged are accepted, and
    the weights are applied in the wrong order. *)
Lemma ga_swapped_shape : forall eps L sc B Ci Ck Cv nh Co Hi Wi Ho Wo quad k v q, weights_ok L Ci Ck Cv nh Co -> 1 <= nh ->
  shp k = [B; Ci; Wi; Hi] -> shp v = [B; Ci; Wi; Hi] -> shp q = [B; Ci; Ho; Wo] ->
  exists y, ga_forward eps (ga_layer L sc Hi Wi Ho Wo nh quad) q (Some k) (Some v) = Some y /\ shp y = [B; Co; Ho; Wo].
Proof.
  intros eps L sc B Ci Ck Cv nh Co Hi Wi Ho Wo quad k v q WO Hn Sk Sv Sq.
  destruct WO as [Wq Wk Wv Wp Bq Bk Bv Bp Nq Nk]. unfold ga_forward, ga_layer.
  cbn [ga_Hi ga_Wi ga_Ho ga_Wo ga_nh ga_q ga_k ga_v ga_p ga_qb ga_kb ga_vb ga_pb ga_qn ga_kn ga_scale ga_quad].
  destruct (shape4 _ _ _ _ _ Sq) as (-> & _). destruct (shape4 _ _ _ _ _ Sk) as (-> & _). destruct (shape4 _ _ _ _ _ Sv) as (-> & _).
  cbn [Nat.eqb andb guard bindo].
  destruct (conv1x1_val (w_q L) (w_qb L) q B Ho Wo Ci (nh * Ck)) as (q2 & -> & Sq2 & Vq2); auto.
  destruct (conv1x1_val (w_k L) (w_kb L) k B Wi Hi Ci (nh * Ck)) as (k2 & -> & Sk2 & Vk2); auto.
  destruct (conv1x1_val (w_v L) (w_vb L) v B Wi Hi Ci (nh * Cv)) as (v2 & -> & Sv2 & Vv2); auto. cbn [bindo].
  destruct (to_tokens_val q2 B nh Ck Ho Wo) as (q3 & -> & Sq3 & Vq3); auto. destruct (to_tokens_val k2 B nh Ck Wi Hi) as (k3 & -> & Sk3 & Vk3); auto.
  destruct (to_tokens_val v2 B nh Cv Wi Hi) as (v3 & -> & Sv3 & Vv3); auto. cbn [bindo].
  destruct (rms_opt_val eps (w_qn L) q3 B nh (Ho * Wo) Ck (cf q2) Ho Wo) as (q4 & -> & Sq4 & _); auto.
  destruct (rms_opt_val eps (w_kn L) k3 B nh (Wi * Hi) Ck (cf k2) Wi Hi) as (k4 & -> & Sk4 & _); auto.
  cbn [bindo]. unfold sdpa at 1.
  destruct (shape4 _ _ _ _ _ Sq4) as (_ & -> & -> & -> & ->). destruct (shape4 _ _ _ _ _ Sk4) as (_ & _ & _ & -> & _). destruct (shape4 _ _ _ _ _ Sv3) as (_ & _ & _ & _ & ->).
  cbv zeta. rewrite Sq4, Sk4, Sv3, !(proj2 (shape_eqb_true [B; _; _; _] _) eq_refl).
  set (LQ := log_quad _). assert (SLQ : shp LQ = [1; 1; Wi * Hi]) by (unfold LQ, log_quad; cbn [shp ga_Hi ga_Wi]; rewrite Nat.mul_comm; reflexivity).
  rewrite SLQ, (proj2 (shape_eqb_true _ _) eq_refl). cbn [andb orb guard bindo].
  set (o1 := mkT [B; nh; Ho * Wo; Cv] _). unfold dimsz at 1 2. cbn [o1 shp nth]. fold o1. set (p := permute [0; 1; 3; 2] o1).
  assert (Sp : shp p = [B; nh; Cv; Ho * Wo]) by reflexivity.
  destruct (reshape_val _ [B; nh * Cv; Ho; Wo] p) as (o2 & -> & So2 & Vo2). { rewrite Sp. cbn [prod_list fold_right]. ring. }
  cbn [bindo]. destruct (conv1x1_val (w_p L) (w_pb L) o2 B Ho Wo (nh * Cv) Co) as (y & -> & Sy & Vy); auto. exists y. auto.
Qed.

(** ** A point without neighbours *)
Lemma op_empty : forall B nh Ck Cv Hi Wi Ho Wo quad P kw vw qw ho wo, 1 <= B -> 1 <= nh -> 1 <= Hi -> 1 <= Wi ->
  shp kw = [B; Hi; Wi; nh * Ck] -> shp vw = [B; Hi; Wi; nh * Cv] -> shp qw = [B; Ho; Wo; nh * Ck] -> Wi mod Wo = 0 -> pattern_ok P Ho (Hi * Wi) ->
  ho < Ho -> wo < Wo -> nth ho P [] = [] -> attn_torch kw vw qw quad (columns P) (offsets 0 P) nh Wi Ho Wo = None.
Proof.
  intros B nh Ck Cv Hi Wi Ho Wo quad P kw vw qw ho wo HB Hn HHi HWi Sk Sv Sq Hd HP Hh Hw He. unfold attn_torch. rewrite (op_shapes_ok B nh Ck Cv Hi) by auto.
  cbn [bindo a_B a_Ck a_Cv a_Hi].
  destruct (to_cf_val B nh Hi Wi Ck kw) as (kt & -> & _ & Fk); auto. destruct (to_cf_val B nh Hi Wi Cv vw) as (vt & -> & _ & Fv); auto.
  destruct (to_cf_val B nh Ho Wo Ck qw) as (qt & -> & _ & Fq); auto; [lia|lia|]. cbn [bindo].
  destruct (guard _); [|reflexivity]. cbn [bindo]. rewrite Hd. cbn [Nat.eqb].
  rewrite (gather_fwd_empty Ck Hi Wi Ho Wo quad P) with (ho := ho) (wo := wo); auto; try nia.
  unfold nbrs_gather, rotated. rewrite He. reflexivity.
Qed.

(** ** The longitude pointer of the CPU kernel *)
Lemma wrap_index : forall Ck Cv Wi Wo quad k v q b ho c ws m st, 1 <= Wi -> 1 <= Wo ->
  k_wip (fold_left (cpu_wo Ck Cv Wi Wo quad k v q b ho (c / Wi) ws) (seq ws m) (mkBlk ((c mod Wi + Wi / Wo * ws) mod Wi) (k_sum st) (k_max st) (k_tmp st)))
  = (c mod Wi + Wi / Wo * (ws + m)) mod Wi.
Proof.
  intros Ck Cv Wi Wo quad k v q b ho c ws m st HWi HWo. induction m as [|m IH].
  - cbn [seq fold_left k_wip]. rewrite Nat.add_0_r. reflexivity.
  - rewrite seq_S, fold_left_app. cbn [fold_left]. set (r := fold_left _ (seq ws m) _) in *. unfold cpu_wo. cbn [k_wip]. rewrite IH.
    symmetry. replace (c mod Wi + Wi / Wo * (ws + S m)) with (c mod Wi + Wi / Wo * (ws + m) + Wi / Wo) by ring.
    set (x := c mod Wi + Wi / Wo * (ws + m)). assert (Hx : x mod Wi < Wi) by (apply Nat.mod_upper_bound; lia).
    assert (Hp : Wi / Wo <= Wi) by (apply Nat.div_le_upper_bound; nia).
    rewrite <- (Nat.add_mod_idemp_l x) by lia. destruct (Nat.leb_spec Wi (x mod Wi + Wi / Wo)).
    + symmetry. apply (Nat.mod_unique _ _ 1); lia.
    + apply Nat.mod_small. lia.
Qed.
