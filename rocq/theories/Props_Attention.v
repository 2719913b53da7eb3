(** Attention on the sphere: online softmax (C40), convexity (C41), gradients (C42),
    layout (C43), kernels and neighbours (C44), rotation (C45). *)
From Coq Require Import List Arith Lia Bool Reals Lra Permutation.
From Coquelicot Require Import Coquelicot.
From Verif Require Import TensorModel TensorProofs BigSum SHTSpec AttnModel AttnLayerModel AttnSpec AttnLayerSpec AttnOpProofs AttnOpValProofs AttnLayerProofs AttnGlobalProofs AttnPropProofs AttnExProofs.
Import ListNotations.
Local Open Scope nat_scope.

(** *** C40 *)
(** The running-maximum accumulation, over chunks [ls] of the neighbours in any order
    and from any starting maximum. *)
Theorem C40_online_softmax : forall X (s w : X -> R) v l ls m, (forall x, In x l -> (0 < w x)%R) -> l <> [] -> Permutation (concat ls) l ->
  let st := fold_left (fun st ch => fold_left (fun st x => osm_step (s x) (w x) (v x) st) ch st) ls (mkO 0 m (fun _ => 0%R)) in
  (0 < o_sum st)%R /\ (forall x, In x l -> (s x <= o_max st)%R) /\ forall c, (o_acc st c / o_sum st)%R = softmax_avg s w (fun x => v x c) l.
Proof. exact online_softmax. Qed.
(** The operators, reference and CPU, gather and upsampling direction. *)
Theorem C40_operators : forall op B nh Ck Cv Hi Wi Ho Wo quad P kw vw qw, library_op op -> attn_ok B nh Ck Cv Hi Wi Ho Wo quad P kw vw qw ->
  exists y, op kw vw qw quad (columns P) (offsets 0 P) nh Wi Ho Wo = Some y /\ teq y (attn_spec nh Ck Cv quad (nbrs P Hi Wi Wo) Ho Wo kw vw qw).
Proof. exact fin_spec. Qed.
(** The whole layer: projections, normalisation, scaling, attention, projection. *)
Theorem C40_neighborhood_layer : forall op eps L B Ci Ck Cv nh Co Hi Wi Ho Wo quad P k v q, library_op op -> weights_ok L Ci Ck Cv nh Co ->
  na_ok B Ci nh Ck Cv Hi Wi Ho Wo quad P k v q ->
  exists y, na_forward op eps (na_layer L Hi Wi Ho Wo nh quad P) q (Some k) (Some v) = Some y /\
    teq y (layer_spec eps L Ci Ck Cv nh B Co Ho Wo quad (nbrs P Hi Wi Wo) k v q).
Proof. intros op eps L B Ci Ck Cv nh Co Hi Wi Ho Wo quad P k v q HL. exact (na_forward_spec op eps L B Ci Ck Cv nh Co Hi Wi Ho Wo quad P k v q (library_correct op HL)). Qed.
(** The global layer is the same over all grid points. *)
Theorem C40_global_layer : forall eps L sc B Ci Ck Cv nh Co Hi Wi Ho Wo quad k v q, weights_ok L Ci Ck Cv nh Co ->
  1 <= nh -> 1 <= Hi -> 1 <= Wi -> 1 <= Wo -> shp k = [B; Ci; Hi; Wi] -> shp v = [B; Ci; Hi; Wi] -> shp q = [B; Ci; Ho; Wo] ->
  (forall h, h < Hi -> (0 < quad h)%R) -> w_scale L = na_scale_of sc (nh * Ck) nh ->
  exists y, ga_forward eps (ga_layer L sc Hi Wi Ho Wo nh quad) q (Some k) (Some v) = Some y /\
    teq y (layer_spec eps L Ci Ck Cv nh B Co Ho Wo quad (fun _ _ => all_points Hi Wi) k v q).
Proof. exact ga_forward_spec. Qed.
Theorem C40_complete_neighborhood_is_global : forall op eps L sc B Ci Ck Cv nh Co Hi Wi Ho Wo quad P k v q, library_op op -> weights_ok L Ci Ck Cv nh Co ->
  1 <= B -> 1 <= nh -> 1 <= Hi -> 1 <= Wi -> 1 <= Ho -> 1 <= Wo -> shp k = [B; Ci; Hi; Wi] -> shp v = [B; Ci; Hi; Wi] -> shp q = [B; Ci; Ho; Wo] ->
  (forall h, h < Hi -> (0 < quad h)%R) -> w_scale L = na_scale_of sc (nh * Ck) nh -> Wi mod Wo = 0 -> complete P Ho (Hi * Wi) ->
  exists y y', na_forward op eps (na_layer L Hi Wi Ho Wo nh quad P) q (Some k) (Some v) = Some y /\
    ga_forward eps (ga_layer L sc Hi Wi Ho Wo nh quad) q (Some k) (Some v) = Some y' /\ teq y y'.
Proof. intros op eps L sc B Ci Ck Cv nh Co Hi Wi Ho Wo quad P k v q HL. exact (na_is_global op eps L sc B Ci Ck Cv nh Co Hi Wi Ho Wo quad P k v q (library_correct op HL)). Qed.
(** What the constructor accepts: one longitude count divides the other and the heads share
    the key and the value channels evenly. *)
Theorem C40_constructor_checks : forall Wi Wo nh Ck Cv, na_checks Wi Wo nh Ck Cv = true <->
  1 <= Wi /\ 1 <= Wo /\ 1 <= nh /\ ((exists s, Wi = s * Wo) \/ exists s, Wo = s * Wi) /\ (exists a, Ck = nh * a) /\ (exists a, Cv = nh * a).
Proof.
  assert (M : forall a b, 1 <= b -> (a mod b = 0 <-> exists s, a = s * b)) by (intros a b Hb; rewrite Nat.mod_divide by lia; reflexivity).
  intros Wi Wo nh Ck Cv. unfold na_checks. rewrite !andb_true_iff, orb_true_iff, !Nat.leb_le, !Nat.eqb_eq. split.
  - intros (((((H1 & H2) & H3) & H4) & H5) & H6). rewrite (M Wi Wo H2), (M Wo Wi H1) in H3. rewrite (M Ck nh H4) in H5. rewrite (M Cv nh H4) in H6. destruct H5 as (a & ->), H6 as (b & ->).
    split; [assumption|]. split; [assumption|]. split; [assumption|]. split; [assumption|]. split; [exists a|exists b]; apply Nat.mul_comm.
  - intros (H1 & H2 & H4 & H3 & (a & ->) & (b & ->)). rewrite (M Wi Wo H2), (M Wo Wi H1), !(M _ nh H4). split; [split; [split; [split; [split|]|]|]|]; try assumption; [exists a|exists b]; apply Nat.mul_comm.
Qed.
(** Finding: one output latitude without neighbours and there is no result (0/0). *)
Theorem C40_empty_neighborhood_refuted : forall B nh Ck Cv Hi Wi Ho Wo quad P kw vw qw ho wo, 1 <= B -> 1 <= nh -> 1 <= Hi -> 1 <= Wi ->
  shp kw = [B; Hi; Wi; nh * Ck] -> shp vw = [B; Hi; Wi; nh * Cv] -> shp qw = [B; Ho; Wo; nh * Ck] -> Wi mod Wo = 0 -> pattern_ok P Ho (Hi * Wi) ->
  ho < Ho -> wo < Wo -> nth ho P [] = [] -> attn_torch kw vw qw quad (columns P) (offsets 0 P) nh Wi Ho Wo = None.
Proof. exact op_empty. Qed.
(** Finding: AttentionS2 accepts keys and values on the transposed grid. *)
Theorem C40_transposed_grid_refuted : forall eps L sc B Ci Ck Cv nh Co Hi Wi Ho Wo quad k v q, weights_ok L Ci Ck Cv nh Co -> 1 <= nh ->
  shp k = [B; Ci; Wi; Hi] -> shp v = [B; Ci; Wi; Hi] -> shp q = [B; Ci; Ho; Wo] ->
  exists y, ga_forward eps (ga_layer L sc Hi Wi Ho Wo nh quad) q (Some k) (Some v) = Some y /\ shp y = [B; Co; Ho; Wo].
Proof. exact ga_swapped_shape. Qed.

(** *** C41 *)
Theorem C41_bounds : forall op B nh Ck Cv Hi Wi Ho Wo quad P kw vw qw, library_op op -> attn_ok B nh Ck Cv Hi Wi Ho Wo quad P kw vw qw ->
  forall y b ho wo h c lo hi, op kw vw qw quad (columns P) (offsets 0 P) nh Wi Ho Wo = Some y -> b < B -> ho < Ho -> wo < Wo -> h < nh -> c < Cv ->
  (forall p, In p (nbrs P Hi Wi Wo ho wo) -> (lo <= val vw [b; fst p; snd p; h * Cv + c]%nat <= hi)%R) -> (lo <= val y [b; ho; wo; h * Cv + c]%nat <= hi)%R.
Proof. exact fin_bounds. Qed.
Theorem C41_constants : forall op B nh Ck Cv Hi Wi Ho Wo quad P kw vw qw, library_op op -> attn_ok B nh Ck Cv Hi Wi Ho Wo quad P kw vw qw ->
  forall y b ho wo h c a, op kw vw qw quad (columns P) (offsets 0 P) nh Wi Ho Wo = Some y -> b < B -> ho < Ho -> wo < Wo -> h < nh -> c < Cv ->
  (forall p, In p (nbrs P Hi Wi Wo ho wo) -> val vw [b; fst p; snd p; h * Cv + c] = a) -> val y [b; ho; wo; h * Cv + c] = a.
Proof. exact fin_constants. Qed.
(** Nothing outside the neighbourhood has any influence. *)
Theorem C41_locality : forall op B nh Ck Cv Hi Wi Ho Wo quad P kw vw qw kw' vw' qw' y y' b ho wo d, library_op op ->
  attn_ok B nh Ck Cv Hi Wi Ho Wo quad P kw vw qw -> attn_ok B nh Ck Cv Hi Wi Ho Wo quad P kw' vw' qw' -> b < B -> ho < Ho -> wo < Wo -> d < nh * Cv ->
  op kw vw qw quad (columns P) (offsets 0 P) nh Wi Ho Wo = Some y -> op kw' vw' qw' quad (columns P) (offsets 0 P) nh Wi Ho Wo = Some y' ->
  (forall p e, In p (nbrs P Hi Wi Wo ho wo) -> val kw [b; fst p; snd p; e] = val kw' [b; fst p; snd p; e] /\ val vw [b; fst p; snd p; e] = val vw' [b; fst p; snd p; e]) ->
  (forall e, val qw [b; ho; wo; e] = val qw' [b; ho; wo; e]) ->
  val y [b; ho; wo; d] = val y' [b; ho; wo; d].
Proof. exact fin_local. Qed.

(** *** C42 *)
(** The backward operators return, in the shapes of k, v and q, the derivative of the
    forward operator along every direction, paired with the output gradient. *)
Theorem C42_reference : forall op B nh Ck Cv Hi Wi Ho Wo quad P kw vw qw dyw, library_op op -> attn_ok B nh Ck Cv Hi Wi Ho Wo quad P kw vw qw ->
  shp dyw = [B; Ho; Wo; nh * Cv] ->
  exists dk dv dq, attn_bwd_torch kw vw qw dyw quad (columns P) (offsets 0 P) nh Wi Ho Wo = Some (dk, dv, dq) /\
    shp dk = shp kw /\ shp dv = shp vw /\ shp dq = shp qw /\
    forall k' v' q', exists yt, (forall t, op (along kw k' t) (along vw v' t) (along qw q' t) quad (columns P) (offsets 0 P) nh Wi Ho Wo = Some (yt t)) /\
      is_derive (fun t => pairing B Ho Wo (nh * Cv) dyw (yt t)) 0%R
        (pairing B Hi Wi (nh * Ck) dk k' + pairing B Hi Wi (nh * Cv) dv v' + pairing B Ho Wo (nh * Ck) dq q')%R.
Proof. exact torch_grads. Qed.
Theorem C42_cpu : forall op m0 B nh Ck Cv Hi Wi Ho Wo quad P kw vw qw dyw, library_op op -> attn_ok B nh Ck Cv Hi Wi Ho Wo quad P kw vw qw ->
  shp dyw = [B; Ho; Wo; nh * Cv] ->
  exists dk dv dq, attn_bwd_cpu m0 kw vw qw dyw quad (columns P) (offsets 0 P) nh Wi Ho Wo = Some (dk, dv, dq) /\
    shp dk = shp kw /\ shp dv = shp vw /\ shp dq = shp qw /\
    forall k' v' q', exists yt, (forall t, op (along kw k' t) (along vw v' t) (along qw q' t) quad (columns P) (offsets 0 P) nh Wi Ho Wo = Some (yt t)) /\
      is_derive (fun t => pairing B Ho Wo (nh * Cv) dyw (yt t)) 0%R
        (pairing B Hi Wi (nh * Ck) dk k' + pairing B Hi Wi (nh * Cv) dv v' + pairing B Ho Wo (nh * Ck) dq q')%R.
Proof. exact cpu_grads. Qed.

(** *** C43 *)
Theorem C43_layout : forall t B C H W, shp t = [B; C; H; W] -> exists r t', to_nhwc t = Some r /\ to_nchw r = Some t' /\ teq t' t /\
  shp r = [B; H; W; C] /\ forall b c y x, val r [b; y; x; c] = val t [b; c; y; x].
Proof. exact layout_round. Qed.
Theorem C43_layout_back : forall t B C H W, shp t = [B; H; W; C] -> exists r t', to_nchw t = Some r /\ to_nhwc r = Some t' /\ teq t' t.
Proof. exact layout_round'. Qed.
Theorem C43_heads : forall t B nh H W C, 1 <= nh -> shp t = [B; H; W; nh * C] ->
  exists r t', fold_heads t nh = Some r /\ unfold_heads r nh = Some t' /\ teq t' t /\ shp r = [B * nh; H; W; C] /\
  forall b n y x c, b < B -> n < nh -> y < H -> x < W -> c < C -> val r [b * nh + n; y; x; c] = val t [b; y; x; n * C + c].
Proof. exact heads_round. Qed.
Theorem C43_heads_back : forall t B nh H W C, 1 <= nh -> shp t = [B * nh; H; W; C] -> exists r t', unfold_heads t nh = Some r /\ fold_heads r nh = Some t' /\ teq t' t.
Proof. exact heads_round'. Qed.
Theorem C43_reference_heads : forall t B nh H W C, 1 <= nh -> 1 <= B -> 1 <= H -> 1 <= W -> shp t = [B; H; W; nh * C] ->
  exists r, to_cf t nh = Some r /\ shp r = [B * nh; C; H; W] /\
  (forall b n y x c, b < B -> n < nh -> y < H -> x < W -> c < C -> val r [b * nh + n; c; y; x] = val t [b; y; x; n * C + c]) /\
  exists t', of_cf (mk_cf (B * nh) C H W (cf r)) nh = Some t' /\ teq t' t.
Proof. exact cf_round. Qed.

(** *** C44 *)
Theorem C44_wrap_index : forall Ck Cv Wi Wo quad k v q b ho c ws m st, 1 <= Wi -> 1 <= Wo ->
  k_wip (fold_left (cpu_wo Ck Cv Wi Wo quad k v q b ho (c / Wi) ws) (seq ws m) (mkBlk ((c mod Wi + Wi / Wo * ws) mod Wi) (k_sum st) (k_max st) (k_tmp st)))
  = (c mod Wi + Wi / Wo * (ws + m)) mod Wi.
Proof. exact wrap_index. Qed.
Theorem C44_forward_agree : forall m0 BS junk B nh Ck Cv Hi Wi Ho Wo quad P kw vw qw, 1 <= BS -> attn_ok B nh Ck Cv Hi Wi Ho Wo quad P kw vw qw ->
  exists y y', attn_torch kw vw qw quad (columns P) (offsets 0 P) nh Wi Ho Wo = Some y /\
    attn_cpu m0 BS junk kw vw qw quad (columns P) (offsets 0 P) nh Wi Ho Wo = Some y' /\ teq y y'.
Proof. exact fwd_agree. Qed.
Theorem C44_backward_agree : forall m0 B nh Ck Cv Hi Wi Ho Wo quad P kw vw qw dyw, attn_ok B nh Ck Cv Hi Wi Ho Wo quad P kw vw qw -> shp dyw = [B; Ho; Wo; nh * Cv] ->
  exists dk dv dq dk' dv' dq', attn_bwd_torch kw vw qw dyw quad (columns P) (offsets 0 P) nh Wi Ho Wo = Some (dk, dv, dq) /\
    attn_bwd_cpu m0 kw vw qw dyw quad (columns P) (offsets 0 P) nh Wi Ho Wo = Some (dk', dv', dq') /\ teq dk dk' /\ teq dv dv' /\ teq dq dq'.
Proof. exact bwd_agree. Qed.
(** In the upsampling direction, an input point counts as a neighbour of an output
    point as often as the output point occurs in the rotated row of the input point. *)
Theorem C44_scatter_is_transposed : forall P Hi Wi Wo ho wo hi wi, hi < Hi -> wi < Wi ->
  length (filter (pt_eqb (hi, wi)) (nbrs_scatter P Hi Wi Wo ho wo)) = length (filter (pt_eqb (ho, wo)) (rotated P Wo Wi hi wi)).
Proof. exact scatter_transpose. Qed.

(** *** C45 *)
Theorem C45_operators : forall op B nh Ck Cv Hi Wi Ho Wo quad P kw vw qw sin sout, library_op op -> attn_ok B nh Ck Cv Hi Wi Ho Wo quad P kw vw qw -> sin * Wo = sout * Wi ->
  exists y y', op kw vw qw quad (columns P) (offsets 0 P) nh Wi Ho Wo = Some y /\
    op (roll_lon sin kw) (roll_lon sin vw) (roll_lon sout qw) quad (columns P) (offsets 0 P) nh Wi Ho Wo = Some y' /\ teq y' (roll_lon sout y).
Proof. exact op_rotation. Qed.
Theorem C45_layer : forall op eps L B Ci Ck Cv nh Co Hi Wi Ho Wo quad P k v q sin sout, library_op op -> weights_ok L Ci Ck Cv nh Co ->
  na_ok B Ci nh Ck Cv Hi Wi Ho Wo quad P k v q -> sin * Wo = sout * Wi ->
  exists y y', na_forward op eps (na_layer L Hi Wi Ho Wo nh quad P) q (Some k) (Some v) = Some y /\
    na_forward op eps (na_layer L Hi Wi Ho Wo nh quad P) (roll_last sout q) (Some (roll_last sin k)) (Some (roll_last sin v)) = Some y' /\
    teq y' (roll_last sout y).
Proof. intros op eps L B Ci Ck Cv nh Co Hi Wi Ho Wo quad P k v q sin sout HL. exact (na_roll op eps L B Ci Ck Cv nh Co Hi Wi Ho Wo quad P k v q sin sout (library_correct op HL)). Qed.

(** *** Cases *)
Example gather_case : attn_ok 1 2 1 2 2 4 2 2 ex_quad ex_P (ex_t [1; 2; 4; 2]) (ex_t [1; 2; 4; 4]) (ex_t [1; 2; 2; 2]).
Proof. exact ex_gather_ok. Qed.
Example upsampling_case : attn_ok 1 2 1 2 2 2 2 4 ex_quad ex_P2 (ex_t [1; 2; 2; 2]) (ex_t [1; 2; 2; 4]) (ex_t [1; 2; 4; 2]).
Proof. exact ex_up_ok. Qed.
Example neighbours_case : nbrs ex_P 2 4 2 0 1 = [(0, 2); (0, 3); (1, 2)] /\ nbrs ex_P2 2 2 4 0 0 = [(0, 0); (0, 1); (1, 1)].
Proof. split; reflexivity. Qed.
Example operators_case : library_op attn_torch /\ library_op (attn_cpu (-1000) 3 (fun _ => 7%R)).
Proof. split; [left; reflexivity|right; exists (-1000)%R, 3, (fun _ => 7%R); auto]. Qed.
Example weights_case : weights_ok ex_W 3 1 2 2 5.
Proof. exact ex_W_ok. Qed.
Example layer_case : na_ok 1 3 2 1 2 2 4 2 2 ex_quad ex_P (ex_t [1; 3; 2; 4]) (ex_t [1; 3; 2; 4]) (ex_t [1; 3; 2; 2]).
Proof. exact ex_na_ok. Qed.
Example scale_case : w_scale ex_W = na_scale_of None (2 * 1) 2.
Proof. unfold na_scale_of. cbn. rewrite sqrt_1. field. Qed.
Example complete_case : complete full_P 2 (2 * 4).
Proof. exact ex_full. Qed.
Example rotation_case : 2 * 2 = 1 * 4.
Proof. reflexivity. Qed.
Example empty_case : pattern_ok [[0; 1]; []] 2 (2 * 4) /\ nth 1 [[0; 1]; []] [] = [].
Proof. split; [|reflexivity]. split; [reflexivity|]. intros r c Hr Hc. destruct Hr as [<-|[<-|[]]]; cbn in Hc; intuition lia. Qed.

Print Assumptions C40_online_softmax.
Print Assumptions C40_constructor_checks.
Print Assumptions C40_operators.
Print Assumptions C40_neighborhood_layer.
Print Assumptions C40_global_layer.
Print Assumptions C40_complete_neighborhood_is_global.
Print Assumptions C40_empty_neighborhood_refuted.
Print Assumptions C40_transposed_grid_refuted.
Print Assumptions C41_bounds.
Print Assumptions C41_constants.
Print Assumptions C41_locality.
Print Assumptions C42_reference.
Print Assumptions C42_cpu.
Print Assumptions C43_layout.
Print Assumptions C43_layout_back.
Print Assumptions C43_heads.
Print Assumptions C43_heads_back.
Print Assumptions C43_reference_heads.
Print Assumptions C44_wrap_index.
Print Assumptions C44_forward_agree.
Print Assumptions C44_backward_agree.
Print Assumptions C44_scatter_is_transposed.
Print Assumptions C45_operators.
Print Assumptions C45_layer.
