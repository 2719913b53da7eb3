(** Resampling and attention layers of the networks under rotations. *)
From Coq Require Import String List Arith Lia Bool Reals ZArith Lra.
From Coquelicot Require Import Coquelicot.
From Verif Require Import TensorModel TensorProofs BigSum QuadModel FFTModel SHTSpec SHTValueProofs ResampleModel ResampleSpec DistSpectralProofs DiscoTensorProofs DiscoTransposeProofs AttnModel AttnSpec AttnCoreProofs AttnKernelProofs AttnOpValProofs AttnLayerModel AttnLayerSpec AttnLayerProofs AttnPropProofs AttnGlobalProofs NetModel NetModels NetSpec NetParProofs NetLayerProofs NetLayerProofs2 NetLayerProofs3.
Import ListNotations.
Local Open Scope list_scope.
Local Open Scope nat_scope.

Section Rel.
Variables n k B : nat.
Hypothesis Hn : 1 <= n.
Variable E : env.
Notation shift := (shift n k).
Notation turned := (turned n k B).
Notation src := (src n k).

(** ** Resampling *)
Definition resample_built (gl : nat -> rule) (gi go : gspec) (r : resampler) : Prop :=
  exists mode, supported gl (g_nlat gi) (g_type gi) /\ supported gl (g_nlat go) (g_type go) /\ 2 <= g_nlat gi /\ 2 <= g_nlon gi /\ 1 <= g_nlon go /\ mode <> MUnknown /\
    resample_init gl (g_nlat gi) (g_nlon gi) (g_nlat go) (g_nlon go) (g_type gi) (g_type go) mode = Some r.
Lemma shift_angle : forall W W', W mod n = 0 -> W' mod n = 0 -> shift W * W' = shift W' * W.
Proof.
  intros W W' D D'. pose proof (mod0_eq W n Hn D) as E1. pose proof (mod0_eq W' n Hn D') as E2. unfold NetLayerProofs.shift. set (a := W / n) in *. set (b := W' / n) in *.
  rewrite E1, E2. ring.
Qed.
Lemma resample_sound : forall gi go r, resample_built (e_gl E) gi go r -> widths n (LResample gi go r) -> sound n k B E (LResample gi go r).
Proof.
  intros gi go r (mode & Si & So & H1 & H2 & H3 & Hm & Er) [D1 D2] t x y T u F. cbn [fit run] in *. apply guard_some in F. destruct F as [F Eu]. injection Eu as <-.
  apply sgrid in F. destruct F as [G1 G2]. destruct T as (Sx & HW & HD & T). unfold kshape_of in Sx. rewrite <- G1, <- G2 in *.
  destruct (resample_turn (e_gl E) _ _ _ _ _ _ mode r [B; k_ch t] x y (shift (g_nlon gi)) (shift (g_nlon go)) Si So H1 H2 H3 Hm Er) as (Y & Y' & EY & EY' & SY & TY); auto.
  { apply shift_angle; auto. }
  exists Y, Y'. split; [auto|]. split; [auto|]. split; [exact SY|]. cbn [k_g]. auto.
Qed.

(** ** Attention *)
Section Attn.
Variables (eps : R) (L : weights) (Ci Ck Cv nh H W : nat) (quad : nat -> R) (N : nat -> nat -> list (nat * nat)).
Hypothesis HW : 1 <= W.
Hypothesis HR : forall (f g h : nat -> nat -> nat -> R) y x c, x < W ->
  attn_at Ck quad (N y x) (fun y x c => f y (src W x) c) (fun y x c => g y (src W x) c) (fun y x c => h y (src W x) c) y x c =
  attn_at Ck quad (N y (src W x)) f g h y (src W x) c.
Hypothesis HN : forall y x, y < H -> x < W -> nin H W (N y x).
Lemma layer_turn : forall X Y b h w o, (forall c y x, c < Ci -> y < H -> x < W -> of_cfirst Y b y x c = of_cfirst X b y (src W x) c) -> h < H -> w < W ->
  layer_field eps L Ci Ck Cv nh quad N (of_cfirst Y) (of_cfirst Y) (of_cfirst Y) b h w o =
  layer_field eps L Ci Ck Cv nh quad N (of_cfirst X) (of_cfirst X) (of_cfirst X) b h (src W w) o.
Proof.
  intros X Y b h w o V Hh Hw. unfold layer_field.
  assert (AF : forall M b0 y x c, y < H -> x < W -> affine M b0 Ci (of_cfirst Y) b y x c = affine M b0 Ci (of_cfirst X) b y (src W x) c).
  { intros M b0 y x c Hy Hx. unfold affine. f_equal. apply bsum_ext. intros d Hd. rewrite V by auto. reflexivity. }
  assert (NF : forall wn M b0 y x c, y < H -> x < W -> normed eps wn Ck (affine M b0 Ci (of_cfirst Y)) b y x c = normed eps wn Ck (affine M b0 Ci (of_cfirst X)) b y (src W x) c).
  { intros [wn|] M b0 y x c Hy Hx; cbn [normed]; [|auto]. rewrite AF by auto. f_equal. f_equal. f_equal. f_equal. f_equal. apply bsum_ext. intros d Hd. rewrite !AF by auto. reflexivity. }
  assert (AE : forall M b0 C f g y x y' x' c, (forall d, d < C -> f b y x d = g b y' x' d) -> affine M b0 C f b y x c = affine M b0 C g b y' x' c).
  { intros M b0 C f g y x y' x' c K. unfold affine. f_equal. apply bsum_ext. intros d Hd. rewrite K by auto. reflexivity. }
  apply AE. intros d Hd. unfold multihead. cbv zeta.
  assert (HC : d mod Cv < Cv) by (apply Nat.mod_upper_bound; lia).
  etransitivity; [|apply (HR (fun y x c => normed eps (w_kn L) Ck (affine (w_k L) (w_kb L) Ci (of_cfirst X)) b y x (d / Cv * Ck + c)%nat)
    (fun y x c => affine (w_v L) (w_vb L) Ci (of_cfirst X) b y x (d / Cv * Cv + c)%nat)
    (fun y x c => (normed eps (w_qn L) Ck (affine (w_q L) (w_qb L) Ci (of_cfirst X)) b y x (d / Cv * Ck + c)%nat * w_scale L)%R)); auto].
  apply (attn_at_ext Ck Cv quad (N h w) H W H W); auto.
  intros. rewrite NF by auto. reflexivity.
Qed.
Lemma layer_spec_turn : forall Co t x y, shp x = [B; Ci; H; W] -> turned (mkK Ci (mkG H W t)) x y ->
  teq (layer_spec eps L Ci Ck Cv nh B Co H W quad N y y y) (roll_last (shift W) (layer_spec eps L Ci Ck Cv nh B Co H W quad N x x x)).
Proof.
  intros Co t x y Sx T. split; [reflexivity|]. intros i Vi. cbn [shp layer_spec] in Vi. destruct (valid4 _ _ _ _ _ Vi) as (b & c & h & w & -> & Hb & Hc & Hh & Hw).
  rewrite (roll4 _ B Co H W) by reflexivity. unfold layer_spec. cbn [val nth]. unfold rollv. fold (src W w).
  apply layer_turn; auto. intros c0 y0 x0 H1 H2 H3. unfold of_cfirst. apply (turned_val n k B (mkK Ci (mkG H W t))); auto.
Qed.
End Attn.

Record na_built (gi go : gspec) (A : nalayer) (L : weights) (Ci Ck Cv nh Co : nat) (quad : nat -> R) (P : pattern) : Prop := mkNB {
  nb_A : A = na_layer L (g_nlat gi) (g_nlon gi) (g_nlat go) (g_nlon go) nh quad P;
  nb_w : weights_ok L Ci Ck Cv nh Co; nb_nh : 1 <= nh; nb_H : 1 <= g_nlat gi; nb_W : 1 <= g_nlon gi;
  nb_P : pattern_ok P (g_nlat go) (g_nlat gi * g_nlon gi);
  nb_quad : forall h, h < g_nlat gi -> (0 < quad h)%R;
  nb_ne : forall h w, h < g_nlat go -> w < g_nlon go -> nbrs P (g_nlat gi) (g_nlon gi) (g_nlon go) h w <> [] }.
Lemma nattn_sound : forall gi go A, 1 <= B -> op_correct (e_op E) -> (exists L Ci Ck Cv nh Co quad P, na_built gi go A L Ci Ck Cv nh Co quad P) -> sound n k B E (LNAttn gi go A).
Proof.
  intros gi go A HB Hop (L & Ci & Ck & Cv & nh & Co & quad & P & [EA WO Hh HH HW HP Hq Hne]) t x y T u F. cbn [fit run] in *. apply guard_some in F. destruct F as [F Eu]. injection Eu as <-.
  apply andb_prop in F. destruct F as [F EC]. apply andb_prop in F. destruct F as [F1 F2]. apply sgrid in F1, F2. destruct F1 as [G1 G2]. destruct F2 as [G3 G4]. apply Nat.eqb_eq in EC.
  subst A. cbn [na_layer na_q na_p] in EC |- *. pose proof WO as [Wq Wk Wv Wp _ _ _ _ _ _]. unfold dimsz in EC |- *. rewrite Wq in EC. rewrite Wp. cbn [nth] in *.
  assert (E1 : g_nlat gi = g_nlat go) by congruence. assert (E2 : g_nlon gi = g_nlon go) by congruence. rewrite E1, E2 in *.
  pose proof (turned_shp _ _ _ _ _ _ T) as Sy. pose proof (proj1 T) as Sx. pose proof (proj1 (proj2 (proj2 T))) as HD. unfold kshape_of in Sx, Sy. rewrite EC, <- G3, <- G4 in Sx, Sy. rewrite <- G4 in HD.
  set (H := g_nlat go) in *. set (W := g_nlon go) in *.
  assert (OK : forall z, shp z = [B; Ci; H; W] -> na_ok B Ci nh Ck Cv H W H W quad P z z z).
  { intros z Sz. assert (M : W mod W = 0) by (apply Nat.mod_same; lia). constructor; auto. rewrite M. exact HP. }
  destruct (na_forward_spec (e_op E) (e_eps E) L B Ci Ck Cv nh Co H W H W quad P x x x Hop WO (OK x Sx)) as (a & Ea & Ta).
  destruct (na_forward_spec (e_op E) (e_eps E) L B Ci Ck Cv nh Co H W H W quad P y y y Hop WO (OK y Sy)) as (b & Eb & Tb).
  exists a, b. rewrite !na_forward_self. split; [auto|]. split; [auto|]. split; [exact (proj1 Ta)|]. cbn [k_g k_ch]. fold W. split; [auto|]. split; [auto|].
  eapply teq_trans; [exact Tb|]. apply teq_sym. eapply teq_trans; [eapply (roll_teq a _ B Co H W); [exact (proj1 Ta)|auto|exact Ta]|]. apply teq_sym.
  apply (layer_spec_turn (e_eps E) L Ci Ck Cv nh H W quad (nbrs P H W W)) with (t := g_type go); auto.
  - intros f g h0 y0 x0 c Hx. unfold NetLayerProofs.src. apply (attn_roll P H W W (shift W) (shift W) HW HW eq_refl); auto. left. apply Nat.mod_same. lia.
  - intros y0 x0 Hy Hx p Hp. unfold nbrs in Hp. rewrite Nat.mod_same, Nat.eqb_refl in Hp by lia. eapply rotated_in; [exact HP|exact Hp].
  - apply (turned_kind n k B t); auto.
Qed.

Lemma all_points_rot : forall H W (f : nat * nat -> R), 1 <= W -> rlsum (fun p => f (fst p, src W (snd p))) (all_points H W) = rlsum f (all_points H W).
Proof.
  intros H W f HW. unfold all_points. rewrite !(lsum_flat_map RT). apply lsum_ext. intros y _. rewrite !lsum_map, !(lsum_seq RT). cbn [fst snd].
  apply (rsum_src n k W (fun x => f (y, x)) HW).
Qed.
Record ga_built (gi go : gspec) (A : galayer) (L : weights) (sc : option R) (Ci Ck Cv nh Co : nat) (quad : nat -> R) : Prop := mkGB {
  gb_A : A = ga_layer L sc (g_nlat gi) (g_nlon gi) (g_nlat go) (g_nlon go) nh quad;
  gb_w : weights_ok L Ci Ck Cv nh Co; gb_nh : 1 <= nh; gb_H : 1 <= g_nlat gi; gb_W : 1 <= g_nlon gi;
  gb_sc : w_scale L = na_scale_of sc (nh * Ck) nh;
  gb_quad : forall h, h < g_nlat gi -> (0 < quad h)%R }.
Lemma ga_forward_self : forall eps L q, ga_forward eps L q None None = ga_forward eps L q (Some q) (Some q).
Proof. reflexivity. Qed.
Lemma gattn_sound : forall gi go A, (exists L sc Ci Ck Cv nh Co quad, ga_built gi go A L sc Ci Ck Cv nh Co quad) -> sound n k B E (LGAttn gi go A).
Proof.
  intros gi go A (L & sc & Ci & Ck & Cv & nh & Co & quad & [EA WO Hh HH HW Hsc Hq]) t x y T u F. cbn [fit run] in *. apply guard_some in F. destruct F as [F Eu]. injection Eu as <-.
  apply andb_prop in F. destruct F as [F EC]. apply andb_prop in F. destruct F as [F1 F2]. apply sgrid in F1, F2. destruct F1 as [G1 G2]. destruct F2 as [G3 G4]. apply Nat.eqb_eq in EC.
  subst A. cbn [ga_layer ga_q ga_p] in EC |- *. pose proof WO as [Wq Wk Wv Wp _ _ _ _ _ _]. unfold dimsz in EC |- *. rewrite Wq in EC. rewrite Wp. cbn [nth] in *.
  assert (E1 : g_nlat gi = g_nlat go) by congruence. assert (E2 : g_nlon gi = g_nlon go) by congruence. rewrite E1, E2 in *.
  pose proof (turned_shp _ _ _ _ _ _ T) as Sy. pose proof (proj1 T) as Sx. pose proof (proj1 (proj2 (proj2 T))) as HD. unfold kshape_of in Sx, Sy. rewrite EC, <- G3, <- G4 in Sx, Sy. rewrite <- G4 in HD.
  set (H := g_nlat go) in *. set (W := g_nlon go) in *.
  destruct (ga_forward_spec (e_eps E) L sc B Ci Ck Cv nh Co H W H W quad x x x WO) as (a & Ea & Ta); auto.
  destruct (ga_forward_spec (e_eps E) L sc B Ci Ck Cv nh Co H W H W quad y y y WO) as (b & Eb & Tb); auto.
  exists a, b. rewrite !ga_forward_self. split; [auto|]. split; [auto|]. split; [exact (proj1 Ta)|]. cbn [k_g k_ch]. fold W. split; [auto|]. split; [auto|].
  eapply teq_trans; [exact Tb|]. apply teq_sym. eapply teq_trans; [eapply (roll_teq a _ B Co H W); [exact (proj1 Ta)|auto|exact Ta]|]. apply teq_sym.
  apply (layer_spec_turn (e_eps E) L Ci Ck Cv nh H W quad (fun _ _ => all_points H W)) with (t := g_type go); auto.
  - intros f g h0 y0 x0 c Hx. unfold attn_at, softmax_avg, softmax_den.
    rewrite <- (all_points_rot H W (fun p => (quad (fst p) * exp (score Ck f h0 y0 (src W x0) p) * g (fst p) (snd p) c)%R)) by auto.
    rewrite <- (all_points_rot H W (fun p => (quad (fst p) * exp (score Ck f h0 y0 (src W x0) p))%R)) by auto. reflexivity.
  - intros y0 x0 _ _ p Hp. unfold all_points in Hp. apply in_flat_map in Hp. destruct Hp as (a0 & Ha & Hp). apply in_map_iff in Hp. destruct Hp as (b0 & <- & Hb).
    apply in_seq in Ha, Hb. cbn [fst snd]. lia.
  - apply (turned_kind n k B t); auto.
Qed.
End Rel.
