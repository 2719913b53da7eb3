(** The constructors of the U-Net and the Segformer succeed on the configurations of NetSpec. *)
From Coq Require Import String List Arith Lia Bool Reals ZArith Lra.
From Coquelicot Require Import Coquelicot.
From Verif Require ResampleProofs PsiExProofs.
From Verif Require Import TensorModel TensorProofs BigSum TruncModel QuadModel FFTModel SHTModel SHTSpec ResampleModel ResampleSpec FilterModel FilterSpec DiscoModel DiscoSpec PsiModel PsiSpec PsiProofs
  AttnModel AttnLayerModel NetModel NetModels NetSpec NetReadyProofs NetReachProofs NetTotalProofs NetTotalProofs2.
Import ListNotations.
Local Open Scope list_scope.
Local Open Scope nat_scope.

Section Total.
Variables (E : env) (S : state).
Notation gk := (grid_ok (e_gl E)).
(** a coarser grid below a finer one, both equiangular *)
Definition below (lo hi : gspec) : Prop := gk lo /\ gk hi /\ g_type lo = GEquiangular /\ g_type hi = GEquiangular /\ g_nlat lo <= g_nlat hi /\ g_nlon hi mod g_nlon lo = 0.
Lemma same_mk : forall g t, g_type g = t -> mkG (g_nlat g) (g_nlon g) t = g. Proof. intros [a b c] t <-. reflexivity. Qed.

(** ** U-Net *)
Lemma down_convs_total : forall ix gi gt ci co ks b a n i, gk gi -> g_type gi = gt -> full_kernel ks b -> 1 <= ci -> 1 <= co -> exists ls, down_convs E S ix gi gt ci co ks b a i n = Some ls.
Proof.
  intros ix gi gt ci co ks b a n. induction n; intros i G T FK Hi Ho; cbn [down_convs]; [eauto|]. assert (H2 : 2 <= g_nlat gi) by apply G. destruct (cutoff_total (g_nlat gi) ks b H2 FK) as (c & Hc). destruct (cutoff_bound _ _ _ _ H2 Hc) as (P & _). rewrite Hc. cbn [bindo]. rewrite same_mk by auto.
  destruct (conv_self E S "dblocks.{}.fwd.{}" (ix ++ [i]) (if i =? 0 then ci else co) co gi ks b 1 false c) as (l & ->); auto using Nat.mod_1_r. { destruct (i =? 0); auto. } cbn [bindo]. destruct (IHn (i + 1) G T FK Hi Ho) as (r & ->). cbn [bindo]. eauto.
Qed.
Lemma dblock_total : forall ix gi go ci co nrep ks b a ts mode, below go gi -> full_kernel ks b -> 1 <= ci -> 1 <= co -> mode <> SResample MUnknown ->
  exists d, dblock_init E S ix gi go ci co nrep ks b a ts mode = Some d /\ db_in d = gi /\ db_out d = go /\ db_cin d = ci /\ db_cout d = co.
Proof.
  intros ix gi go ci co nrep ks b a ts mode (Go & Gi & To & Ti & Hl & Hm) FK Hi Ho Hmode. unfold dblock_init. destruct (down_convs_total ix gi (g_type go) ci co ks b a nrep 0) as (fw & ->); auto; try congruence. cbn [bindo].
  assert (H2 : 2 <= g_nlat go) by apply Go. destruct (cutoff_total (g_nlat go) ks b H2 FK) as (c & Hc).
  assert (D : exists d, (match mode with SConv => do c <- cutoff_radius (g_nlat go) ks b; disco E S "dblocks.{}.downsample" ix co co gi go ks b 1 false c | SResample m => resampling E gi go m end) = Some d).
  { destruct mode. - rewrite Hc. cbn [bindo]. eapply conv_down; eauto using Nat.mod_1_r. - apply resampling_total; auto. congruence. }
  destruct D as (d & ->). cbn [bindo]. eexists. split; [reflexivity|]. cbn. auto.
Qed.
Lemma ublock_total : forall ix gi go ci co ks b a ts mode, below gi go -> full_kernel ks b -> 1 <= ci -> 1 <= co -> mode <> SResample MUnknown -> exists u, ublock_init E S ix gi go ci co ks b a ts mode = Some u.
Proof.
  intros ix gi go ci co ks b a ts mode (Gi & Go & Ti & To & Hl & Hm) FK Hi Ho Hmode. unfold ublock_init. assert (H2 : 2 <= g_nlat gi) by apply Gi. destruct (cutoff_total (g_nlat gi) ks b H2 FK) as (c & Hc). destruct (cutoff_bound _ _ _ _ H2 Hc) as (P & _). rewrite Hc. cbn [bindo].
  rewrite (same_mk go (g_type gi)) by congruence. rewrite (same_mk gi (g_type go)) by congruence.
  assert (D : exists u, (if negb (same_shape gi go)
           then match mode with
                | SConv => do t <- tdisco E S "ublocks.{}.upsample.0" ix co co gi go ks b 1 false c; do l <- disco E S "ublocks.{}.upsample.3" ix co co go go ks b 1 false c;
                    Some [t; batch S "ublocks.{}.upsample.1" ix co; LAct a; l]
                | SResample m => do r <- resampling E gi go m; Some [r]
                end
           else do l <- disco E S "ublocks.{}.upsample" ix co co gi gi ks b 1 false c; Some [l]) = Some u).
  { destruct (same_shape gi go); cbn [negb].
    - destruct (conv_self E S "ublocks.{}.upsample" ix co co gi ks b 1 false c) as (l & ->); auto using Nat.mod_1_r. cbn [bindo]. eauto.
    - destruct mode.
      + destruct (conv_up E S "ublocks.{}.upsample.0" ix co co gi go ks b 1 false (g_nlat gi) c) as (t & ->); auto using Nat.mod_1_r. cbn [bindo]. destruct (conv_self E S "ublocks.{}.upsample.3" ix co co go ks b 1 false c) as (l & ->); auto using Nat.mod_1_r. cbn [bindo]. eauto.
      + destruct (resampling_total E gi go m) as (r & ->); auto; try congruence. cbn [bindo]. eauto. }
  destruct D as (u & ->). cbn [bindo]. destruct (conv_self E S "ublocks.{}.fwd.0" ix ci co gi ks b 1 false c) as (l & ->); auto using Nat.mod_1_r. cbn [bindo]. eauto.
Qed.
Definition fine (d : dblock) : Prop := below (db_out d) (db_in d) /\ 1 <= db_cin d /\ 1 <= db_cout d.
Lemma level_below : forall s g gt n, 1 <= s -> gt = GEquiangular -> g_type g = GEquiangular -> gk g -> g_nlon g mod (g_nlon g / s) = 0 -> List.Forall gk (levels s gt (half s g gt) n) -> below (half s g gt) g.
Proof.
  intros s g gt n Hs -> Tg G Hm F. assert (G' : gk (half s g GEquiangular)) by (destruct n; cbn [levels] in F; apply Forall_cons_iff in F; apply F).
  split; [auto|]. split; [auto|]. split; [reflexivity|]. split; [auto|]. split; [|exact Hm]. cbn [half g_nlat]. apply Nat.div_le_upper_bound; [lia|nia].
Qed.
Lemma dblocks_total : forall A a dims i gi ci, 1 <= ua_scale A -> List.Forall gk (levels (ua_scale A) (ua_gint A) gi (length dims)) -> g_type gi = GEquiangular -> ua_gint A = GEquiangular -> nested (ua_scale A) (g_nlon gi) (length dims) ->
  full_kernel (ua_ks A) (ua_basis A) -> 1 <= ci -> List.Forall (fun d => 1 <= fst d) dims -> ua_down A <> SResample MUnknown -> exists ds, dblocks_init E S A a i gi ci dims = Some ds /\ List.Forall fine ds.
Proof.
  intros A a dims. induction dims as [|(c, n) dims IH]; intros i gi ci Hs G Tg Ti N FK Hi D Hd; cbn [dblocks_init]. { exists []. split; [auto|constructor]. }
  cbn [length levels nested] in G, N. apply Forall_cons_iff in G. destruct G as (G0 & G). destruct N as (N0 & N). apply Forall_cons_iff in D. destruct D as (D0 & D). cbn [fst] in D0.
  pose proof (level_below _ _ _ _ Hs Ti Tg G0 N0 G) as BL. destruct (dblock_total [i] gi (half (ua_scale A) gi (ua_gint A)) ci c n (ua_ks A) (ua_basis A) a (ua_skip A) (ua_down A) BL FK Hi D0 Hd) as (d & -> & X1 & X2 & X3 & X4). cbn [bindo].
  destruct (IH (i + 1) (half (ua_scale A) gi (ua_gint A)) c Hs G Ti Ti N FK D0 D Hd) as (ds & -> & F). cbn [bindo]. eexists. split; [reflexivity|]. constructor; auto. unfold fine. rewrite X1, X2, X3, X4. auto.
Qed.
Lemma fst_combine : forall (X Y : Type) (P : X -> Prop) (l : list X) (r : list Y), List.Forall P l -> List.Forall (fun p => P (fst p)) (List.combine l r).
Proof. intros X Y P l. induction l; intros r F; [constructor|]. destruct r; [constructor|]. apply Forall_cons_iff in F. constructor; [apply F|apply IHl, F]. Qed.
Lemma len_combine : forall (X Y : Type) (l : list X) (r : list Y), length r = length l -> length (List.combine l r) = length l.
Proof. intros. rewrite combine_length. lia. Qed.
Theorem unet_total : forall A, unet_ok (e_gl E) A -> exists n, unet_init E S A = Some n.
Proof.
  intros A [G Tg Ti N FK Le So Di De Sc Ac In Dn Up]. unfold unet_init. rewrite Le, Nat.eqb_refl. assert (L1 : 1 <= length (ua_dims A)) by (destruct (ua_dims A); [congruence|cbn; lia]). rewrite (proj2 (Nat.leb_le _ _) L1), (proj2 (Nat.leb_le _ _) Sc). cbn [andb guard bindo].
  destruct (act_total _ Ac) as (a & ->). cbn [bindo]. destruct (dblocks_total A a (List.combine (ua_dims A) (ua_depths A)) 0 (ua_img A) (ua_in A)) as (ds & -> & F); auto; rewrite ?len_combine by auto; auto. { apply (fst_combine _ _ (fun d => 1 <= d)). auto. } cbn [bindo].
  assert (H1 : 1 <= hd 0 (ua_dims A)). { destruct (ua_dims A); [congruence|]. apply Forall_cons_iff in Di. apply Di. }
  unfold ublocks_init. edestruct (mapM_some (nat * dblock) ublock) as (us & ->); [|cbn [bindo]; eauto].
  intros (i, b) Hin. apply in_rev, in_combine_r in Hin. destruct (proj1 (Forall_forall _ _) F b Hin) as (B1 & B2 & B3). apply ublock_total; auto. { destruct (i =? length ds - 1); lia. } { destruct (i =? 0); auto. }
Qed.

(** ** Segformer *)
Lemma wblock_total : forall ix g c heads ks b a nb bias cut, gk g -> full_kernel ks b -> 1 <= heads -> c mod heads = 0 -> 1 <= c -> (forall x, cut = Some x -> (0 < x)%R) -> exists w, wblock_init E S ix g c heads ks b a nb bias cut = Some w.
Proof.
  intros ix g c heads ks b a nb bias cut G FK H1 H2 H3 H4. unfold wblock_init. destruct (attention_total E S "blocks.{}.fwd.{}.att" ix c g heads nb bias cut) as (t & ->); auto. cbn [bindo].
  assert (H5 : 2 <= g_nlat g) by apply G. destruct (cutoff_total (g_nlat g) ks b H5 FK) as (cr & Hc). destruct (cutoff_bound _ _ _ _ H5 Hc) as (P & _). rewrite Hc. cbn [bindo].
  assert (Z0 : c mod c = 0) by (apply Nat.mod_same; lia). destruct (conv_self E S "blocks.{}.fwd.{}.conv" ix c c g ks b c false cr) as (l & ->); auto. cbn [bindo]. eauto.
Qed.
Lemma tblock_total : forall ix gi go ci co nrep heads ks b a nb bias cut, below go gi -> full_kernel ks b -> 1 <= ci -> 1 <= heads -> co mod heads = 0 -> 1 <= co -> (forall x, cut = Some x -> (0 < x)%R) ->
  exists t, tblock_init E S ix gi go ci co nrep heads ks b a nb bias cut = Some t /\ tb_out t = go.
Proof.
  intros ix gi go ci co nrep heads ks b a nb bias cut (Go & Gi & To & Ti & Hl & Hm) FK Hi H1 H2 H3 H4. unfold tblock_init. assert (H5 : 2 <= g_nlat go) by apply Go. destruct (cutoff_total (g_nlat go) ks b H5 FK) as (c & Hc). rewrite Hc. cbn [bindo].
  destruct (conv_down E S "blocks.{}.fwd.0.conv" ix ci co gi go ks b 1 false (g_nlat go) c) as (l & ->); auto using Nat.mod_1_r. cbn [bindo].
  edestruct (mapM_some nat wblock) as (ws & ->); [|cbn [bindo]; eexists; split; [reflexivity|reflexivity]]. intros j _. apply wblock_total; auto.
Qed.
Lemma mod_trans : forall a b c, 1 <= c -> 1 <= b -> a mod b = 0 -> b mod c = 0 -> a mod c = 0.
Proof. intros a b c Hc Hb H1 H2. apply Nat.mod_divides in H1; [|lia]. apply Nat.mod_divides in H2; [|lia]. destruct H1 as (x & ->), H2 as (y & ->). rewrite <- Nat.mul_assoc, Nat.mul_comm. apply Nat.mod_mul. lia. Qed.
Lemma below_trans : forall a b c, below a b -> below b c -> below a c.
Proof. intros a b c (A1 & A2 & A3 & A4 & A5 & A6) (B1 & B2 & B3 & B4 & B5 & B6). repeat (split; [solve [auto | lia]|]). apply mod_trans with (g_nlon b); auto; [destruct A1; lia|destruct A2; lia]. Qed.
Lemma below_refl : forall g, gk g -> g_type g = GEquiangular -> below g g.
Proof. intros g G T. repeat (split; [auto|]). apply Nat.mod_same. destruct G; lia. Qed.
Lemma tblocks_total : forall A a dims i gi ci img, 1 <= ga_scale_factor A -> List.Forall gk (levels (ga_scale_factor A) (ga_gint A) gi (length dims)) -> below gi img -> ga_gint A = GEquiangular -> nested (ga_scale_factor A) (g_nlon gi) (length dims) ->
  full_kernel (ga_ks A) (ga_basis A) -> 1 <= ci -> List.Forall (fun d => 1 <= fst (fst d) /\ 1 <= snd (fst d) /\ fst (fst d) mod snd (fst d) = 0) dims -> (forall x, ga_cutoff A = Some x -> (0 < x)%R) ->
  exists ts, tblocks_init E S A a i gi ci dims = Some ts /\ List.Forall (fun t => below (tb_out t) img) ts.
Proof.
  intros A a dims. induction dims as [|((c, h), n) dims IH]; intros i gi ci img Hs G BI Ti N FK Hi D Hc; cbn [tblocks_init]. { exists []. split; [auto|constructor]. }
  cbn [length levels nested] in G, N. apply Forall_cons_iff in G. destruct G as (G0 & G). destruct N as (N0 & N). apply Forall_cons_iff in D. destruct D as ((D0 & D1 & D2) & D). cbn [fst snd] in D0, D1, D2.
  assert (Tg : g_type gi = GEquiangular) by apply BI. pose proof (level_below _ _ _ _ Hs Ti Tg G0 N0 G) as BL.
  destruct (tblock_total [i] gi (half (ga_scale_factor A) gi (ga_gint A)) ci c n h (ga_ks A) (ga_basis A) a (ga_neigh A) (ga_bias A) (ga_cutoff A) BL FK Hi D1 D2 D0 Hc) as (t & -> & X1). cbn [bindo].
  destruct (IH (i + 1) (half (ga_scale_factor A) gi (ga_gint A)) c img Hs G (below_trans _ _ _ BL BI) Ti N FK D0 D Hc) as (ts & -> & F). cbn [bindo]. eexists. split; [reflexivity|]. constructor; auto. rewrite X1. eapply below_trans; eauto.
Qed.
Lemma upsampling_total : forall ix gi go c ks b m, below gi go -> full_kernel ks b -> 1 <= c -> m <> UUnknown -> exists ls, upsampling E S ix gi go c c ks b m = Some ls.
Proof.
  intros ix gi go c ks b m (Gi & Go & Ti & To & Hl & Hm) FK Hc Hu. unfold upsampling. assert (H5 : 2 <= g_nlat gi) by apply Gi. destruct (cutoff_total (g_nlat gi) ks b H5 FK) as (cr & Hr).
  destruct m; try congruence. - rewrite Hr. cbn [bindo]. destruct (conv_up E S "upsamplers.{}.upsample" ix c c gi go ks b 1 false (g_nlat gi) cr) as (l & ->); auto using Nat.mod_1_r. cbn [bindo]. eauto.
  - destruct (resampling_total E gi go MBilinear) as (l & ->); auto; try discriminate. cbn [bindo]. eauto.
Qed.
Theorem seg_total : forall A, seg_ok (e_gl E) A -> exists n, seg_init E S A = Some n.
Proof.
  intros A [G Tg Ti N FK Le Lh So Di Cu Sc Ac In Up]. unfold seg_init. rewrite Le, Lh, Nat.eqb_refl, (proj2 (Nat.leb_le _ _) Sc). cbn [andb guard bindo]. destruct (act_total _ Ac) as (a & ->). cbn [bindo].
  assert (L2 : length (List.combine (List.combine (ga_dims A) (ga_headsl A)) (ga_depths A)) = length (ga_dims A)) by (rewrite !len_combine; rewrite ?len_combine; auto).
  assert (Gi : gk (ga_img A)). { unfold seg_levels in G. destruct (length (ga_dims A)); cbn [levels] in G; apply Forall_cons_iff in G; apply G. }
  destruct (tblocks_total A a (List.combine (List.combine (ga_dims A) (ga_headsl A)) (ga_depths A)) 0 (ga_img A) (ga_in A) (ga_img A)) as (ts & -> & F); auto; rewrite ?L2; auto. { apply below_refl; auto. } { apply (fst_combine _ _ (fun p => 1 <= fst p /\ 1 <= snd p /\ fst p mod snd p = 0)). auto. } cbn [bindo].
  edestruct (mapM_some (nat * (tblock * nat)) (list layer)) as (us & ->); [|cbn [bindo]; eauto].
  intros (i, (b, c)) Hin. apply in_combine_r in Hin. pose proof (in_combine_l _ _ _ _ Hin) as Hb. pose proof (in_combine_r _ _ _ _ Hin) as Hc. apply upsampling_total; auto. { exact (proj1 (Forall_forall _ _) F b Hb). }
  clear - Hc Di Lh. revert Di Lh Hc. generalize (ga_headsl A). induction (ga_dims A) as [|d l IH]; intros hs Di Lh Hc; [contradiction|]. destruct hs as [|h hs]; [discriminate|]. cbn [List.combine] in Di. apply Forall_cons_iff in Di. destruct Di as ((D0 & _) & Di). destruct Hc as [->|Hc]; [exact D0|]. apply (IH hs); auto.
Qed.
End Total.
