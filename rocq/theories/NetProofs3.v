(** The example networks: every constructed network, and the grids its layers are used on. *)
From Coq Require Import String List Arith Lia Bool Reals ZArith Lra.
From Coquelicot Require Import Coquelicot.
From Verif Require Import TensorModel TensorProofs BigSum TruncModel QuadModel FFTModel SHTModel SHTSpec ResampleModel FilterModel DiscoModel PsiModel PsiProofs AttnModel AttnSpec AttnLayerModel AttnLayerSpec AttnLayerProofs
  NetModel NetModels NetSpec NetParProofs NetLayerProofs NetLayerProofs2 NetLayerProofs4 NetReadyProofs NetReachProofs NetKindProofs NetKindProofs2 NetKindProofs3 NetProofs NetProofs2.
Import ListNotations.
Local Open Scope list_scope.
Local Open Scope nat_scope.

Section Net.
Variables (E : env) (B : nat).
Hypothesis HB : 1 <= B.
Hypothesis Hop : op_correct (e_op E).
Notation gk := (grid_ok (e_gl E)).

Lemma acts_intro : forall f ls gs ci co g, (forall n k, 1 <= n -> List.Forall (fun g => g_nlon g mod n = 0) gs -> rotates B f ls ci g co g n k) -> acts B f ls gs ci co g.
Proof.
  intros f ls gs ci co g H. split. - eapply rotates_maps. apply H; [lia|]. apply Forall_forall. intros x _. apply Nat.mod_1_r. - intros n k Hn W Z. eapply rotates_commutes; eauto.
Qed.
Lemma two : forall n a b, gk a -> gk b -> List.Forall (fun g => g_nlon g mod n = 0) [a; b] -> gok E n a /\ gok E n b.
Proof. intros n a b Ga Gb F. apply Forall_cons_iff in F. destruct F as (F1 & F). apply Forall_cons_iff in F. destruct F as (F2 & _). split; split; auto. Qed.
Theorem sfno_any : forall S A nt, sfno_init E S A = Some nt -> gk (sa_img A) -> gk (sfno_inner A) -> modes_kept (sfno_inner A) (sa_frac A) -> acts B (sfno_run E nt) (sfno_layers nt) [sa_img A; sfno_inner A] (sa_in A) (sa_out A) (sa_img A).
Proof.
  intros S A nt H Gi Gn MK. apply acts_intro. intros n k Hn W. destruct (two n _ _ Gi Gn W) as (G1 & G2). apply (sfno_rotates E B HB Hop S A); auto.
  eapply good_filters. apply (sfno_built E S false n True A nt H G1 G2 MK). discriminate.
Qed.
Theorem lsno_any : forall S A nt, lsno_init E S A = Some nt -> gk (la_img A) -> gk (lsno_inner A) -> modes_kept (lsno_inner A) (la_frac A) -> (la_residual A = true -> la_in A = la_out A) -> List.Forall filter_ready (lsno_layers nt) ->
  acts B (lsno_run E nt) (lsno_layers nt) [la_img A; lsno_inner A] (la_in A) (la_out A) (la_img A).
Proof. intros S A nt H Gi Gn MK RS F. apply acts_intro. intros n k Hn W. destruct (two n _ _ Gi Gn W) as (G1 & G2). apply (lsno_rotates E B HB Hop S A); auto. Qed.
Theorem strans_any : forall S A nt, strans_init E S A = Some nt -> gk (ta_img A) -> gk (strans_inner A) -> (ta_residual A = true -> ta_in A = ta_out A) -> List.Forall filter_ready (strans_layers nt) ->
  acts B (strans_run E nt) (strans_layers nt) [ta_img A; strans_inner A] (ta_in A) (ta_out A) (ta_img A).
Proof. intros S A nt H Gi Gn RS F. apply acts_intro. intros n k Hn W. destruct (two n _ _ Gi Gn W) as (G1 & G2). apply (strans_rotates E B HB Hop S A); auto. Qed.
Theorem unet_any : forall S A nt, unet_init E S A = Some nt -> List.Forall gk (unet_levels A) -> List.Forall (fun d => 1 <= d) (ua_depths A) -> List.Forall filter_ready (unet_layers nt) ->
  acts B (unet_run E nt) (unet_layers nt) (unet_levels A) (ua_in A) (ua_out A) (ua_img A).
Proof. intros S A nt H G D F. apply acts_intro. intros n k Hn W. apply (unet_rotates E B HB Hop S A); auto. apply both; auto. Qed.
Theorem seg_any : forall S A nt, seg_init E S A = Some nt -> List.Forall gk (seg_levels A) -> ga_dims A <> [] -> List.Forall filter_ready (seg_layers nt) ->
  acts B (seg_run E nt) (seg_layers nt) (seg_levels A) (ga_in A) (ga_out A) (ga_img A).
Proof. intros S A nt H G D F. apply acts_intro. intros n k Hn W. apply (seg_rotates E B HB Hop S A); auto. apply both; auto. Qed.

(** ** Single layers *)
Lemma layer_commutes : forall n k l ci gi co go, 1 <= n -> good E n False l -> filter_ready l -> zonal l -> gok E n gi -> fit false l (mkK ci gi) = Some (mkK co go) -> commutes (run E l) B ci gi n k.
Proof.
  intros n k l ci gi co go Hn G F Z Gi Ft x Hx. assert (T : turned n k B (mkK ci gi) x (turn n k x)) by (apply turned_turn; auto; [eapply gok_w; eauto|apply Gi]).
  pose proof (good_run E B HB Hop n k l _ _ _ Hn (conj (conj G F) (or_intror Z)) T) as O. rewrite Ft in O. destruct (conclude B n k _ _ _ O) as (y & y' & H1 & H2 & _ & H3). eauto.
Qed.
Theorem resampling_commutes : forall gi go mode l c n k, gk gi -> gk go -> resampling E gi go mode = Some l -> 1 <= n -> g_nlon gi mod n = 0 -> g_nlon go mod n = 0 -> commutes (run E l) B c gi n k.
Proof.
  intros gi go mode l c n k Gi Go H Hn W1 W2. destruct (resampling_kind E false n False gi go mode l c (conj Gi W1) (conj Go W2) H) as (G & F). eapply layer_commutes; eauto. - unfold resampling in H. bind H r Hr. injection H as <-. exact I. - eapply resampling_zonal; eauto. - split; auto.
Qed.
Theorem attention_commutes : forall S name ix ci co g heads nb bias cut l n k, gk g -> self_attention E S name ix ci co g g heads nb bias cut = Some l -> 1 <= n -> g_nlon g mod n = 0 -> commutes (run E l) B ci g n k.
Proof.
  intros S name ix ci co g heads nb bias cut l n k G H Hn W. destruct (attention_kind E S false n False name ix ci co g heads nb bias cut l (conj G W) H) as (G1 & F). eapply layer_commutes; eauto.
  - unfold self_attention in H. destruct nb. + bind H v1 H1. unfold nattn in H. bind H v2 H2. bind H v3 H3. injection H as <-. exact I. + unfold gattn in H. bind H v2 H2. bind H v3 H3. injection H as <-. exact I.
  - eapply attention_zonal; eauto. - split; auto.
Qed.
End Net.

(** ** Grids *)
Section Strict.
Variables (E : env).
Notation gk := (grid_ok (e_gl E)).
Notation g1 := (gok1 E).
Theorem sfno_strict : forall S A n, sfno_init E S A = Some n -> gk (sa_img A) -> gk (sfno_inner A) -> modes_kept (sfno_inner A) (sa_frac A) -> sa_layers A <= 1 \/ same_shape (sa_img A) (sfno_inner A) = false \/ g_type (sa_img A) = sa_gint A ->
  sfno_kind true n (mkK (sa_in A) (sa_img A)) = Some (mkK (sa_out A) (sa_img A)).
Proof. intros S A n H Gi Gn MK C0. apply (sfno_built E S true 1 False A n H (g1 _ Gi) (g1 _ Gn) MK). auto. Qed.
Theorem lsno_strict : forall S A n, lsno_init E S A = Some n -> gk (la_img A) -> gk (lsno_inner A) -> modes_kept (lsno_inner A) (la_frac A) -> (la_residual A = true -> la_in A = la_out A) ->
  lsno_kind true n (mkK (la_in A) (la_img A)) = Some (mkK (la_out A) (la_img A)).
Proof. intros S A n H Gi Gn MK RS. apply (lsno_built E S true 1 False A n H (g1 _ Gi) (g1 _ Gn) MK RS). tauto. Qed.
Theorem strans_strict : forall S A n, strans_init E S A = Some n -> gk (ta_img A) -> gk (strans_inner A) -> (ta_residual A = true -> ta_in A = ta_out A) ->
  strans_kind true n (mkK (ta_in A) (ta_img A)) = Some (mkK (ta_out A) (ta_img A)).
Proof. intros S A n H Gi Gn RS. apply (strans_built E S true 1 False A n H (g1 _ Gi) (g1 _ Gn) RS). tauto. Qed.
Theorem unet_strict : forall S A n, unet_init E S A = Some n -> List.Forall gk (unet_levels A) -> List.Forall (fun d => 1 <= d) (ua_depths A) -> g_type (ua_img A) = ua_gint A ->
  unet_kind true n (mkK (ua_in A) (ua_img A)) = Some (mkK (ua_out A) (ua_img A)).
Proof. intros S A n H G D T. apply (unet_built E S true 1 False A n H (all_gok1 E _ G) D); tauto. Qed.
Theorem seg_strict : forall S A n, seg_init E S A = Some n -> List.Forall gk (seg_levels A) -> ga_dims A <> [] -> seg_kind true n (mkK (ga_in A) (ga_img A)) = Some (mkK (ga_out A) (ga_img A)).
Proof. intros S A n H G D. apply (seg_built E S true 1 False A n H (all_gok1 E _ G) D). tauto. Qed.
End Strict.
