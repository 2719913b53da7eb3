(** The example networks: they accept every batch of images they were configured for,
    return a field on the same grid, and commute with rotations about the polar axis. *)
From Coq Require Import String List Arith Lia Bool Reals ZArith Lra.
From Coquelicot Require Import Coquelicot.
From Verif Require Import TensorModel TensorProofs BigSum TruncModel QuadModel FFTModel SHTModel SHTSpec SHTValueProofs DiscoTensorProofs ResampleModel FilterModel DiscoModel PsiModel PsiProofs AttnModel AttnSpec AttnLayerModel AttnLayerSpec AttnLayerProofs
  NetModel NetModels NetSpec NetParProofs NetLayerProofs NetLayerProofs2 NetLayerProofs4 NetReadyProofs NetReachProofs NetKindProofs NetKindProofs2 NetKindProofs3.
Import ListNotations.
Local Open Scope list_scope.
Local Open Scope nat_scope.

Section Net.
Variables (E : env) (B : nat).
Hypothesis HB : 1 <= B.
Hypothesis Hop : op_correct (e_op E).

Definition sized (x : tensor R) (c : nat) (g : gspec) : Prop := shp x = [B; c; g_nlat g; g_nlon g].
Lemma turn4 : forall n k x c g, sized x c g -> turn n k x = roll_last (shift n k (g_nlon g)) x.
Proof. intros n k x c g Hx. unfold turn, shift, dimsz, ndim. rewrite Hx. reflexivity. Qed.
Lemma turned_turn : forall n k x c g, sized x c g -> 1 <= g_nlon g -> g_nlon g mod n = 0 -> turned n k B (mkK c g) x (turn n k x).
Proof. intros n k x c g Hx H1 H2. split; [exact Hx|]. split; [auto|]. split; [auto|]. rewrite (turn4 n k x c g Hx). apply teq_refl. Qed.
Lemma good_run : forall n k l t x y, 1 <= n -> (good E n False l /\ filter_ready l) /\ (k = 0 \/ zonal l) -> turned n k B t x y -> orel (turned n k B) (fit false l t) (run E l x) (run E l y).
Proof. intros n k l t x y Hn (((W & G & _) & F) & Z) T. apply (ready_sound n k B E l Hn HB Hop (G F) W Z); auto. Qed.
Definition rotates (R0 : tensor R -> option (tensor R)) (ls : list layer) (ci : nat) (gi : gspec) (co : nat) (go : gspec) (n k : nat) : Prop :=
  (k = 0 \/ List.Forall zonal ls) -> forall x, sized x ci gi ->
  exists y y', R0 x = Some y /\ R0 (turn n k x) = Some y' /\ sized y co go /\ teq y' (turn n k y).
Lemma all_ok : forall n k ls, List.Forall (good E n False) ls -> List.Forall filter_ready ls -> (k = 0 \/ List.Forall zonal ls) ->
  List.Forall (fun l => (good E n False l /\ filter_ready l) /\ (k = 0 \/ zonal l)) ls.
Proof.
  intros n k ls G F Z. apply Forall_forall. intros l Hl. pose proof (proj1 (Forall_forall _ _) G l Hl). pose proof (proj1 (Forall_forall _ _) F l Hl). split; [split; auto|].
  destruct Z as [Z|Z]; [auto|]. right. exact (proj1 (Forall_forall _ _) Z l Hl).
Qed.
Lemma conclude : forall n k m2 m3 t, orel (turned n k B) (Some t) m2 m3 -> exists y y', m2 = Some y /\ m3 = Some y' /\ sized y (k_ch t) (k_g t) /\ teq y' (turn n k y).
Proof.
  intros n k m2 m3 t O. destruct (O t eq_refl) as (y & y' & -> & -> & (S0 & _ & _ & T)). exists y, y'. split; [auto|]. split; [auto|]. split; [exact S0|]. rewrite (turn4 n k y _ _ S0). exact T.
Qed.

Theorem sfno_rotates : forall S A nt n k, 1 <= n -> sfno_init E S A = Some nt -> gok E n (sa_img A) -> gok E n (sfno_inner A) -> modes_kept (sfno_inner A) (sa_frac A) ->
  List.Forall filter_ready (sfno_layers nt) -> rotates (sfno_run E nt) (sfno_layers nt) (sa_in A) (sa_img A) (sa_out A) (sa_img A) n k.
Proof.
  intros S A nt n k Hn H Gi Gn MK F Z x Hx. destruct (sfno_built E S false n False A nt H Gi Gn MK) as (GD & KD); [discriminate|].
  apply (conclude n k _ _ (mkK (sa_out A) (sa_img A))). rewrite <- KD. unfold sfno_run, sfno_kind. eapply (par_sfno _ _ _ _ _ _ (turned n k B) (fun l => (good E n False l /\ filter_ready l) /\ (k = 0 \/ zonal l))).
  - intros. apply good_run; auto.
  - intros. apply add_sound; auto.
  - apply all_ok; auto.
  - apply turned_turn; auto. eapply gok_w; eauto. apply Gi.
Qed.
Theorem lsno_rotates : forall S A nt n k, 1 <= n -> lsno_init E S A = Some nt -> gok E n (la_img A) -> gok E n (lsno_inner A) -> modes_kept (lsno_inner A) (la_frac A) -> (la_residual A = true -> la_in A = la_out A) ->
  List.Forall filter_ready (lsno_layers nt) -> rotates (lsno_run E nt) (lsno_layers nt) (la_in A) (la_img A) (la_out A) (la_img A) n k.
Proof.
  intros S A nt n k Hn H Gi Gn MK RS F Z x Hx. destruct (lsno_built E S false n False A nt H Gi Gn MK RS (False_ind _)) as (GD & KD).
  apply (conclude n k _ _ (mkK (la_out A) (la_img A))). rewrite <- KD. unfold lsno_run, lsno_kind. eapply (par_lsno _ _ _ _ _ _ (turned n k B) (fun l => (good E n False l /\ filter_ready l) /\ (k = 0 \/ zonal l))).
  - intros. apply good_run; auto.
  - intros. apply add_sound; auto.
  - apply all_ok; auto.
  - apply turned_turn; auto. eapply gok_w; eauto. apply Gi.
Qed.
Theorem strans_rotates : forall S A nt n k, 1 <= n -> strans_init E S A = Some nt -> gok E n (ta_img A) -> gok E n (strans_inner A) -> (ta_residual A = true -> ta_in A = ta_out A) ->
  List.Forall filter_ready (strans_layers nt) -> rotates (strans_run E nt) (strans_layers nt) (ta_in A) (ta_img A) (ta_out A) (ta_img A) n k.
Proof.
  intros S A nt n k Hn H Gi Gn RS F Z x Hx. destruct (strans_built E S false n False A nt H Gi Gn RS (False_ind _)) as (GD & KD).
  apply (conclude n k _ _ (mkK (ta_out A) (ta_img A))). rewrite <- KD. unfold strans_run, strans_kind. eapply (par_strans _ _ _ _ _ _ (turned n k B) (fun l => (good E n False l /\ filter_ready l) /\ (k = 0 \/ zonal l))).
  - intros. apply good_run; auto.
  - intros. apply add_sound; auto.
  - apply all_ok; auto.
  - apply turned_turn; auto. eapply gok_w; eauto. apply Gi.
Qed.
Lemma levels_head : forall (P : gspec -> Prop) s t g n, List.Forall P (levels s t g n) -> P g.
Proof. intros P s t g n H. destruct n; cbn [levels] in H; apply Forall_cons_iff in H; apply H. Qed.
Theorem unet_rotates : forall S A nt n k, 1 <= n -> unet_init E S A = Some nt -> List.Forall (gok E n) (levels (ua_scale A) (ua_gint A) (ua_img A) (length (ua_dims A))) -> List.Forall (fun d => 1 <= d) (ua_depths A) ->
  List.Forall filter_ready (unet_layers nt) -> rotates (unet_run E nt) (unet_layers nt) (ua_in A) (ua_img A) (ua_out A) (ua_img A) n k.
Proof.
  intros S A nt n k Hn H G D F Z x Hx. pose proof (levels_head _ _ _ _ _ G) as Gi. destruct (unet_built E S false n False A nt H G D) as (GD & KD); [discriminate|tauto|].
  apply (conclude n k _ _ (mkK (ua_out A) (ua_img A))). rewrite <- KD. unfold unet_run, unet_kind. eapply (par_unet _ _ _ _ _ _ _ _ _ (turned n k B) (fun l => (good E n False l /\ filter_ready l) /\ (k = 0 \/ zonal l))).
  - intros. apply good_run; auto.
  - intros. apply add_sound; auto.
  - intros. apply cat_sound; auto.
  - apply all_ok; auto.
  - apply turned_turn; auto. eapply gok_w; eauto. apply Gi.
Qed.
Theorem seg_rotates : forall S A nt n k, 1 <= n -> seg_init E S A = Some nt -> List.Forall (gok E n) (levels (ga_scale_factor A) (ga_gint A) (ga_img A) (length (ga_dims A))) -> ga_dims A <> [] ->
  List.Forall filter_ready (seg_layers nt) -> rotates (seg_run E nt) (seg_layers nt) (ga_in A) (ga_img A) (ga_out A) (ga_img A) n k.
Proof.
  intros S A nt n k Hn H G D F Z x Hx. pose proof (levels_head _ _ _ _ _ G) as Gi. destruct (seg_built E S false n False A nt H G D (False_ind _)) as (GD & KD).
  apply (conclude n k _ _ (mkK (ga_out A) (ga_img A))). rewrite <- KD. unfold seg_run, seg_kind. eapply (par_seg _ _ _ _ _ _ _ _ _ (turned n k B) (fun l => (good E n False l /\ filter_ready l) /\ (k = 0 \/ zonal l))).
  - intros. apply good_run; auto.
  - intros. apply add_sound; auto.
  - intros. apply cat_sound; auto.
  - apply all_ok; auto.
  - apply turned_turn; auto. eapply gok_w; eauto. apply Gi.
Qed.
End Net.
