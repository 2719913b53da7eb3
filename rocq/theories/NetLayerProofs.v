(** Pointwise layers under rotations. *)
From Coq Require Import String List Arith Lia Bool Reals ZArith Lra.
From Coquelicot Require Import Coquelicot.
From Verif Require Import TensorModel TensorProofs BigSum FFTModel SHTSpec SHTValueProofs DistSpectralProofs DiscoTensorProofs DiscoTransposeProofs AttnModel AttnLayerModel AttnLayerSpec AttnLayerProofs NetModel NetModels NetSpec NetParProofs.
Import ListNotations.
Local Open Scope list_scope.
Local Open Scope nat_scope.

Section Rel.
Variables n k B : nat.
Definition shift (W : nat) : nat := k * (W / n).
(** x and y are batches of fields of kind t; y is x rotated by k/n of a turn *)
Definition turned (t : ftype) (x y : tensor R) : Prop :=
  shp x = kshape_of B t /\ 1 <= g_nlon (k_g t) /\ g_nlon (k_g t) mod n = 0 /\ teq y (roll_last (shift (g_nlon (k_g t))) x).
Definition src (W w : nat) : nat := (w + (W - shift W mod W)) mod W.
Lemma src_lt : forall W w, 1 <= W -> src W w < W.
Proof. intros. apply Nat.mod_upper_bound. lia. Qed.
Lemma src_zero : forall W w, k = 0 -> w < W -> src W w = w.
Proof.
  intros W w Hk H. unfold src, shift. rewrite Hk, Nat.mul_0_l, Nat.mod_0_l, Nat.sub_0_r by lia.
  replace (w + W) with (w + 1 * W) by lia. rewrite Nat.mod_add by lia. apply Nat.mod_small. auto.
Qed.
Lemma turned_shp : forall t x y, turned t x y -> shp y = kshape_of B t.
Proof. intros t x y (S & _ & _ & [T _]). rewrite T. exact S. Qed.
Lemma turned_val : forall t x y b c h w, turned t x y -> b < B -> c < k_ch t -> h < g_nlat (k_g t) -> w < g_nlon (k_g t) ->
  val y [b; c; h; w] = val x [b; c; h; src (g_nlon (k_g t)) w].
Proof.
  intros t x y b c h w (S & HW & HD & [T V]) Hb Hc Hh Hw. rewrite V.
  - rewrite (roll4 x _ _ _ _ _ _ _ _ _ S). reflexivity.
  - rewrite T. cbn [shp roll_last]. rewrite S. apply valid4_intro; auto.
Qed.
Lemma turned_intro : forall t x y, shp x = kshape_of B t -> shp y = kshape_of B t -> 1 <= g_nlon (k_g t) -> g_nlon (k_g t) mod n = 0 ->
  (forall b c h w, b < B -> c < k_ch t -> h < g_nlat (k_g t) -> w < g_nlon (k_g t) -> val y [b; c; h; w] = val x [b; c; h; src (g_nlon (k_g t)) w]) -> turned t x y.
Proof.
  intros t x y Sx Sy HW HD V. split; [auto|]. split; [auto|]. split; [auto|]. split. { cbn [shp roll_last]. congruence. }
  intros i Vi. rewrite Sy in Vi. destruct (valid4 _ _ _ _ _ Vi) as (b & c & h & w & -> & ?&?&?&?). rewrite (roll4 x _ _ _ _ _ _ _ _ _ Sx), V by auto. reflexivity.
Qed.
(** kinds of equal sizes *)
Lemma turned_kind : forall t u x y, k_ch t = k_ch u -> g_nlat (k_g t) = g_nlat (k_g u) -> g_nlon (k_g t) = g_nlon (k_g u) -> turned t x y -> turned u x y.
Proof. intros t u x y E1 E2 E3 (S & A & D & T). unfold turned, kshape_of in *. rewrite <- E1, <- E2, <- E3. auto. Qed.

Lemma rsum_src : forall W f, 1 <= W -> rsum W (fun w => f (src W w)) = rsum W f.
Proof. intros W f HW. unfold src. apply (bsum_rot RT). Qed.
Lemma sgrid : forall g h, same_grid false g h = true -> g_nlat g = g_nlat h /\ g_nlon g = g_nlon h.
Proof. intros g h H. unfold same_grid in H. apply andb_prop in H. destruct H as [H _]. apply andb_prop in H. destruct H as [A C]. apply Nat.eqb_eq in A, C. auto. Qed.
Lemma guard_some : forall X b (m : option X) y, (do _ <- guard b; m) = Some y -> b = true /\ m = Some y.
Proof. intros X [|] m y E; cbn in E; [auto|discriminate]. Qed.
Lemma vec_of_shp : forall c t, vec_of c t = true -> shp t = [c].
Proof. unfold vec_of, shape_eqb. intros c t. destruct (list_eq_dec _ _ _); congruence. Qed.
Lemma shape_eqb_shp : forall s s', shape_eqb s s' = true -> s = s'.
Proof. unfold shape_eqb. intros. destruct (list_eq_dec _ _ _); congruence. Qed.
Lemma shape_eqb_refl : forall s, shape_eqb s s = true.
Proof. unfold shape_eqb. intros. destruct (list_eq_dec _ _ _); congruence. Qed.
Lemma ovec_shape : forall c b, ovec_of c b = true -> bias_shape b c.
Proof. intros c [t|] H; cbn in *; auto. apply vec_of_shp; auto. Qed.

Variable E : env.
Definition sound (l : layer) : Prop := forall t x y, turned t x y -> orel turned (fit false l t) (run E l x) (run E l y).

Lemma conv1_sound : forall w b, sound (LConv1 w b).
Proof.
  intros w b t x y T u F. cbn [fit run] in *. apply guard_some in F. destruct F as [F Eu]. injection Eu as <-. apply andb_prop in F. destruct F as [Fw Fb].
  apply shape_eqb_shp in Fw. apply ovec_shape in Fb. pose proof (turned_shp _ _ _ T) as Sy. pose proof (proj1 T) as Sx; pose proof (proj1 (proj2 T)) as HW; pose proof (proj1 (proj2 (proj2 T))) as HD.
  destruct (conv1x1_val w b x B _ _ _ _ Fw Fb Sx) as (rx & Ex & Srx & Vx). destruct (conv1x1_val w b y B _ _ _ _ Fw Fb Sy) as (ry & Ey & Sry & Vy).
  exists rx, ry. split; [auto|]. split; [auto|]. apply turned_intro; auto. intros b0 o h v Hb Ho Hh Hv. cbn [k_ch k_g] in *.
  change (val ry [b0; o; h; v]) with (cf ry b0 h v o). change (val rx [b0; o; h; src (g_nlon (k_g t)) v]) with (cf rx b0 h (src (g_nlon (k_g t)) v) o).
  rewrite Vx, Vy by (auto using src_lt). unfold affine. f_equal. apply bsum_ext. intros c Hc. unfold cf. rewrite (turned_val _ _ _ _ _ _ _ T) by auto. reflexivity.
Qed.
Lemma act_sound : forall f, sound (LAct f).
Proof.
  intros f t x y T u F. cbn [fit run] in *. injection F as <-. do 2 eexists. split; [reflexivity|]. split; [reflexivity|].
  pose proof (turned_shp _ _ _ T) as Sy. pose proof (proj1 T) as Sx; pose proof (proj1 (proj2 T)) as HW; pose proof (proj1 (proj2 (proj2 T))) as HD.
  apply turned_intro; auto. intros. cbn [map_t val]. f_equal. apply (turned_val _ _ _ _ _ _ _ T); auto.
Qed.
Lemma batch_sound : forall eps m v w b, sound (LBatch eps m v w b).
Proof.
  intros eps m v w b t x y T u F. cbn [fit run] in *. apply guard_some in F. destruct F as [F Eu]. injection Eu as <-.
  repeat (apply andb_prop in F; destruct F as [F ?]). repeat match goal with H : vec_of _ _ = true |- _ => apply vec_of_shp in H end.
  pose proof (turned_shp _ _ _ T) as Sy. pose proof (proj1 T) as Sx; pose proof (proj1 (proj2 T)) as HW; pose proof (proj1 (proj2 (proj2 T))) as HD.
  unfold batch_norm. destruct (shape4 _ _ _ _ _ Sx) as (-> & _ & -> & _ & _). destruct (shape4 _ _ _ _ _ Sy) as (-> & _ & -> & _ & _).
  rewrite H, H0, H1, F, !shape_eqb_refl. cbn [Nat.eqb andb guard bindo]. do 2 eexists. split; [reflexivity|]. split; [reflexivity|].
  apply turned_intro; auto. intros. cbn [val nth]. rewrite (turned_val _ _ _ _ _ _ _ T) by auto. reflexivity.
Qed.
Lemma mean_p_src : forall h W f g, 1 <= W -> (forall y x, y < h -> x < W -> g y x = f y (src W x)) -> mean_p h W g = mean_p h W f.
Proof.
  intros h W f g HW H. unfold mean_p. f_equal. apply bsum_ext. intros y Hy. change (rsum W (g y) = rsum W (f y)). rewrite <- (rsum_src W (f y)) by auto. apply bsum_ext. intros. auto.
Qed.
Lemma var_p_src : forall h W f g, 1 <= W -> (forall y x, y < h -> x < W -> g y x = f y (src W x)) -> var_p h W g = var_p h W f.
Proof.
  intros h W f g HW H. unfold var_p. apply mean_p_src; auto. intros y x Hy Hx. cbv beta. rewrite H, (mean_p_src h W f g) by auto. reflexivity.
Qed.
Lemma inst_sound : forall eps w b, sound (LInst eps w b).
Proof.
  intros eps w b t x y T u F. cbn [fit run] in *. apply guard_some in F. destruct F as [F Eu]. injection Eu as <-.
  repeat (apply andb_prop in F; destruct F as [F ?]). repeat match goal with H : vec_of _ _ = true |- _ => apply vec_of_shp in H end.
  pose proof (turned_shp _ _ _ T) as Sy. pose proof (proj1 T) as Sx; pose proof (proj1 (proj2 T)) as HW; pose proof (proj1 (proj2 (proj2 T))) as HD.
  unfold instance_norm. destruct (shape4 _ _ _ _ _ Sx) as (-> & _ & -> & -> & ->). destruct (shape4 _ _ _ _ _ Sy) as (-> & _ & -> & -> & ->).
  rewrite H0, F, !shape_eqb_refl, H. cbn [Nat.eqb andb guard bindo]. do 2 eexists. split; [reflexivity|]. split; [reflexivity|].
  apply turned_intro; auto. intros b0 c h v Hb Hc Hh Hv. cbn [val nth]. rewrite (turned_val _ _ _ _ _ _ _ T) by auto.
  assert (K : forall yy xx, yy < g_nlat (k_g t) -> xx < g_nlon (k_g t) -> (fun y0 x0 => val y [b0; c; y0; x0]) yy xx = (fun y0 x0 => val x [b0; c; y0; x0]) yy (src (g_nlon (k_g t)) xx)).
  { intros. apply (turned_val _ _ _ _ _ _ _ T); auto. }
  rewrite (mean_p_src _ _ _ _ HW K), (var_p_src _ _ _ _ HW K). reflexivity.
Qed.
Lemma plane_sound : forall eps w b, k = 0 \/ zonal (LPlane eps w b) -> sound (LPlane eps w b).
Proof.
  intros eps w b Z t x y T u F. cbn [fit run] in *. apply guard_some in F. destruct F as [F Eu]. injection Eu as <-.
  apply andb_prop in F; destruct F as [F F']. apply shape_eqb_shp in F, F'.
  pose proof (turned_shp _ _ _ T) as Sy. pose proof (proj1 T) as Sx; pose proof (proj1 (proj2 T)) as HW; pose proof (proj1 (proj2 (proj2 T))) as HD.
  unfold plane_norm. destruct (shape4 _ _ _ _ _ Sx) as (-> & _ & _ & -> & ->). destruct (shape4 _ _ _ _ _ Sy) as (-> & _ & _ & -> & ->).
  rewrite F, F', !shape_eqb_refl. cbn [Nat.eqb andb guard bindo]. do 2 eexists. split; [reflexivity|]. split; [reflexivity|].
  apply turned_intro; auto. intros b0 c h v Hb Hc Hh Hv. cbn [val nth]. rewrite (turned_val _ _ _ _ _ _ _ T) by auto.
  assert (K : forall yy xx, yy < g_nlat (k_g t) -> xx < g_nlon (k_g t) -> (fun y0 x0 => val y [b0; c; y0; x0]) yy xx = (fun y0 x0 => val x [b0; c; y0; x0]) yy (src (g_nlon (k_g t)) xx)).
  { intros. apply (turned_val _ _ _ _ _ _ _ T); auto. }
  rewrite (mean_p_src _ _ _ _ HW K), (var_p_src _ _ _ _ HW K).
  assert (Q : val w [h; v] = val w [h; src (g_nlon (k_g t)) v] /\ val b [h; v] = val b [h; src (g_nlon (k_g t)) v]).
  { destruct Z as [Z|Z]. rewrite src_zero by auto. auto. apply Z; unfold dimsz; rewrite F; cbn [nth]; auto using src_lt. }
  destruct Q as [-> ->]. reflexivity.
Qed.
Lemma chan_sound : forall tp eps w b, sound (LChan tp eps w b).
Proof.
  intros tp eps w b t x y T u F. cbn [fit run] in *. apply guard_some in F. destruct F as [F Eu]. injection Eu as <-.
  apply andb_prop in F; destruct F as [F F']. apply vec_of_shp in F, F'.
  pose proof (turned_shp _ _ _ T) as Sy. pose proof (proj1 T) as Sx; pose proof (proj1 (proj2 T)) as HW; pose proof (proj1 (proj2 (proj2 T))) as HD.
  unfold chan_norm. destruct (shape4 _ _ _ _ _ Sx) as (-> & _ & _ & _ & _). destruct (shape4 _ _ _ _ _ Sy) as (-> & _ & _ & _ & _). cbn [Nat.eqb guard bindo].
  assert (Q : forall b0 h v (f g : nat -> R), b0 < B -> h < g_nlat (k_g t) -> v < g_nlon (k_g t) -> (forall c, c < k_ch t -> f c = val y [b0; c; h; v]) -> (forall c, c < k_ch t -> g c = val x [b0; c; h; src (g_nlon (k_g t)) v]) ->
     mean_n (k_ch t) f = mean_n (k_ch t) g /\ var_n (k_ch t) f = var_n (k_ch t) g).
  { intros b0 h v f g Hb Hh Hv Hf Hg. assert (A : forall c, c < k_ch t -> f c = g c). { intros. rewrite Hf, Hg by auto. apply (turned_val _ _ _ _ _ _ _ T); auto. }
    assert (M : mean_n (k_ch t) f = mean_n (k_ch t) g). { unfold mean_n. f_equal. apply bsum_ext. auto. }
    split; [exact M|]. unfold var_n. f_equal. apply bsum_ext. intros c Hc. rewrite M, A by auto. reflexivity. }
  assert (D : forall p q, [dimsz x 0; p; q; dimsz x 1] = [dimsz x 0; p; q; k_ch t]) by (intros; unfold dimsz; rewrite Sx; reflexivity).
  destruct tp; unfold layer_norm; cbn [permute ndim dimsz shp map length Nat.sub nth]; unfold ndim, dimsz; rewrite F, F', Sx, Sy; cbn [kshape_of length nth Nat.eqb Nat.leb]; rewrite Nat.eqb_refl, !shape_eqb_refl; cbn [andb guard bindo];
    do 2 eexists; (split; [reflexivity|]); (split; [reflexivity|]); (apply turned_intro; [reflexivity|reflexivity|exact HW|exact HD|]);
    intros b0 c h v Hb Hc Hh Hv; unfold permute; cbn [val length seq map index_of Nat.eqb nth removelast last app];
    match goal with |- ((_ - mean_n _ ?f) / sqrt (var_n _ ?f + _) * _ + _)%R = ((_ - mean_n _ ?g) / sqrt (var_n _ ?g + _) * _ + _)%R => destruct (Q b0 h v f g Hb Hh Hv (fun _ _ => eq_refl) (fun _ _ => eq_refl)) as [-> ->] end;
    rewrite (turned_val _ _ _ _ _ _ _ T) by auto; reflexivity.
Qed.
Lemma bidx_valid : forall s i, valid s i -> bidx s i = i.
Proof.
  induction s as [|a s IH]; intros [|j i] [L V]; cbn [length] in *; try discriminate; auto. cbn [bidx].
  rewrite IH. 2:{ split; [lia|]. intros d Hd. apply (V (S d)). lia. }
  specialize (V 0 ltac:(lia)). cbn [nth] in V. destruct (Nat.eqb_spec a 1); [subst; f_equal; lia|reflexivity].
Qed.
Lemma bshape_refl : forall s, bshape s s = Some s.
Proof. induction s; cbn; auto. rewrite IHs. cbn. rewrite Nat.eqb_refl. reflexivity. Qed.
Lemma badd_same : forall a b, shp a = shp b -> exists r, badd a b = Some r /\ shp r = shp a /\ forall i, valid (shp a) i -> val r i = (val a i + val b i)%R.
Proof.
  intros a b S. unfold badd. rewrite <- S, bshape_refl. cbn [bindo]. eexists. split; [reflexivity|]. split; [reflexivity|]. intros i V. cbn [val]. rewrite bidx_valid by auto. reflexivity.
Qed.
Lemma pos_sound : forall e, k = 0 \/ zonal (LPos e) -> sound (LPos e).
Proof.
  intros e Z t x y T u F. cbn [fit run] in *. apply guard_some in F. destruct F as [F Eu]. injection Eu as <-.
  pose proof (turned_shp _ _ _ T) as Sy. pose proof (proj1 T) as Sx; pose proof (proj1 (proj2 T)) as HW; pose proof (proj1 (proj2 (proj2 T))) as HD.
  assert (exists m, shp e = [1; k_ch t; g_nlat (k_g t); m] /\ (m = g_nlon (k_g t) \/ m = 1)) as (m & Se & Hm).
  { apply orb_prop in F. destruct F as [F|F]; apply shape_eqb_shp in F; eauto. }
  assert (BS : bshape (kshape_of B t) (shp e) = Some (kshape_of B t)).
  { rewrite Se. unfold kshape_of.
    assert (B3 : bshape [k_ch t; g_nlat (k_g t); g_nlon (k_g t)] [k_ch t; g_nlat (k_g t); m] = Some [k_ch t; g_nlat (k_g t); g_nlon (k_g t)]).
    { cbn [bshape]. rewrite !Nat.eqb_refl. cbn [bindo]. destruct Hm as [->| ->]. rewrite Nat.eqb_refl. reflexivity. destruct (Nat.eqb_spec (g_nlon (k_g t)) 1) as [E1|E1]; reflexivity. }
    change (bshape [B; k_ch t; g_nlat (k_g t); g_nlon (k_g t)] [1; k_ch t; g_nlat (k_g t); m]) with
      (do r <- bshape [k_ch t; g_nlat (k_g t); g_nlon (k_g t)] [k_ch t; g_nlat (k_g t); m]; if B =? 1 then Some (B :: r) else if B =? 1 then Some (1 :: r) else Some (B :: r)).
    rewrite B3. cbn [bindo]. destruct (B =? 1); reflexivity. }
  unfold badd. rewrite Sx, Sy, BS. cbn [bindo]. do 2 eexists. split; [reflexivity|]. split; [reflexivity|].
  apply turned_intro; auto. intros b0 c h v Hb Hc Hh Hv. cbn [val]. rewrite (bidx_valid (kshape_of B t) [b0; c; h; v]), (bidx_valid (kshape_of B t) [b0; c; h; src (g_nlon (k_g t)) v]) by (apply valid4_intro; auto using src_lt). rewrite (turned_val _ _ _ _ _ _ _ T) by auto. f_equal.
  rewrite Se. cbn [bidx]. rewrite Nat.eqb_refl.
  destruct (Nat.eqb_spec m 1) as [->|Nm]; [reflexivity|]. destruct Hm as [->|]; [|contradiction].
  destruct Z as [Z|Z]. rewrite src_zero by auto. reflexivity. apply Z; unfold dimsz; rewrite Se; cbn [nth]; auto using src_lt.
Qed.
Lemma add_sound : forall t x y t' x' y', turned t x y -> turned t' x' y' -> orel turned (kadd false t t') (badd x x') (badd y y').
Proof.
  intros t x y t' x' y' T T' u F. unfold kadd in F. apply guard_some in F. destruct F as [F Eu]. injection Eu as <-. apply andb_prop in F. destruct F as [F1 F2].
  apply Nat.eqb_eq in F1. apply sgrid in F2. destruct F2 as [F2 F3]. assert (T2 : turned t x' y') by (apply (turned_kind t'); auto). clear T'.
  pose proof (turned_shp _ _ _ T) as Sy. pose proof (turned_shp _ _ _ T2) as Sy'. assert (S0 := T2). destruct S0 as (Sx' & _). assert (S0 := T). destruct S0 as (Sx & HW & HD & _).
  destruct (badd_same x x') as (r & Er & Sr & Vr); [congruence|]. destruct (badd_same y y') as (r' & Er' & Sr' & Vr'); [congruence|].
  exists r, r'. split; [auto|]. split; [auto|]. apply turned_intro; try congruence. intros b c h v Hb Hc Hh Hv.
  rewrite Vr, Vr' by (rewrite ?Sx, ?Sy; apply valid4_intro; auto using src_lt).
  rewrite (turned_val _ _ _ _ _ _ _ T), (turned_val _ _ _ _ _ _ _ T2) by auto. reflexivity.
Qed.
Lemma cat_sound : forall lt lx ly, forall3 turned lt lx ly -> orel turned (kcat false lt) (torch_cat 1 lx) (torch_cat 1 ly).
Proof.
  intros lt lx ly H. induction H as [|t x y lt lx ly T H IH]; [apply orel_none|].
  intros u F. cbn [kcat] in F. apply guard_some in F. destruct F as [F Eu]. injection Eu as <-.
  pose proof (turned_shp _ _ _ T) as Sy. assert (S0 := T). destruct S0 as (Sx & HW & HD & _).
  destruct H as [|t2 x2 y2 lt lx ly T2 H].
  - cbn [torch_cat]. destruct (shape4 _ _ _ _ _ Sx) as (-> & _). destruct (shape4 _ _ _ _ _ Sy) as (-> & _). cbn [Nat.ltb Nat.leb]. exists x, y. split; [auto|]. split; [auto|].
    eapply turned_kind; [| | |exact T]; cbn [k_ch k_g map sum_list fold_right]; auto; lia.
  - cbn [forallb] in F. apply andb_prop in F. destruct F as [F1 F2]. apply sgrid in F1. destruct F1 as [G1 G2].
    assert (E2 : kcat false (t2 :: lt) = Some (mkK (sum_list (map k_ch (t2 :: lt))) (k_g t2))).
    { cbn [kcat]. replace (forallb _ lt) with true; [reflexivity|]. symmetry. apply forallb_forall. intros t3 I3. rewrite forallb_forall in F2. specialize (F2 t3 I3). cbv beta in F2. apply sgrid in F2. destruct F2 as [F2 F3].
      unfold same_grid. rewrite <- G1, <- G2, F2, F3, !Nat.eqb_refl. reflexivity. }
    destruct (IH _ E2) as (cx & cy & Ex & Ey & TC). pose proof (turned_shp _ _ _ TC) as Scy. assert (S0 := TC). destruct S0 as (Scx & _). unfold kshape_of in *. cbn [k_ch k_g] in *.
    change (torch_cat 1 (x :: x2 :: lx)) with (match torch_cat 1 (x2 :: lx) with Some b => if (1 <? ndim x) && shape_eqb (upd 1 0 (shp x)) (upd 1 0 (shp b)) then Some (cat2 1 x b) else None | None => None end).
    change (torch_cat 1 (y :: y2 :: ly)) with (match torch_cat 1 (y2 :: ly) with Some b => if (1 <? ndim y) && shape_eqb (upd 1 0 (shp y)) (upd 1 0 (shp b)) then Some (cat2 1 y b) else None | None => None end).
    rewrite Ex, Ey, Sx, Sy, Scx, Scy. destruct (shape4 _ _ _ _ _ Sx) as (-> & _). destruct (shape4 _ _ _ _ _ Sy) as (-> & _). cbn [upd]. rewrite G1, G2, shape_eqb_refl. cbn [Nat.ltb Nat.leb andb].
    do 2 eexists. split; [reflexivity|]. split; [reflexivity|]. apply turned_intro; cbn [k_ch k_g]; auto.
    + unfold kshape_of, cat2, dimsz. cbn [shp k_ch k_g]. rewrite Sx, Scx. reflexivity.
    + unfold kshape_of, cat2, dimsz. cbn [shp k_ch k_g]. rewrite Sy, Scy. reflexivity.
    + intros b c h v Hb Hc Hh Hv. unfold cat2. cbn [val nth upd]. destruct (shape4 _ _ _ _ _ Sx) as (_ & _ & -> & _). destruct (shape4 _ _ _ _ _ Sy) as (_ & _ & -> & _).
      change (sum_list (map k_ch (t :: t2 :: lt))) with (k_ch t + sum_list (map k_ch (t2 :: lt))) in Hc.
      destruct (Nat.ltb_spec c (k_ch t)); [apply (turned_val _ _ _ _ _ _ _ T); auto|].
      rewrite (turned_val _ _ _ _ _ _ _ TC) by (cbn [k_ch k_g]; try lia; congruence). cbn [k_g]. rewrite G2. reflexivity.
Qed.
End Rel.
