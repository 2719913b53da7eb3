(** Spectral layers and convolutions under rotations. *)
From Coq Require Import String List Arith Lia Bool Reals ZArith Lra.
From Coquelicot Require Import Coquelicot.
From Verif Require Import TensorModel TensorProofs BigSum FFTModel LegendreModel QuadModel SHTModel SHTSpec SHTValueProofs SHTBandProofs DistSpectralProofs DiscoModel DiscoSpec DiscoTensorProofs DiscoLayerProofs DiscoTransposeProofs AttnModel AttnLayerModel NetModel NetModels NetSpec NetParProofs NetLayerProofs.
Import ListNotations.
Local Open Scope list_scope.
Local Open Scope nat_scope.

Lemma mod0_eq : forall W n, 1 <= n -> W mod n = 0 -> W = n * (W / n).
Proof. intros. pose proof (Nat.div_mod W n ltac:(lia)). lia. Qed.
Lemma phase_turn : forall n k W m, 1 <= n -> 1 <= W -> W mod n = 0 -> phase W (shift n k W) m = phase n k m.
Proof.
  intros n k W m Hn HW HD. unfold phase. f_equal. f_equal. unfold shift. pose proof (mod0_eq W n Hn HD) as EW. set (q := W / n) in *.
  rewrite EW. rewrite !mult_INR. assert (INR n <> 0%R) by (apply not_0_INR; lia). assert (INR q <> 0%R) by (apply not_0_INR; nia). field. auto.
Qed.

Section Spec.
Variables n k B : nat.
Hypothesis Hn : 1 <= n.
Definition cturned (c L M : nat) (X Y : tensor C) : Prop := shp X = [B; c; L; M] /\ teq Y (phase_last n k X).
Lemma phase_last_W : forall W (X : tensor C), 1 <= W -> W mod n = 0 -> teq (phase_last W (shift n k W) X) (phase_last n k X).
Proof. intros W X HW HD. split; [reflexivity|]. intros i _. unfold phase_last. cbn [val]. rewrite phase_turn by auto. reflexivity. Qed.
Lemma cturned_val : forall c L M X Y b o l m, cturned c L M X Y -> b < B -> o < c -> l < L -> m < M -> val Y [b; o; l; m] = Cmult (phase n k m) (val X [b; o; l; m]).
Proof.
  intros c L M X Y b o l m (S & [T V]) Hb Ho Hl Hm. rewrite V. 2:{ rewrite T. cbn [shp phase_last]. rewrite S. apply valid4_intro; auto. }
  unfold phase_last. cbn [val]. unfold ndim. rewrite S. reflexivity.
Qed.
Lemma cturned_intro : forall c L M X Y, shp X = [B; c; L; M] -> shp Y = [B; c; L; M] ->
  (forall b o l m, b < B -> o < c -> l < L -> m < M -> val Y [b; o; l; m] = Cmult (phase n k m) (val X [b; o; l; m])) -> cturned c L M X Y.
Proof.
  intros c L M X Y SX SY V. split; [auto|]. split; [cbn; congruence|]. intros i Vi. rewrite SY in Vi. destruct (valid4 _ _ _ _ _ Vi) as (b & o & l & m & -> & ?&?&?&?).
  rewrite V by auto. unfold phase_last. cbn [val]. unfold ndim. rewrite SX. reflexivity.
Qed.
Lemma sht_turned : forall s t x y, wshape s (s_mmax s) (s_lmax s) (s_nlat s) -> s_nlat s = g_nlat (k_g t) -> s_nlon s = g_nlon (k_g t) -> turned n k B t x y ->
  exists X Y, real_sht s x = Some X /\ real_sht s y = Some Y /\ cturned (k_ch t) (s_lmax s) (s_mmax s) X Y.
Proof.
  intros s t x y WS E1 E2 (Sx & HW & HD & T). assert (S2 : shp x = [B; k_ch t] ++ [s_nlat s; s_nlon s]) by (rewrite E1, E2; exact Sx).
  destruct (real_sht_value s [B; k_ch t] x WS S2) as (X & EX & SX & _). rewrite <- E2 in *.
  destruct (real_sht_roll s [B; k_ch t] HW (shift n k (s_nlon s)) x X WS S2 EX) as (Z & EZ & TZ).
  destruct (real_sht_teq s [B; k_ch t] (roll_last (shift n k (s_nlon s)) x) y Z WS) as (Y & EY & TY); auto.
  exists X, Y. split; [auto|]. split; [auto|]. split; [exact SX|]. eapply teq_trans; [exact TY|]. eapply teq_trans; [exact TZ|]. apply phase_last_W; auto.
Qed.
Lemma isht_turned : forall i u c X Y, wshape i (s_mmax i) (s_nlat i) (s_lmax i) -> s_nlat i = g_nlat (k_g u) -> s_nlon i = g_nlon (k_g u) -> 1 <= s_nlon i -> s_nlon i mod n = 0 -> c = k_ch u ->
  cturned c (s_lmax i) (s_mmax i) X Y -> exists x y, inverse_sht i X = Some x /\ inverse_sht i Y = Some y /\ turned n k B u x y.
Proof.
  intros i u c X Y WS E1 E2 HW HD -> (SX & T). assert (S2 : shp X = [B; k_ch u] ++ [s_lmax i; s_mmax i]) by exact SX.
  destruct (inverse_sht_value i [B; k_ch u] X HW WS S2) as (x & Ex & Sx & _).
  destruct (inverse_sht_phase i [B; k_ch u] HW (shift n k (s_nlon i)) X x WS S2 Ex) as (z & Ez & Tz).
  assert (T2 : teq Y (phase_last (s_nlon i) (shift n k (s_nlon i)) X)). { eapply teq_trans; [exact T|]. apply teq_sym. apply phase_last_W; auto. }
  destruct (inverse_sht_teq i [B; k_ch u] (phase_last (s_nlon i) (shift n k (s_nlon i)) X) Y z HW WS) as (y & Ey & Ty); auto.
  exists x, y. split; [auto|]. split; [auto|]. rewrite E1, E2 in *. split; [exact Sx|]. split; [auto|]. split; [auto|]. eapply teq_trans; [exact Ty|exact Tz].
Qed.
(** what a pair of transforms between two grids must satisfy *)
Record tr_ready (gi go : gspec) (s i : sht) : Prop := mkTrR {
  tr_s1 : wshape s (s_mmax s) (s_lmax s) (s_nlat s); tr_i1 : wshape i (s_mmax i) (s_nlat i) (s_lmax i);
  tr_si : s_nlat s = g_nlat gi; tr_sj : s_nlon s = g_nlon gi; tr_ii : s_nlat i = g_nlat go; tr_ij : s_nlon i = g_nlon go;
  tr_l : s_lmax s = s_lmax i; tr_m : s_mmax s = s_mmax i; tr_w : 1 <= g_nlon go }.
Variable E : env.
Lemma lsht_sound : forall gi go s i, tr_ready gi go s i -> widths n (LSht gi go s i) -> sound n k B E (LSht gi go s i).
Proof.
  intros gi go s i [H1 H2 H3 H4 H5 H6 H7 H8 H9] [_ HD] t x y T u F. cbn [fit run] in *. apply guard_some in F. destruct F as [F Eu]. injection Eu as <-. apply sgrid in F. destruct F as [G1 G2].
  destruct (sht_turned s t x y) as (X & Y & -> & -> & TC); auto; try congruence. cbn [bindo].
  rewrite H7, H8 in TC. eapply isht_turned; eauto; cbn [k_g]; congruence.
Qed.
Definition contractible (op : optype) (w : tensor C) (co ci l m : nat) : Prop :=
  match op with OpDriscollHealy => shp w = [co; ci; l] | OpDiagonal => shp w = [co; ci; l; m] | _ => False end.
Lemma contract_turned : forall op w co ci l m X Y, contractible op w co ci l m -> cturned ci l m X Y ->
  exists X' Y', spec_contract op w X = Some X' /\ spec_contract op w Y = Some Y' /\ cturned co l m X' Y'.
Proof.
  intros op w co ci l m X Y CW TC. pose proof (proj1 TC) as SX. assert (SY : shp Y = [B; ci; l; m]) by (destruct TC as (_ & [T _]); rewrite T; exact SX).
  assert (DX : ndim X = 4 /\ dimsz X 0 = B /\ dimsz X 1 = ci /\ dimsz X 2 = l /\ dimsz X 3 = m) by (unfold ndim, dimsz; rewrite SX; auto).
  assert (DY : ndim Y = 4 /\ dimsz Y 0 = B /\ dimsz Y 1 = ci /\ dimsz Y 2 = l /\ dimsz Y 3 = m) by (unfold ndim, dimsz; rewrite SY; auto).
  destruct DY as (D0 & D1 & D2 & D3 & D4). destruct DX as (F0 & F1 & F2 & F3 & F4). unfold spec_contract. unfold contractible in CW.
  cbv zeta. rewrite D0, D1, D2, D3, D4, F0, F1, F2, F3, F4. cbn [Nat.eqb guard bindo].
  destruct op; try contradiction; unfold dimsz; rewrite CW; cbn [nth]; rewrite shape_eqb_refl; cbn [guard bindo]; do 2 eexists; (split; [reflexivity|]); (split; [reflexivity|]);
    apply cturned_intro; auto; intros b o l0 m0 Hb Ho Hl Hm; cbn [val nth].
  all: rewrite <- (bsum_scal_l CT); apply bsum_ext; intros c Hc; rewrite (cturned_val _ _ _ _ _ _ _ _ _ TC) by auto; rewrite Cmult_assoc; reflexivity.
Qed.
Definition bias4 (b : option (tensor R)) (co : nat) : Prop := match b with None => True | Some b => shp b = [1; co; 1; 1] end.
Lemma bias4_turned : forall b co t x y, bias4 (Some b) co -> k_ch t = co -> turned n k B t x y -> exists x' y', badd x b = Some x' /\ badd y b = Some y' /\ turned n k B t x' y'.
Proof.
  intros b co t x y Sb <- T. cbn in Sb. pose proof (turned_shp _ _ _ _ _ _ T) as Sy. pose proof (proj1 T) as Sx; pose proof (proj1 (proj2 T)) as HW; pose proof (proj1 (proj2 (proj2 T))) as HD.
  assert (BS : bshape (kshape_of B t) (shp b) = Some (kshape_of B t)).
  { rewrite Sb. unfold kshape_of. cbn [bshape]. destruct (g_nlon (k_g t) =? 1) eqn:E1; cbn [bindo]; destruct (g_nlat (k_g t) =? 1) eqn:E2; cbn [bindo]; rewrite ?Nat.eqb_refl; cbn [bindo]; destruct (B =? 1); reflexivity. }
  unfold badd. rewrite Sx, Sy, BS. cbn [bindo]. do 2 eexists. split; [reflexivity|]. split; [reflexivity|]. apply turned_intro; auto.
  intros b0 c h v Hb Hc Hh Hv. cbn [val]. rewrite (bidx_valid (kshape_of B t) [b0; c; h; v]), (bidx_valid (kshape_of B t) [b0; c; h; src n k (g_nlon (k_g t)) v]) by (apply valid4_intro; auto using src_lt).
  rewrite (turned_val _ _ _ _ _ _ _ _ _ _ T) by auto. f_equal. rewrite Sb. cbn [bidx Nat.eqb]. reflexivity.
Qed.
(** a spectral convolution whose weights fit *)
Record sc_ready (c : sconvx) : Prop := mkScR {
  sc_tr : tr_ready (sx_gi c) (sx_go c) (sx_f c) (sx_i c);
  sc_w : contractible (sx_op c) (sx_w c) (dimsz (sx_w c) 0) (dimsz (sx_w c) 1) (s_lmax (sx_i c)) (s_mmax (sx_i c));
  sc_b : bias4 (sx_b c) (dimsz (sx_w c) 0) }.
Lemma scale_res_shape : forall c, sc_ready c -> scale_residual c = negb (same_shape (sx_gi c) (sx_go c)).
Proof. intros c [[H1 H2 H3 H4 H5 H6 H7 H8 H9] _ _]. unfold scale_residual, same_shape. rewrite H3, H4, H5, H6. rewrite negb_andb. reflexivity. Qed.
Lemma sconvx_turned : forall c t x y, sc_ready c -> g_nlon (sx_go c) mod n = 0 -> same_grid false (sx_gi c) (k_g t) = true -> k_ch t = dimsz (sx_w c) 1 -> turned n k B t x y ->
  exists u v r s, sconvx_forward c x = Some (u, r) /\ sconvx_forward c y = Some (v, s) /\ turned n k B (mkK (dimsz (sx_w c) 0) (sx_go c)) u v /\
    turned n k B (if same_shape (sx_gi c) (sx_go c) then t else mkK (k_ch t) (sx_go c)) r s.
Proof.
  intros c t x y HC HD G EC T. pose proof (scale_res_shape c HC) as SR. destruct HC as [[H1 H2 H3 H4 H5 H6 H7 H8 H9] CW CB]. apply sgrid in G. destruct G as [G1 G2].
  unfold sconvx_forward. destruct (sht_turned (sx_f c) t x y) as (X & Y & -> & -> & TC); auto; try congruence. cbn [bindo]. rewrite H7, H8 in TC. rewrite SR.
  assert (R0 : exists r s, (if negb (same_shape (sx_gi c) (sx_go c)) then inverse_sht (sx_i c) X else Some x) = Some r /\ (if negb (same_shape (sx_gi c) (sx_go c)) then inverse_sht (sx_i c) Y else Some y) = Some s /\
     turned n k B (if same_shape (sx_gi c) (sx_go c) then t else mkK (k_ch t) (sx_go c)) r s).
  { destruct (same_shape (sx_gi c) (sx_go c)); cbn [negb]. eauto. eapply (isht_turned _ (mkK (k_ch t) (sx_go c))); eauto; cbn [k_g]; congruence. }
  destruct R0 as (r & s & -> & -> & TR). cbn [bindo]. rewrite EC in TC.
  destruct (contract_turned _ _ _ _ _ _ _ _ CW TC) as (X' & Y' & -> & -> & TC'). cbn [bindo].
  destruct (isht_turned (sx_i c) (mkK (dimsz (sx_w c) 0) (sx_go c)) (dimsz (sx_w c) 0) X' Y') as (u & v & -> & -> & TU); auto; cbn [k_g]; try congruence. cbn [bindo].
  destruct (sx_b c) as [b|].
  - destruct (bias4_turned b _ (mkK (dimsz (sx_w c) 0) (sx_go c)) _ _ CB eq_refl TU) as (u' & v' & -> & -> & TU'). cbn [bindo]. exists u', v', r, s. auto.
  - cbn [bindo]. exists u, v, r, s. auto.
Qed.
Lemma lspec_sound : forall c, sc_ready c -> widths n (LSpec c) -> sound n k B E (LSpec c).
Proof.
  intros c HC [_ HD] t x y T u F. cbn [fit run] in *. apply guard_some in F. destruct F as [F Eu]. injection Eu as <-. apply andb_prop in F. destruct F as [F EC]. apply Nat.eqb_eq in EC.
  destruct (sconvx_turned c t x y HC HD F EC T) as (a & b & r & s & -> & -> & TU & _). cbn [bindo fst]. eauto.
Qed.
Lemma lspecres_sound : forall c, sc_ready c -> widths n (LSpecRes c) -> sound n k B E (LSpecRes c).
Proof.
  intros c HC [_ HD] t x y T u F. cbn [fit run] in *. apply guard_some in F. destruct F as [F Eu]. injection Eu as <-. apply andb_prop in F. destruct F as [F EC]. apply Nat.eqb_eq in EC.
  destruct (sconvx_turned c t x y HC HD F EC T) as (a & b & r & s & -> & -> & _ & TU). cbn [bindo snd]. eauto.
Qed.

(** ** Convolutions *)
Lemma conv_spec_ext : forall K G Og Cg hi wi Ho Wo es weight bias x x' Bx, psi_wf K Ho (hi * wi) es -> shp weight = [G * Og; Cg; K] -> 1 <= wi -> shp x = [Bx; G * Cg; hi; wi] -> teq x x' ->
  teq (conv_spec K Og Cg Ho Wo es weight bias x) (conv_spec K Og Cg Ho Wo es weight bias x').
Proof.
  intros K G Og Cg hi wi Ho Wo es weight bias x x' Bx WF SW HW Sx [TS TV]. assert (Sx' : shp x' = [Bx; G * Cg; hi; wi]) by congruence.
  split. { unfold conv_spec. cbn [shp]. unfold dimsz. rewrite Sx, Sx'. reflexivity. }
  intros i Vi. unfold conv_spec in Vi. cbn [shp] in Vi. unfold dimsz in Vi. rewrite Sx, SW in Vi. cbn [nth] in Vi. destruct (valid4 _ _ _ _ _ Vi) as (b & o & t & q & -> & Hb & Ho' & Ht & Hq).
  unfold conv_spec. cbn [val nth]. unfold conv_value, dimsz. rewrite Sx, Sx'. cbn [nth]. f_equal. apply bsum_ext. intros c Hc. apply bsum_ext. intros kk Hk. f_equal.
  unfold disco_sum. apply lsum_ext. intros e He. destruct (_ && _)%bool; [|reflexivity]. f_equal. destruct (WF e He) as (_ & _ & Hcol).
  apply TV. rewrite Sx. apply valid4_intro; auto.
  - assert (o / Og < G) by (apply Nat.div_lt_upper_bound; nia). nia.
  - apply Nat.div_lt_upper_bound; nia.
  - apply Nat.mod_upper_bound. lia.
Qed.
Lemma tconv_spec_ext : forall K G Og Cg hi wi Ho Wo es weight bias x x' Bx, psi_wf K hi (Ho * Wo) es -> shp weight = [G * Og; Cg; K] -> shp x = [Bx; G * Cg; hi; wi] -> teq x x' ->
  teq (tconv_spec Og Cg Ho Wo es weight bias x) (tconv_spec Og Cg Ho Wo es weight bias x').
Proof.
  intros K G Og Cg hi wi Ho Wo es weight bias x x' Bx WF SW Sx [TS TV]. assert (Sx' : shp x' = [Bx; G * Cg; hi; wi]) by congruence.
  split. { unfold tconv_spec. cbn [shp]. unfold dimsz. rewrite Sx, Sx'. reflexivity. }
  intros i Vi. unfold tconv_spec in Vi. cbn [shp] in Vi. unfold dimsz in Vi. rewrite Sx, SW in Vi. cbn [nth] in Vi. destruct (valid4 _ _ _ _ _ Vi) as (b & o & t & q & -> & Hb & Ho' & Ht & Hq).
  unfold tconv_spec. cbn [val nth]. unfold tconv_value, dimsz. rewrite Sx, Sx'. cbn [nth]. f_equal. unfold disco_adjoint_sum. apply lsum_ext. intros e He. destruct (_ =? t); [|reflexivity]. f_equal.
  apply bsum_ext. intros p Hp. destruct (_ =? q); [|reflexivity]. apply bsum_ext. intros c Hc. f_equal. destruct (WF e He) as (_ & Hrow & _).
  apply TV. rewrite Sx. apply valid4_intro; auto. assert (o / Og < G) by (apply Nat.div_lt_upper_bound; nia). nia.
Qed.
Definition disco_built (gi go : gspec) (d : disco_layer) : Prop :=
  exists K G Og Cg weight bias es junk, layer_ok K (g_nlat gi) (g_nlon gi) (g_nlat go) (g_nlon go) G Og Cg weight bias es /\
    conv_s2_init junk (g_nlat gi) (g_nlon gi) (g_nlat go) (g_nlon go) G K weight bias es = Some d.
Definition tdisco_built (gi go : gspec) (d : disco_layer) : Prop :=
  exists K G Og Cg weight bias es junk, layer_ok K (g_nlat go) (g_nlon go) (g_nlat gi) (g_nlon gi) G Og Cg weight bias es /\
    conv_transpose_s2_init junk (g_nlat gi) (g_nlon gi) (g_nlat go) (g_nlon go) G K weight bias es = Some d.
Lemma div_shift : forall W W', 1 <= W' -> W mod W' = 0 -> W mod n = 0 -> W' mod n = 0 -> shift n k W = W / W' * shift n k W'.
Proof.
  intros W W' HW D Dn Dn'. unfold shift. pose proof (mod0_eq W W' HW D) as E1. pose proof (mod0_eq W n Hn Dn) as E2. pose proof (mod0_eq W' n Hn Dn') as E3.
  set (p := W / W') in *. set (a := W / n) in *. set (b := W' / n) in *. assert (a = p * b) by nia. nia.
Qed.
Lemma ldisco_sound : forall gi go d, disco_built gi go d -> widths n (LDisco gi go d) -> sound n k B E (LDisco gi go d).
Proof.
  intros gi go d (K & G & Og & Cg & weight & bias & es & junk & L & I) [HDi HDo] t x y T u F. cbn [fit run] in *. apply guard_some in F. destruct F as [F Eu]. injection Eu as <-. apply andb_prop in F. destruct F as [F EC]. apply Nat.eqb_eq in EC.
  apply sgrid in F. destruct F as [G1 G2].
  assert (ID : d_groups d = G /\ d_weight d = weight). { unfold conv_s2_init in I. destruct (guard _); [|discriminate]. cbn [bindo] in I. destruct (preprocess_psi _ _ _ _); [|discriminate]. cbn [bindo] in I. injection I as <-. auto. }
  destruct ID as [I1 I2]. rewrite I1, I2 in EC. rewrite I2. pose proof (lo_weight _ _ _ _ _ _ _ _ _ _ _ L) as SW. unfold dimsz in *. rewrite SW in *. cbn [nth] in *.
  pose proof (turned_shp _ _ _ _ _ _ T) as Sy0. destruct T as (Sx0 & HW & HD & T).
  assert (Sx : shp x = [B; G * Cg; g_nlat gi; g_nlon gi]) by (rewrite Sx0; unfold kshape_of; congruence). assert (Sy : shp y = [B; G * Cg; g_nlat gi; g_nlon gi]) by (rewrite Sy0; unfold kshape_of; congruence). rewrite <- G2 in *.
  rewrite (div_shift (g_nlon gi) (g_nlon go)) in T by (auto; apply L).
  destruct (conv_opt_roll junk (e_junkr E) _ _ _ _ _ _ _ _ _ _ _ _ x B (shift n k (g_nlon go)) L I Sx) as (z & z' & Ez & Ez' & Tz).
  destruct (conv_opt_spec junk (e_junkr E) _ _ _ _ _ _ _ _ _ _ _ _ y B L I Sy) as (w & Ew & Tw).
  destruct (conv_opt_spec junk (e_junkr E) _ _ _ _ _ _ _ _ _ _ _ _ x B L I Sx) as (z2 & Ez2 & Tz2).
  destruct (conv_opt_spec junk (e_junkr E) _ _ _ _ _ _ _ _ _ _ _ _ (roll_last (g_nlon gi / g_nlon go * shift n k (g_nlon go)) x) B L I Sx) as (z3 & Ez3 & Tz3).
  assert (z2 = z) by congruence. assert (z3 = z') by congruence. subst z2 z3. exists z, w. split; [auto|]. split; [auto|]. unfold turned. cbn [k_g k_ch]. split; [|split; [apply L|split; [auto|]]].
  - destruct Tz2 as [-> _]. unfold conv_spec, dimsz. cbn [shp]. rewrite Sx, SW. reflexivity.
  - eapply teq_trans; [exact Tw|]. eapply teq_trans; [eapply (conv_spec_ext K G Og Cg); [apply L|exact SW|apply L|exact Sy|exact T]|]. eapply teq_trans; [apply teq_sym; exact Tz3|exact Tz].
Qed.
Lemma ltdisco_sound : forall gi go d, tdisco_built gi go d -> widths n (LTDisco gi go d) -> sound n k B E (LTDisco gi go d).
Proof.
  intros gi go d (K & G & Og & Cg & weight & bias & es & junk & L & I) [HDi HDo] t x y T u F. cbn [fit run] in *. apply guard_some in F. destruct F as [F Eu]. injection Eu as <-. apply andb_prop in F. destruct F as [F EC]. apply Nat.eqb_eq in EC.
  apply sgrid in F. destruct F as [G1 G2].
  assert (ID : d_groups d = G /\ d_weight d = weight). { unfold conv_transpose_s2_init in I. destruct (guard _); [|discriminate]. cbn [bindo] in I. destruct (preprocess_psi _ _ _ _); [|discriminate]. cbn [bindo] in I. injection I as <-. auto. }
  destruct ID as [I1 I2]. rewrite I1, I2 in EC. rewrite I2. pose proof (lo_weight _ _ _ _ _ _ _ _ _ _ _ L) as SW. unfold dimsz in *. rewrite SW in *. cbn [nth] in *.
  pose proof (turned_shp _ _ _ _ _ _ T) as Sy0. destruct T as (Sx0 & HW & HD & T).
  assert (Sx : shp x = [B; G * Cg; g_nlat gi; g_nlon gi]) by (rewrite Sx0; unfold kshape_of; congruence). assert (Sy : shp y = [B; G * Cg; g_nlat gi; g_nlon gi]) by (rewrite Sy0; unfold kshape_of; congruence). rewrite <- G2 in *.
  destruct (tconv_opt_roll junk _ _ _ _ _ _ _ _ _ _ _ _ x B (shift n k (g_nlon gi)) L I Sx) as (z & z' & Ez & Ez' & Tz).
  rewrite <- (div_shift (g_nlon go) (g_nlon gi)) in Tz by (auto; apply L).
  destruct (tconv_opt_spec junk _ _ _ _ _ _ _ _ _ _ _ _ y B L I Sy) as (w & Ew & Tw).
  destruct (tconv_opt_spec junk _ _ _ _ _ _ _ _ _ _ _ _ x B L I Sx) as (z2 & Ez2 & Tz2).
  destruct (tconv_opt_spec junk _ _ _ _ _ _ _ _ _ _ _ _ (roll_last (shift n k (g_nlon gi)) x) B L I Sx) as (z3 & Ez3 & Tz3).
  assert (z2 = z) by congruence. assert (z3 = z') by congruence. subst z2 z3. exists z, w. split; [auto|]. split; [auto|]. unfold turned. cbn [k_g k_ch]. split; [|split; [apply L|split; [auto|]]].
  - destruct Tz2 as [-> _]. unfold tconv_spec, dimsz. cbn [shp]. rewrite Sx, SW. reflexivity.
  - eapply teq_trans; [exact Tw|]. eapply teq_trans; [eapply (tconv_spec_ext K G Og Cg); [apply L|exact SW|exact Sy|exact T]|]. eapply teq_trans; [apply teq_sym; exact Tz3|exact Tz].
Qed.
End Spec.
