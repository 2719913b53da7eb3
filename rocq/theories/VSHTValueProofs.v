(** Closed forms of the vector transforms, linearity and rotation. *)
From Coq Require Import List Arith Lia Bool Reals Lra.
From Coquelicot Require Import Coquelicot.
From Verif Require Import TensorModel TensorProofs BigSum FFTModel FFTProofs TruncModel LegendreModel QuadModel SHTModel SHTSpec DistSHTProofs SHTValueProofs.
Import ListNotations.
Local Open Scope R_scope.

Lemma app3 : forall (L : list nat) c p q, L ++ [c; p; q] = (L ++ [c]) ++ [p; q].
Proof. intros. now rewrite <- app_assoc. Qed.
Lemma len1 : forall (L : list nat) c, length (L ++ [c]) = S (length L).
Proof. intros. rewrite app_length. simpl. lia. Qed.
Lemma nthC : forall (L : list nat) c p q, nth (length L) (L ++ [c; p; q]) 0%nat = c.
Proof. intros. rewrite app_nth2, Nat.sub_diag; auto. Qed.
Lemma updC : forall (L : list nat) c p q v, upd (length L) v (L ++ [c; p; q]) = L ++ [v; p; q].
Proof. intros. rewrite <- (Nat.add_0_r (length L)). now rewrite upd_app_r. Qed.
Lemma ndimABC : forall X (x : tensor X) lead c a b, shp x = lead ++ [c; a; b]%nat ->
  (ndim x = length lead + 3 /\ dimsz x (ndim x - 3) = c /\ dimsz x (ndim x - 2) = a /\ dimsz x (ndim x - 1) = b)%nat.
Proof.
  intros X x lead c a b E. unfold ndim, dimsz. rewrite E, app_length. cbn [length]. split; auto.
  replace (length lead + 3 - 3)%nat with (length lead + 0)%nat by lia. replace (length lead + 3 - 2)%nat with (length lead + 1)%nat by lia.
  replace (length lead + 3 - 1)%nat with (length lead + 2)%nat by lia. rewrite !nth_app_r. auto.
Qed.

(** The complex form of the two contractions. *)
Definition vcomb (w0 w1 : R) (c : nat) (x0 x1 : C) : C :=
  if (c =? 0)%nat then Cplus (Cmult (RtoC w0) x0) (Cmult Ci (Cmult (RtoC w1) x1))
  else Cminus (Cmult Ci (Cmult (RtoC w1) x0)) (Cmult (RtoC w0) x1).

Lemma veccontract_value : forall w0 w1 mm a b lead (x : tensor C), shp w0 = [mm; a; b]%nat -> shp w1 = [mm; a; b]%nat -> shp x = lead ++ [2; b; mm]%nat ->
  exists y, veccontract w0 w1 (ndim x - 3) (ndim x - 2) (ndim x - 1) x = Some y /\ shp y = lead ++ [2; a; mm]%nat /\
  forall L c p m, length L = length lead ->
    val y (L ++ [c; p; m]%nat) = csum b (fun k => vcomb (val w0 [m; p; k]%nat) (val w1 [m; p; k]%nat) c
      (val x (L ++ [0; k; m]%nat)) (val x (L ++ [1; k; m]%nat))).
Proof.
  intros w0 w1 mm a b lead x S0 S1 Sx. destruct (ndimABC _ x lead _ _ _ Sx) as (N & D3 & D2 & D1).
  unfold veccontract, einsum_ok. rewrite D2, D1. unfold ndim at 1 2, dimsz at 1 2 3 4 5 6. rewrite S0, S1. cbn [length nth]. rewrite !Nat.eqb_refl. cbn [andb].
  eexists. split; [reflexivity|]. cbn [shp val]. rewrite N.
  replace (length lead + 3 - 3)%nat with (length lead) by lia. replace (length lead + 3 - 2)%nat with (length lead + 1)%nat by lia.
  replace (length lead + 3 - 1)%nat with (length lead + 2)%nat by lia. unfold dimsz. rewrite S0, S1. cbn [nth]. split.
  - rewrite Sx. now rewrite upd_app_r.
  - intros L c p m HL. rewrite <- HL, nthC, !nth_app_r. cbn [nth].
    assert (U : forall c' k, upd (length L) c' (upd (length L + 1) k (L ++ [c; p; m]%nat)) = L ++ [c'; k; m]%nat).
    { intros. rewrite upd_app_r. cbn [upd]. now rewrite updC. }
    unfold vcomb. destruct (Nat.eqb_spec c 0).
    + apply C_ext; rewrite ?csum_Re, ?csum_Im; unfold Re at 1, Im at 1; cbn [fst snd].
      * rewrite <- (bsum_sub RT). apply bsum_ext. intros k Hk. rewrite !U. unfold Re, Im, Ci, Cmult, Cplus, RtoC. cbn [fst snd]. ring.
      * rewrite <- (bsum_plus RT). apply bsum_ext. intros k Hk. rewrite !U. unfold Re, Im, Ci, Cmult, Cplus, RtoC. cbn [fst snd]. ring.
    + apply C_ext; rewrite ?csum_Re, ?csum_Im; unfold Re at 1, Im at 1; cbn [fst snd].
      * rewrite <- (bsum_opp RT), <- (bsum_sub RT). apply bsum_ext. intros k Hk. rewrite !U. unfold Re, Im, Ci, Cmult, Cminus, Cplus, Copp, RtoC. cbn [fst snd]. ring.
      * rewrite <- (bsum_sub RT). apply bsum_ext. intros k Hk. rewrite !U. unfold Re, Im, Ci, Cmult, Cminus, Cplus, Copp, RtoC. cbn [fst snd]. ring.
Qed.

Definition vshape (s : sht) (a b c : nat) : Prop := shp (s_weights s) = [2; a; b; c]%nat.
Definition vanalyse (w : tensor R) (h n : nat) (f : nat -> nat -> nat -> R) (c l m : nat) : C :=
  csum h (fun k => vcomb (val w [0; m; l; k]%nat) (val w [1; m; l; k]%nat) c (fourier n (f 0%nat k) m) (fourier n (f 1%nat k) m)).
Definition vsynthesise (w : tensor R) (ll mm n : nat) (c : nat -> nat -> nat -> C) (d k j : nat) : R :=
  synth n mm (fun m => csum ll (fun l => vcomb (val w [0; m; k; l]%nat) (val w [1; m; k; l]%nat) d (c 0%nat l m) (c 1%nat l m))) j.

Lemma vector_sht_value : forall s lead (x : tensor R),
  vshape s (s_mmax s) (s_lmax s) (s_nlat s) -> shp x = lead ++ [2%nat; s_nlat s; s_nlon s] ->
  exists y, vector_sht s x = Some y /\ shp y = lead ++ [2%nat; s_lmax s; s_mmax s] /\
  forall L c l m, length L = length lead -> (m < s_mmax s)%nat ->
    val y (L ++ [c; l; m]%nat) = vanalyse (s_weights s) (s_nlat s) (s_nlon s) (fun d k j => val x (L ++ [d; k; j]%nat)) c l m.
Proof.
  intros s lead x Sw Sx. destruct (ndimABC _ x lead _ _ _ Sx) as (N & D3 & D2 & D1).
  unfold vector_sht, vec_check. rewrite D1, D2, D3, !Nat.eqb_refl. rewrite (proj2 (Nat.leb_le 3 (ndim x))) by lia. cbn [andb guard bindo].
  rewrite app3 in Sx. destruct (rfft_dim_value (s_mmax s) (lead ++ [2%nat]) _ _ x Sx) as [SF VF]. rewrite <- app3 in SF.
  destruct (veccontract_value (select0 0 (s_weights s)) (select0 1 (s_weights s)) (s_mmax s) (s_lmax s) (s_nlat s) lead (rfft_dim (s_mmax s) (ndim x - 1) x))
    as (y & E & SY & VY); auto; try (unfold select0; cbn [shp]; rewrite Sw; reflexivity).
  assert (ND : ndim (rfft_dim (s_mmax s) (ndim x - 1) x) = ndim x) by (unfold ndim at 1; rewrite SF, N, app_length; simpl; lia).
  rewrite ND in E. exists y. split; auto. split; auto. intros L c l m HL Hm. rewrite VY by auto. apply bsum_ext. intros k Hk.
  rewrite !app3, !VF by (rewrite ?len1; auto). unfold select0. cbn [val]. f_equal; apply fourier_ext; intros; now rewrite <- app3.
Qed.
Lemma inverse_vector_sht_value : forall s lead (x : tensor C), (1 <= s_nlon s)%nat ->
  vshape s (s_mmax s) (s_nlat s) (s_lmax s) -> shp x = lead ++ [2%nat; s_lmax s; s_mmax s] ->
  exists y, inverse_vector_sht s x = Some y /\ shp y = lead ++ [2%nat; s_nlat s; s_nlon s] /\
  forall L d k j, length L = length lead ->
    val y (L ++ [d; k; j]%nat) = vsynthesise (s_weights s) (s_lmax s) (s_mmax s) (s_nlon s) (fun c l m => val x (L ++ [c; l; m]%nat)) d k j.
Proof.
  intros s lead x Hn Sw Sx. destruct (ndimABC _ x lead _ _ _ Sx) as (N & D3 & D2 & D1).
  unfold inverse_vector_sht, vec_check. rewrite D1, D2, D3, !Nat.eqb_refl. rewrite (proj2 (Nat.leb_le 3 (ndim x))) by lia. cbn [andb guard bindo].
  destruct (veccontract_value (select0 0 (s_weights s)) (select0 1 (s_weights s)) (s_mmax s) (s_nlat s) (s_lmax s) lead x)
    as (y & E & SY & VY); auto; try (unfold select0; cbn [shp]; rewrite Sw; reflexivity). rewrite E. cbn [bindo].
  eexists. split; [reflexivity|]. destruct (ndimABC _ y lead _ _ _ SY) as (N' & D3' & D2' & D1').
  unfold irfft_dim. cbn [shp val along]. rewrite N, <- N', D1'. rewrite N'. replace (length lead + 3 - 1)%nat with (length lead + 2)%nat by lia. split.
  - rewrite SY. now rewrite upd_app_r.
  - intros L d k j HL. rewrite irfft_synth by auto. rewrite <- HL, nth_app_r. unfold vsynthesise. apply synth_ext. intros m Hm.
    rewrite upd_app_r. cbn [upd]. now apply VY.
Qed.

Lemma vcomb_lin : forall w0 w1 c a b x0 x1 y0 y1,
  vcomb w0 w1 c (Cplus (Cmult (RtoC a) x0) (Cmult (RtoC b) y0)) (Cplus (Cmult (RtoC a) x1) (Cmult (RtoC b) y1)) =
  Cplus (Cmult (RtoC a) (vcomb w0 w1 c x0 x1)) (Cmult (RtoC b) (vcomb w0 w1 c y0 y1)).
Proof. intros. unfold vcomb. destruct (c =? 0)%nat; ring. Qed.
Lemma vcomb_scal : forall w0 w1 c z x0 x1, vcomb w0 w1 c (Cmult z x0) (Cmult z x1) = Cmult z (vcomb w0 w1 c x0 x1).
Proof. intros. unfold vcomb. destruct (c =? 0)%nat; ring. Qed.
Lemma vanalyse_lin : forall w h n a b f g c l m,
  vanalyse w h n (fun d k j => a * f d k j + b * g d k j) c l m = Cplus (Cmult (RtoC a) (vanalyse w h n f c l m)) (Cmult (RtoC b) (vanalyse w h n g c l m)).
Proof.
  intros. unfold vanalyse. rewrite <- !(bsum_scal_l CT), <- (bsum_plus CT). apply bsum_ext. intros. rewrite !fourier_lin. apply vcomb_lin.
Qed.
Lemma vanalyse_ext : forall w h n f g c l m, (forall d k j, (k < h)%nat -> (j < n)%nat -> f d k j = g d k j) -> vanalyse w h n f c l m = vanalyse w h n g c l m.
Proof. intros. apply bsum_ext. intros. f_equal; apply fourier_ext; auto. Qed.
Lemma vanalyse_roll : forall w h n s f c l m, (1 <= n)%nat -> vanalyse w h n (fun d k => rollv n s (f d k)) c l m = Cmult (phase n s m) (vanalyse w h n f c l m).
Proof. intros. unfold vanalyse. rewrite <- (bsum_scal_l CT). apply bsum_ext. intros. rewrite !fourier_roll by auto. apply vcomb_scal. Qed.
Lemma vsynthesise_lin : forall w ll mm n a b c e d k j,
  vsynthesise w ll mm n (fun q l m => Cplus (Cmult (RtoC a) (c q l m)) (Cmult (RtoC b) (e q l m))) d k j =
  a * vsynthesise w ll mm n c d k j + b * vsynthesise w ll mm n e d k j.
Proof.
  intros. unfold vsynthesise. rewrite <- synth_lin. apply synth_ext. intros. rewrite <- !(bsum_scal_l CT), <- (bsum_plus CT).
  apply bsum_ext. intros. apply vcomb_lin.
Qed.
Lemma vsynthesise_phase : forall w ll mm n s c d k j, (1 <= n)%nat ->
  vsynthesise w ll mm n (fun q l m => Cmult (phase n s m) (c q l m)) d k j = rollv n s (vsynthesise w ll mm n c d k) j.
Proof.
  intros. unfold vsynthesise. rewrite <- synth_phase by auto. apply synth_ext. intros. rewrite <- (bsum_scal_l CT).
  apply bsum_ext. intros. apply vcomb_scal.
Qed.

Lemma teq_last3 : forall X lead c a b (y z : tensor X), shp y = lead ++ [c; a; b]%nat -> shp z = lead ++ [c; a; b]%nat ->
  (forall L d p q, length L = length lead -> (d < c)%nat -> (p < a)%nat -> (q < b)%nat -> val y (L ++ [d; p; q]%nat) = val z (L ++ [d; p; q]%nat)) -> teq y z.
Proof.
  intros X lead c a b y z Sy Sz H. split; [congruence|]. intros i V. rewrite Sy, app3 in V.
  destruct (valid_last2 _ a b i V) as (L & p & q & -> & HL & VL & A & B). rewrite len1 in HL.
  destruct L as [|e L0] using rev_ind; [discriminate|]. rewrite len1 in HL. rewrite <- app3. apply H; auto; try lia.
  assert (length L0 = length lead) by lia. apply valid_app in VL; auto. destruct VL as [_ VL]. apply valid_cons in VL. tauto.
Qed.

Section Vector.
Variables (s : sht) (lead : list nat).
Hypothesis Hn : (1 <= s_nlon s)%nat.

Lemma vector_sht_linear : forall a b x y X Y, vshape s (s_mmax s) (s_lmax s) (s_nlat s) ->
  shp x = lead ++ [2%nat; s_nlat s; s_nlon s] -> shp y = shp x -> vector_sht s x = Some X -> vector_sht s y = Some Y ->
  exists Z, vector_sht s (lin_r a b x y) = Some Z /\ teq Z (lin_c a b X Y).
Proof.
  intros a b x y X Y W Sx Sy EX EY.
  destruct (vector_sht_value s lead x W Sx) as (X' & EX' & SX & VX). rewrite EX in EX'. inversion EX'; subst X'.
  destruct (vector_sht_value s lead y W ltac:(congruence)) as (Y' & EY' & SY & VY). rewrite EY in EY'. inversion EY'; subst Y'.
  destruct (vector_sht_value s lead (lin_r a b x y) W Sx) as (Z & EZ & SZ & VZ). exists Z. split; auto.
  eapply teq_last3; eauto. intros L d p q HL Hd Hp Hq. rewrite VZ by auto. unfold lin_c. cbn [val]. rewrite VX, VY by auto. apply vanalyse_lin.
Qed.
Lemma vector_sht_roll : forall k x X, vshape s (s_mmax s) (s_lmax s) (s_nlat s) ->
  shp x = lead ++ [2%nat; s_nlat s; s_nlon s] -> vector_sht s x = Some X ->
  exists Z, vector_sht s (roll_last k x) = Some Z /\ teq Z (phase_last (s_nlon s) k X).
Proof.
  intros k x X W Sx EX.
  destruct (vector_sht_value s lead x W Sx) as (X' & EX' & SX & VX). rewrite EX in EX'. inversion EX'; subst X'.
  destruct (vector_sht_value s lead (roll_last k x) W Sx) as (Z & EZ & SZ & VZ). exists Z. split; auto.
  eapply teq_last3; eauto. intros L d p q HL Hd Hp Hq. rewrite VZ by auto.
  rewrite (app3 L). erewrite phase_last_value; [|rewrite SX; apply app3|rewrite !len1; auto]. rewrite <- app3, VX by auto.
  rewrite <- vanalyse_roll by auto. apply vanalyse_ext. intros e a j Ha Hj. rewrite app3.
  erewrite roll_last_value; [|rewrite Sx; apply app3|rewrite !len1; auto]. apply rollv_ext; auto. intros. now rewrite <- app3.
Qed.
Lemma inverse_vector_sht_linear : forall a b x y X Y, vshape s (s_mmax s) (s_nlat s) (s_lmax s) ->
  shp x = lead ++ [2%nat; s_lmax s; s_mmax s] -> shp y = shp x -> inverse_vector_sht s x = Some X -> inverse_vector_sht s y = Some Y ->
  exists Z, inverse_vector_sht s (lin_c a b x y) = Some Z /\ teq Z (lin_r a b X Y).
Proof.
  intros a b x y X Y W Sx Sy EX EY.
  destruct (inverse_vector_sht_value s lead x Hn W Sx) as (X' & EX' & SX & VX). rewrite EX in EX'. inversion EX'; subst X'.
  destruct (inverse_vector_sht_value s lead y Hn W ltac:(congruence)) as (Y' & EY' & SY & VY). rewrite EY in EY'. inversion EY'; subst Y'.
  destruct (inverse_vector_sht_value s lead (lin_c a b x y) Hn W Sx) as (Z & EZ & SZ & VZ). exists Z. split; auto.
  eapply teq_last3; eauto. intros L d p q HL Hd Hp Hq. rewrite VZ by auto. unfold lin_r. cbn [val]. rewrite VX, VY by auto. apply vsynthesise_lin.
Qed.
Lemma inverse_vector_sht_phase : forall k x X, vshape s (s_mmax s) (s_nlat s) (s_lmax s) ->
  shp x = lead ++ [2%nat; s_lmax s; s_mmax s] -> inverse_vector_sht s x = Some X ->
  exists Z, inverse_vector_sht s (phase_last (s_nlon s) k x) = Some Z /\ teq Z (roll_last k X).
Proof.
  intros k x X W Sx EX.
  destruct (inverse_vector_sht_value s lead x Hn W Sx) as (X' & EX' & SX & VX). rewrite EX in EX'. inversion EX'; subst X'.
  destruct (inverse_vector_sht_value s lead (phase_last (s_nlon s) k x) Hn W Sx) as (Z & EZ & SZ & VZ). exists Z. split; auto.
  eapply teq_last3; eauto. intros L d p q HL Hd Hp Hq. rewrite VZ by auto.
  rewrite (app3 L). erewrite roll_last_value; [|rewrite SX; apply app3|rewrite !len1; auto].
  transitivity (rollv (s_nlon s) k (vsynthesise (s_weights s) (s_lmax s) (s_mmax s) (s_nlon s) (fun c l m => val x (L ++ [c; l; m]%nat)) d p) q).
  - rewrite <- vsynthesise_phase by auto. unfold vsynthesise. apply synth_ext. intros. apply bsum_ext. intros. f_equal;
    (rewrite !app3; eapply phase_last_value; [rewrite Sx; apply app3|rewrite !len1; auto]).
  - apply rollv_ext; auto. intros. symmetry. rewrite <- app3. now apply VX.
Qed.
End Vector.

Lemma vinit_weights : forall gl h w lm mm g nm cs s, vector_sht_init gl h w lm mm g nm cs = Some s -> vshape s (s_mmax s) (s_lmax s) (s_nlat s).
Proof.
  intros. unfold vector_sht_init in H. destruct (sht_rule gl h g); [|discriminate]. cbn [bindo] in H.
  destruct (truncate_sht h w lm mm g) as [[a b]|]; [|discriminate]. cbn [bindo] in H. inversion H. reflexivity.
Qed.
Lemma inv_vinit_weights : forall gl h w lm mm g nm cs s, inverse_vector_sht_init gl h w lm mm g nm cs = Some s -> vshape s (s_mmax s) (s_nlat s) (s_lmax s).
Proof.
  intros. unfold inverse_vector_sht_init in H. destruct (sht_rule gl h g); [|discriminate]. cbn [bindo] in H.
  destruct (truncate_sht h w lm mm g) as [[a b]|]; [|discriminate]. cbn [bindo] in H. inversion H. reflexivity.
Qed.
