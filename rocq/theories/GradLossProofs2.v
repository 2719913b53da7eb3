(** The two-dimensional gradients are one-dimensional derivatives along rows and columns. *)
From Coq Require Import List Arith Lia Bool Reals Lra.
From Coquelicot Require Import Coquelicot.
From Verif Require Import TensorModel TensorProofs BigSum TruncModel QuadModel FFTModel FFTProofs SHTSpec SHTValueProofs LossModel LossSpec LossProofs LossProofs2 GradLossModel GradLossSpec GradLossProofs.
Import ListNotations.
Local Open Scope R_scope.

Definition dsum (sg : R) (h w : nat) (X : nat -> nat -> C) (p q : nat) : C :=
  csum h (fun k => csum w (fun j => Cmult (X k j) (Cmult (cis (sg * (2 * PI * INR k * INR p / INR h))) (cis (sg * (2 * PI * INR j * INR q / INR w)))))).
Lemma dft2_value : forall sg x lead h w, shp x = lead ++ [h; w] -> (1 <= h)%nat -> (1 <= w)%nat -> exists y, dft2 sg x = Some y /\ shp y = lead ++ [h; w] /\
  forall L p q, length L = length lead -> val y (L ++ [p; q]) = dsum sg h w (fun k j => val x (L ++ [k; j])) p q.
Proof.
  intros sg x lead h w Sx Hh Hw. destruct (ndimAB _ x lead h w Sx) as (N2 & N1 & D2 & D1). unfold dft2. rewrite D2, D1.
  assert (2 <= ndim x)%nat by (unfold ndim; rewrite Sx, app_length; cbn; lia). unfold guard. rewrite (proj2 (Nat.leb_le 2 (ndim x))) by auto. cbn [bindo].
  rewrite (proj2 (Nat.leb_le 1 h)), (proj2 (Nat.leb_le 1 w)) by auto. cbn [andb bindo]. eexists. split; [reflexivity|]. split; auto. intros L p q HL. cbn [val]. unfold dsum. rewrite N2, N1.
  apply bsum_ext. intros k Hk. apply bsum_ext. intros j Hj. rewrite <- HL, nthA, nthB. now rewrite firstn_app, Nat.sub_diag, firstn_all, app_nil_r.
Qed.
Lemma dsum_ext : forall sg h w X Y p q, (forall k j, (k < h)%nat -> (j < w)%nat -> X k j = Y k j) -> dsum sg h w X p q = dsum sg h w Y p q.
Proof. intros. unfold dsum. apply bsum_ext. intros k Hk. apply bsum_ext. intros j Hj. now rewrite H. Qed.
Lemma gradient_raw : forall mesh x lead h w, shp mesh = [h; w] -> shp x = lead ++ [h; w] -> (1 <= h)%nat -> (1 <= w)%nat ->
  exists z, fourier_gradient mesh x = Some z /\ shp z = lead ++ [h; w] /\ forall L k j, valid lead L -> (k < h)%nat -> (j < w)%nat ->
  val z (L ++ [k; j]) = Re (Cmult (RtoC (/ (INR h * INR w))) (dsum 1 h w (fun p q => Cmult (Cmult Ci (RtoC (val mesh [p; q]))) (dsum (-1) h w (fun k j => RtoC (val x (L ++ [k; j]))) p q)) k j)).
Proof.
  intros mesh x lead h w Sm Sx Hh Hw. unfold fourier_gradient, fft2. destruct (dft2_value (-1) (map_t RtoC x) lead h w Sx Hh Hw) as (X & -> & SX & VX). cbn [bindo].
  unfold bmap2. cbn [map_t shp val]. rewrite Sm, SX. rewrite bshape_comm, bshape_tiled. cbn [bindo]. unfold ifft2.
  match goal with |- context [dft2 1 ?Y] => destruct (dft2_value 1 Y lead h w eq_refl Hh Hw) as (z & -> & Sz & Vz); destruct (ndimAB _ Y lead h w eq_refl) as (_ & _ & D2 & D1) end. cbn [bindo]. rewrite D2, D1.
  eexists. split; [reflexivity|]. split; auto. intros L k j HL Hk Hj. cbn [map_t val]. rewrite Vz by (now apply valid_len). cbn [val]. do 2 f_equal. apply dsum_ext. intros p q Hp Hq.
  rewrite bidx_tiled by auto. rewrite bidx_valid by (now apply valid_2'). rewrite VX by (now apply valid_len). reflexivity.
Qed.
Lemma orth_collapse : forall h y k, (k < h)%nat -> csum h (fun p => Cmult (csum h (fun k' => Cmult (y k') (cis (-1 * (2 * PI * INR k' * INR p / INR h))))) (cis (1 * (2 * PI * INR p * INR k / INR h)))) = Cmult (RtoC (INR h)) (y k).
Proof.
  intros h y k Hk. rewrite (bsum_ext h _ (fun p => csum h (fun k' => Cmult (y k') (Cmult (cis (2 * PI * INR p * INR k / INR h)) (cis (- (2 * PI * INR p * INR k' / INR h))))))).
  2:{ intros p Hp. rewrite <- (bsum_scal_r CT). apply bsum_ext. intros k' Hk'. replace (-1 * (2 * PI * INR k' * INR p / INR h)) with (- (2 * PI * INR p * INR k' / INR h)) by (unfold Rdiv; ring). rewrite Rmult_1_l. ring. }
  rewrite (bsum_swap CT). rewrite (bsum_ext h _ (fun k' => if (k' =? k)%nat then Cmult (y k') (RtoC (INR h)) else RtoC 0)).
  2:{ intros l' Hl'. rewrite (bsum_scal_l CT), dft_orth by auto. rewrite (Nat.eqb_sym k l'). destruct (l' =? k)%nat; ring. }
  rewrite (bsum_delta_f CT h k) by auto. ring.
Qed.
Lemma along_columns : forall h w (c : nat -> R) (X : nat -> nat -> C) k j, (1 <= w)%nat -> (k < h)%nat -> (j < w)%nat ->
  Cmult (RtoC (/ (INR h * INR w))) (dsum 1 h w (fun p q => Cmult (Cmult Ci (RtoC (c q))) (dsum (-1) h w X p q)) k j) = Dc w c (X k) j.
Proof.
  intros h w c X k j Hw Hk Hj. assert (NH : INR h <> 0) by (apply not_0_INR; lia). assert (NW : INR w <> 0) by (apply not_0_INR; lia).
  assert (E : dsum 1 h w (fun p q => Cmult (Cmult Ci (RtoC (c q))) (dsum (-1) h w X p q)) k j =
    csum w (fun q => Cmult (Cmult (Cmult Ci (RtoC (c q))) (cis (2 * PI * INR j * INR q / INR w))) (csum h (fun p => Cmult (csum h (fun k' => Cmult (hat w (X k') q) (cis (-1 * (2 * PI * INR k' * INR p / INR h))))) (cis (1 * (2 * PI * INR p * INR k / INR h))))))).
  { unfold dsum at 1. rewrite (bsum_swap CT). apply bsum_ext. intros q Hq. rewrite <- (bsum_scal_l CT). apply bsum_ext. intros p Hp.
    assert (E : dsum (-1) h w X p q = csum h (fun k' => Cmult (hat w (X k') q) (cis (-1 * (2 * PI * INR k' * INR p / INR h))))).
    { unfold dsum, hat. apply bsum_ext. intros k' Hk'. rewrite <- (bsum_scal_r CT). apply bsum_ext. intros j' Hj'. replace (-1 * (2 * PI * INR j' * INR q / INR w)) with (- (2 * PI * INR j' * INR q / INR w)) by ring. ring. }
    rewrite E. replace (1 * (2 * PI * INR q * INR j / INR w)) with (2 * PI * INR j * INR q / INR w) by (unfold Rdiv; ring). ring. }
  rewrite E. unfold Dc. rewrite (bsum_ext w _ (fun q => Cmult (RtoC (INR h)) (Cmult (Cmult (Cmult Ci (RtoC (c q))) (hat w (X k) q)) (cis (2 * PI * INR j * INR q / INR w))))).
  2:{ intros q Hq. rewrite orth_collapse by auto. ring. }
  rewrite (bsum_scal_l CT), Cmult_assoc. f_equal. rewrite <- RtoC_mult. f_equal. field. auto.
Qed.
Lemma dsum_transpose : forall sg h w X p q, dsum sg h w X p q = dsum sg w h (fun j k => X k j) q p.
Proof. intros. unfold dsum. rewrite (bsum_swap CT). apply bsum_ext. intros j Hj. apply bsum_ext. intros k Hk. ring. Qed.
Lemma along_rows : forall h w (c : nat -> R) (X : nat -> nat -> C) k j, (1 <= h)%nat -> (k < h)%nat -> (j < w)%nat ->
  Cmult (RtoC (/ (INR h * INR w))) (dsum 1 h w (fun p q => Cmult (Cmult Ci (RtoC (c p))) (dsum (-1) h w X p q)) k j) = Dc h c (fun k => X k j) k.
Proof.
  intros h w c X k j Hh Hk Hj. rewrite dsum_transpose, (Rmult_comm (INR h)). rewrite (dsum_ext 1 w h _ (fun q p => Cmult (Cmult Ci (RtoC (c p))) (dsum (-1) w h (fun j k => X k j) q p))).
  2:{ intros q p Hq Hp. now rewrite dsum_transpose. }
  now rewrite (along_columns w h c (fun j k => X k j)) by auto.
Qed.
Lemma Dc_scale : forall n z j, Dc n (fun q => 2 * sf n q) z j = Cmult (RtoC 2) (Dc n (sf n) z j).
Proof. intros. unfold Dc. rewrite Cmult_assoc, (Cmult_comm (RtoC 2)), <- Cmult_assoc. f_equal. rewrite <- (bsum_scal_l CT). apply bsum_ext. intros q Hq. rewrite RtoC_mult. ring. Qed.

(** ** the constructed object *)
Section O.
Variables (gl : nat -> rule) (nlat nlon : nat) (g : grid) (q kp kt : tensor R).
Hypothesis I : gradient_loss_init gl nlat nlon g = Some (q, kp, kt).
Lemma init_facts : loss_weights gl nlat nlon g true = Some q /\ (1 <= nlat)%nat /\ (1 <= nlon)%nat /\ shp kp = [nlat; nlon] /\ shp kt = [nlat; nlon] /\
  forall a b, val kp [a; b] = sf nlon b /\ val kt [a; b] = 2 * sf nlat a.
Proof.
  unfold gradient_loss_init in I. destruct (loss_weights gl nlat nlon g true) as [q'|]; [|discriminate]. cbn [bindo] in I. unfold guard in I.
  destruct (Nat.leb_spec 1 nlat); [|discriminate]. destruct (Nat.leb_spec 1 nlon); [|discriminate]. cbn [andb bindo meshgrid_ij] in I. injection I as -> <- <-.
  assert (NH : INR nlat <> 0) by (apply not_0_INR; lia). assert (NW : INR nlon <> 0) by (apply not_0_INR; lia). pose proof PI_neq0.
  split; auto. split; auto. split; auto. split; auto. split; auto. intros a b. cbn [val fftfreq nth]. fold (sf nlon b) (sf nlat a). split. replace (INR nlon * (2 * PI / (2 * PI * INR nlon))) with 1 by (field; auto). apply Rdiv_1.
  replace (INR nlat * (PI / (2 * PI * INR nlat))) with (/ 2) by (field; auto). change (sf nlat a / / 2 = 2 * sf nlat a). field.
Qed.
Lemma gradient_phi : forall x lead, shp x = lead ++ [nlat; nlon] -> exists z, fourier_gradient kp x = Some z /\ shp z = lead ++ [nlat; nlon] /\
  forall L k j, valid lead L -> (k < nlat)%nat -> (j < nlon)%nat -> val z (L ++ [k; j]) = rd nlon (fun j => val x (L ++ [k; j])) j.
Proof.
  intros x lead Sx. destruct init_facts as (_ & H1 & H2 & Sp & _ & V). destruct (gradient_raw kp x lead nlat nlon Sp Sx H1 H2) as (z & E & Sz & Vz). exists z. split; auto. split; auto. intros L k j HL Hk Hj.
  rewrite Vz by auto. unfold rd. f_equal. rewrite <- (along_columns nlat nlon (sf nlon) (fun k j => RtoC (val x (L ++ [k; j]))) k j) by auto. f_equal. apply dsum_ext. intros a b Ha Hb. now rewrite (proj1 (V a b)).
Qed.
Lemma gradient_theta : forall x lead, shp x = lead ++ [nlat; nlon] -> exists z, fourier_gradient kt x = Some z /\ shp z = lead ++ [nlat; nlon] /\
  forall L k j, valid lead L -> (k < nlat)%nat -> (j < nlon)%nat -> val z (L ++ [k; j]) = 2 * rd nlat (fun k => val x (L ++ [k; j])) k.
Proof.
  intros x lead Sx. destruct init_facts as (_ & H1 & H2 & _ & St & V). destruct (gradient_raw kt x lead nlat nlon St Sx H1 H2) as (z & E & Sz & Vz). exists z. split; auto. split; auto. intros L k j HL Hk Hj.
  rewrite Vz by auto. unfold rd. rewrite <- Rscal. f_equal. rewrite <- (Dc_scale nlat). rewrite <- (along_rows nlat nlon (fun a => 2 * sf nlat a) (fun k j => RtoC (val x (L ++ [k; j]))) k j) by auto. f_equal. apply dsum_ext. intros a b Ha Hb. now rewrite (proj2 (V a b)).
Qed.
End O.
