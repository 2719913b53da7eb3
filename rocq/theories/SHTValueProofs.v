(** Closed forms of the transforms, linearity and rotation. *)
From Coq Require Import List Arith Lia Bool Reals Lra.
From Coquelicot Require Import Coquelicot.
From Verif Require Import TensorModel TensorProofs BigSum FFTModel FFTProofs TruncModel LegendreModel QuadModel SHTModel SHTSpec DistSHTProofs.
Import ListNotations.
Local Open Scope nat_scope.

Lemma nthA : forall (L : list nat) a b, nth (length L) (L ++ [a; b]) 0 = a.
Proof. intros. rewrite app_nth2, Nat.sub_diag; auto. Qed.
Lemma nthB : forall (L : list nat) a b, nth (S (length L)) (L ++ [a; b]) 0 = b.
Proof. intros. rewrite app_nth2 by lia. replace (S (length L) - length L) with 1 by lia. auto. Qed.
Lemma updA : forall (L : list nat) a b v, upd (length L) v (L ++ [a; b]) = L ++ [v; b].
Proof. intros. rewrite <- (Nat.add_0_r (length L)). now rewrite upd_app_r. Qed.
Lemma updB : forall (L : list nat) a b v, upd (S (length L)) v (L ++ [a; b]) = L ++ [a; v].
Proof. intros. rewrite <- (Nat.add_1_r (length L)). now rewrite upd_app_r. Qed.
Lemma lenAB : forall (L : list nat) a b, length (L ++ [a; b]) = S (S (length L)).
Proof. intros. rewrite app_length. simpl. lia. Qed.
Lemma ndimAB : forall X (x : tensor X) lead a b, shp x = lead ++ [a; b] ->
  ndim x - 2 = length lead /\ ndim x - 1 = S (length lead) /\ dimsz x (ndim x - 2) = a /\ dimsz x (ndim x - 1) = b.
Proof.
  intros X x lead a b E. unfold ndim, dimsz. rewrite E, lenAB.
  replace (S (S (length lead)) - 2) with (length lead) by lia. replace (S (S (length lead)) - 1) with (S (length lead)) by lia.
  rewrite nthA, nthB. auto.
Qed.
Lemma valid_last2 : forall lead a b i, valid (lead ++ [a; b]) i -> exists L p q, i = L ++ [p; q] /\ length L = length lead /\ valid lead L /\ p < a /\ q < b.
Proof.
  intros lead a b i V. assert (LN := valid_len _ _ V). rewrite lenAB in LN.
  rewrite <- (firstn_skipn (length lead) i) in V |- *. assert (LF : length (firstn (length lead) i) = length lead) by (rewrite firstn_length; lia).
  apply valid_app in V; auto. destruct V as [V1 V2].
  assert (LS : length (skipn (length lead) i) = 2) by (rewrite skipn_length; lia).
  destruct (skipn (length lead) i) as [|p [|q [|]]]; simpl in LS; try lia.
  apply valid_cons in V2. destruct V2 as [A V2]. apply valid_cons in V2. destruct V2 as [B _].
  exists (firstn (length lead) i), p, q. auto.
Qed.

Local Open Scope R_scope.

(** Longitude analysis *)
Lemma fourier_eq : forall mm n f m, (m < mm)%nat -> Cmult (RtoC (2 * PI)) (snd (rfft NForward (Some mm) n f) m) = fourier n f m.
Proof.
  intros mm n f m Hm. rewrite rfft_bins by auto. unfold fourier.
  destruct (Nat.ltb_spec m (n / 2 + 1)); destruct (Nat.leb_spec m (n / 2)); try lia.
  - unfold torch_rfft, fwd_scale. rewrite Cmult_assoc, <- RtoC_mult. reflexivity.
  - ring.
Qed.
Lemma fourier_lin : forall n a b f g m,
  fourier n (fun j => a * f j + b * g j) m = Cplus (Cmult (RtoC a) (fourier n f m)) (Cmult (RtoC b) (fourier n g m)).
Proof.
  intros. unfold fourier. destruct (m <=? n / 2)%nat; [|ring].
  rewrite (bsum_ext n _ (fun j => Cplus (Cmult (RtoC a) (Cmult (RtoC (f j)) (cis (- (2 * PI * INR j * INR m / INR n)))))
      (Cmult (RtoC b) (Cmult (RtoC (g j)) (cis (- (2 * PI * INR j * INR m / INR n))))))).
  2:{ intros. rewrite RtoC_plus, !RtoC_mult. ring. }
  rewrite (bsum_plus CT), !(bsum_scal_l CT). ring.
Qed.
Lemma fourier_ext : forall n f g m, (forall j, (j < n)%nat -> f j = g j) -> fourier n f m = fourier n g m.
Proof.
  intros. unfold fourier. destruct (m <=? n / 2)%nat; auto. f_equal. apply bsum_ext. intros. now rewrite H.
Qed.
Lemma INR_nz : forall n, (1 <= n)%nat -> INR n <> 0.
Proof. intros. apply not_0_INR. lia. Qed.
(** A multiple of n in the index does not change the exponential. *)
Lemma cis_mod : forall n j m, (1 <= n)%nat -> cis (2 * PI * INR (j mod n) * INR m / INR n) = cis (2 * PI * INR j * INR m / INR n).
Proof.
  intros n j m Hn. assert (N := INR_nz n Hn). rewrite (Nat.div_mod j n) at 2 by lia.
  rewrite plus_INR, mult_INR. rewrite <- (cis_period _ (j / n * m)), mult_INR. f_equal. field. auto.
Qed.
Lemma cis_mod_neg : forall n j m, (1 <= n)%nat -> cis (- (2 * PI * INR (j mod n) * INR m / INR n)) = cis (- (2 * PI * INR j * INR m / INR n)).
Proof. intros. rewrite <- !cis_conj. now rewrite cis_mod. Qed.
Lemma roll_cancel : forall n s j, (1 <= n)%nat -> ((j + s) mod n + (n - s mod n)) mod n = j mod n.
Proof.
  intros n s j H. assert (s mod n < n)%nat by (apply Nat.mod_upper_bound; lia).
  rewrite Nat.add_mod_idemp_l by lia. rewrite (Nat.div_mod s n) at 1 by lia.
  replace (j + (n * (s / n) + s mod n) + (n - s mod n))%nat with (j + (s / n + 1) * n)%nat by nia.
  now rewrite Nat.mod_add by lia.
Qed.
Lemma fourier_roll : forall n s f m, (1 <= n)%nat -> fourier n (rollv n s f) m = Cmult (phase n s m) (fourier n f m).
Proof.
  intros n s f m Hn. assert (N := INR_nz n Hn). unfold fourier. destruct (m <=? n / 2)%nat; [|ring].
  rewrite <- (bsum_rot CT n s (fun j => Cmult (RtoC (rollv n s f j)) (cis (- (2 * PI * INR j * INR m / INR n))))).
  rewrite (bsum_ext n _ (fun j => Cmult (phase n s m) (Cmult (RtoC (f j)) (cis (- (2 * PI * INR j * INR m / INR n)))))).
  2:{ intros j Hj. unfold rollv. rewrite roll_cancel, (Nat.mod_small j n) by lia. rewrite cis_mod_neg by auto. rewrite plus_INR.
      replace (- (2 * PI * (INR j + INR s) * INR m / INR n)) with (- (2 * PI * INR j * INR m / INR n) + - (2 * PI * INR s * INR m / INR n)) by (field; auto).
      rewrite cis_add. unfold phase. ring. }
  rewrite (bsum_scal_l CT). ring.
Qed.

(** Longitude synthesis *)
Lemma irfft_synth : forall n sz c j, (1 <= n)%nat -> irfft NForward (Some n) sz c j = synth n sz c j.
Proof.
  intros n sz c j Hn. assert (N := INR_nz n Hn). unfold irfft, irfft_with, irfft_n, torch_irfft, inv_scale. rewrite Rmult_1_l.
  set (c' := fun k => (Re (c k), Im (c k) * imag_scale sz n k)).
  set (g := fun k => if (k <? sz)%nat then c' k else RtoC 0).
  set (r := fun k => Re (Cmult (g k) (cis (2 * PI * INR j * INR k / INR n)))).
  assert (D := Nat.div_mod n 2 ltac:(lia)). assert (DM := Nat.mod_upper_bound n 2 ltac:(lia)).
  rewrite csum_Re.
  replace n with ((n / 2 + 1) + (n - (n / 2 + 1)))%nat at 1 by lia. rewrite (bsum_split RT).
  rewrite (bsum_ext (n / 2 + 1) _ r).
  2:{ intros k Hk. unfold hermitian. fold g. destruct (Nat.leb_spec k (n / 2)); [|lia]. reflexivity. }
  rewrite (bsum_ext (n - (n / 2 + 1)) _ (fun i => r (S (n - (n / 2 + 1) - 1 - i)))).
  2:{ intros i Hi. unfold hermitian. fold g. destruct (Nat.leb_spec (n / 2 + 1 + i) (n / 2)); [lia|].
      replace (n - (n / 2 + 1 + i))%nat with (S (n - (n / 2 + 1) - 1 - i)) by lia. set (q := S (n - (n / 2 + 1) - 1 - i)).
      assert (Q : (n / 2 + 1 + i = n - q)%nat) by (unfold q; lia). rewrite Q. unfold r.
      rewrite minus_INR by (unfold q; lia).
      replace (2 * PI * INR j * (INR n - INR q) / INR n) with (- (2 * PI * INR j * INR q / INR n) + 2 * INR j * PI) by (field; auto).
      rewrite cis_period, <- cis_conj, <- Cmult_conj. reflexivity. }
  rewrite <- (bsum_rev RT (n - (n / 2 + 1)) (fun i => r (S i))).
  (* second sum as a sum over the same range *)
  assert (S2 : rsum (n - (n / 2 + 1)) (fun i => r (S i)) =
               rsum (n / 2 + 1) (fun k => if ((k =? 0) || (2 * k =? n))%nat%bool then 0 else r k)).
  { rewrite Nat.add_1_r, (bsum_S_l RT). cbn [Nat.eqb orb]. rewrite Rplus_0_l.
    destruct (Nat.eq_dec (n mod 2) 0) as [e|e].
    - replace (n / 2)%nat with ((n - S (n / 2)) + 1)%nat at 2 by lia. rewrite (bsum_split RT). cbn [bsum_].
      rewrite (proj2 (Nat.eqb_eq (2 * S (n - S (n / 2) + 0)) n)) by lia. cbn [orb Nat.eqb]. rewrite !Rplus_0_r.
      apply bsum_ext. intros i Hi. destruct (Nat.eqb_spec (2 * S i) n); [lia|]. auto.
    - replace (n - S (n / 2))%nat with (n / 2)%nat by lia. apply bsum_ext. intros i Hi. destruct (Nat.eqb_spec (2 * S i) n); [lia|]. auto. }
  rewrite S2, <- (bsum_plus RT).
  rewrite (bsum_ext (n / 2 + 1) _ (fun k => mirror n k * r k)).
  2:{ intros k Hk. unfold mirror. destruct ((k =? 0) || (2 * k =? n))%nat%bool; ring. }
  (* change of range *)
  assert (R0 : forall k, (sz <= k)%nat -> r k = 0).
  { intros k Hk. unfold r, g. destruct (Nat.ltb_spec k sz); [lia|]. rewrite Cmult_0_l. reflexivity. }
  assert (R1 : forall k, (k <= n / 2)%nat -> (k < sz)%nat -> r k = Re (Cmult (c k) (cis (2 * PI * INR j * INR k / INR n)))).
  { intros k Hk Hs. unfold r, g. destruct (Nat.ltb_spec k sz); [|lia]. unfold c', cis, Cmult, Re, Im. cbn [fst snd].
    unfold imag_scale. destruct (Nat.eqb_spec k 0).
    - subst k. simpl INR. replace (2 * PI * INR j * 0 / INR n) with 0 by (field; auto). rewrite sin_0. ring.
    - destruct ((n mod 2 =? 0) && (n / 2 <? sz))%nat%bool eqn:B; [|ring]. apply andb_prop in B. destruct B as [B _]. apply Nat.eqb_eq in B.
      destruct (Nat.eqb_spec k (n / 2)); [|ring]. assert (NK : (n = 2 * k)%nat) by lia.
      assert (KN : INR k <> 0) by (apply not_0_INR; auto).
      replace (2 * PI * INR j * INR k / INR n) with (INR j * PI).
      2:{ rewrite NK, mult_INR. simpl (INR 2). field. auto. }
      assert (SZ : sin (INR j * PI) = 0). { rewrite INR_IZR_INZ. apply sin_eq_0_1. exists (Z.of_nat j). reflexivity. }
      rewrite SZ. ring. }
  unfold synth. destruct (Nat.le_gt_cases sz (n / 2 + 1)).
  - replace (n / 2 + 1)%nat with (sz + (n / 2 + 1 - sz))%nat by lia. rewrite (bsum_split RT).
    rewrite (bsum_zero' RT (n / 2 + 1 - sz)), Rplus_0_r. 2:{ intros. rewrite R0 by lia. ring. }
    apply bsum_ext. intros k Hk. destruct (Nat.leb_spec k (n / 2)); [|lia]. now rewrite R1.
  - replace sz with (n / 2 + 1 + (sz - (n / 2 + 1)))%nat at 1 by lia. rewrite (bsum_split RT (n / 2 + 1) (sz - (n / 2 + 1))).
    rewrite (bsum_zero' RT (sz - (n / 2 + 1))), Rplus_0_r.
    2:{ intros. destruct (Nat.leb_spec (n / 2 + 1 + i) (n / 2)); [lia|]. auto. }
    apply bsum_ext. intros k Hk. destruct (Nat.leb_spec k (n / 2)); [|lia]. rewrite R1 by lia. auto.
Qed.
Lemma synth_ext : forall n sz c d j, (forall m, (m < sz)%nat -> c m = d m) -> synth n sz c j = synth n sz d j.
Proof. intros. apply bsum_ext. intros. rewrite H by auto. auto. Qed.
Lemma synth_lin : forall n sz a b c d j,
  synth n sz (fun m => Cplus (Cmult (RtoC a) (c m)) (Cmult (RtoC b) (d m))) j = a * synth n sz c j + b * synth n sz d j.
Proof.
  intros. unfold synth. rewrite <- !(bsum_scal_l RT), <- (bsum_plus RT). apply bsum_ext. intros m Hm.
  destruct (m <=? n / 2)%nat; [|ring]. unfold Cmult, Cplus, RtoC, Re. cbn [fst snd]. ring.
Qed.
Lemma synth_phase : forall n sz s c j, (1 <= n)%nat -> synth n sz (fun m => Cmult (phase n s m) (c m)) j = rollv n s (synth n sz c) j.
Proof.
  intros n sz s c j Hn. assert (N := INR_nz n Hn). unfold rollv, synth. apply bsum_ext. intros m Hm.
  destruct (m <=? n / 2)%nat; auto. f_equal. f_equal. rewrite cis_mod by auto.
  assert (s mod n < n)%nat by (apply Nat.mod_upper_bound; lia).
  rewrite plus_INR, minus_INR by lia.
  replace (2 * PI * (INR j + (INR n - INR (s mod n))) * INR m / INR n) with
    (2 * PI * INR j * INR m / INR n + - (2 * PI * INR (s mod n) * INR m / INR n) + 2 * INR m * PI) by (field; auto).
  rewrite cis_period, cis_add, cis_mod_neg by auto. unfold phase. ring.
Qed.

(** The contraction over latitudes / degrees on one line. *)
Lemma rsum_pair : forall n (w : nat -> R) (v : nat -> C),
  (rsum n (fun k => Re (v k) * w k), rsum n (fun k => Im (v k) * w k)) = csum n (fun k => Cmult (RtoC (w k)) (v k)).
Proof.
  intros. apply C_ext; rewrite ?csum_Re, ?csum_Im; unfold Re, Im; cbn [fst snd]; apply bsum_ext; intros;
  unfold Cmult, RtoC; cbn [fst snd]; ring.
Qed.
Definition wshape (s : sht) (a b c : nat) : Prop := shp (s_weights s) = [a; b; c].

Lemma legcontract_value : forall w mm a b lead (x : tensor C), shp w = [mm; a; b]%nat -> shp x = lead ++ [b; mm]%nat ->
  exists y, legcontract w (ndim x - 2) (ndim x - 1) x = Some y /\ shp y = lead ++ [a; mm]%nat /\
  forall L p m, length L = length lead ->
    val y (L ++ [p; m]%nat) = csum b (fun k => Cmult (RtoC (val w [m; p; k]%nat)) (val x (L ++ [k; m]%nat))).
Proof.
  intros w mm a b lead x Sw Sx. destruct (ndimAB _ x lead b mm Sx) as (N2 & N1 & D2 & D1).
  unfold legcontract, einsum_ok. rewrite D2, D1. unfold ndim at 1, dimsz at 1 2. rewrite Sw. cbn [length nth]. rewrite !Nat.eqb_refl. cbn [andb].
  eexists. split; [reflexivity|]. split.
  - cbn [shp along]. unfold dimsz. rewrite Sw, Sx, N2. cbn [nth]. apply updA.
  - intros L p m HL. cbn [val along]. rewrite rsum_pair. unfold dimsz. rewrite Sw. cbn [nth]. apply bsum_ext. intros k Hk.
    rewrite N2, N1, <- HL, nthA, nthB, updA. reflexivity.
Qed.

(** Analysis and synthesis formulas for one field. *)
Definition analyse (w : tensor R) (h n : nat) (f : nat -> nat -> R) (l m : nat) : C :=
  csum h (fun k => Cmult (RtoC (val w [m; l; k]%nat)) (fourier n (f k) m)).
Definition synthesise (w : tensor R) (ll mm n : nat) (c : nat -> nat -> C) (k j : nat) : R :=
  synth n mm (fun m => csum ll (fun l => Cmult (RtoC (val w [m; k; l]%nat)) (c l m))) j.

Lemma rfft_dim_value : forall mm lead h n (x : tensor R), shp x = lead ++ [h; n]%nat ->
  shp (rfft_dim mm (ndim x - 1) x) = lead ++ [h; mm]%nat /\
  forall L k m, length L = length lead -> (m < mm)%nat ->
    val (rfft_dim mm (ndim x - 1) x) (L ++ [k; m]%nat) = fourier n (fun j => val x (L ++ [k; j]%nat)) m.
Proof.
  intros mm lead h n x Sx. destruct (ndimAB _ x lead h n Sx) as (N2 & N1 & D2 & D1).
  rewrite rfft_dim_eq. cbn [shp val along]. rewrite D1. split.
  - rewrite Sx, N1. apply updB.
  - intros L k m HL Hm. rewrite N1, <- HL, nthB. rewrite <- (fourier_eq mm) by auto. f_equal.
    apply rfft_ext. intros j Hj. now rewrite updB.
Qed.

Lemma real_sht_value : forall s lead (x : tensor R),
  wshape s (s_mmax s) (s_lmax s) (s_nlat s) -> shp x = lead ++ [s_nlat s; s_nlon s] ->
  exists y, real_sht s x = Some y /\ shp y = lead ++ [s_lmax s; s_mmax s] /\
  forall L l m, length L = length lead -> (m < s_mmax s)%nat ->
    val y (L ++ [l; m]%nat) = analyse (s_weights s) (s_nlat s) (s_nlon s) (fun k j => val x (L ++ [k; j]%nat)) l m.
Proof.
  intros s lead x Sw Sx. destruct (ndimAB _ x lead _ _ Sx) as (N2 & N1 & D2 & D1).
  unfold real_sht, sht_check. rewrite D1, D2, !Nat.eqb_refl. unfold ndim at 1. rewrite Sx, lenAB. cbn [Nat.leb andb guard bindo].
  destruct (rfft_dim_value (s_mmax s) lead _ _ x Sx) as [SF VF].
  destruct (legcontract_value (s_weights s) _ _ _ lead (rfft_dim (s_mmax s) (ndim x - 1) x) Sw SF) as (y & E & SY & VY).
  assert (ND : ndim (rfft_dim (s_mmax s) (ndim x - 1) x) = ndim x) by (unfold ndim at 1; rewrite SF; unfold ndim; rewrite Sx, !lenAB; auto).
  rewrite ND in E. exists y. split; auto. split; auto. intros L l m HL Hm. rewrite VY by auto. apply bsum_ext. intros k Hk. now rewrite VF.
Qed.
Lemma inverse_sht_value : forall s lead (x : tensor C), (1 <= s_nlon s)%nat ->
  wshape s (s_mmax s) (s_nlat s) (s_lmax s) -> shp x = lead ++ [s_lmax s; s_mmax s] ->
  exists y, inverse_sht s x = Some y /\ shp y = lead ++ [s_nlat s; s_nlon s] /\
  forall L k j, length L = length lead ->
    val y (L ++ [k; j]%nat) = synthesise (s_weights s) (s_lmax s) (s_mmax s) (s_nlon s) (fun l m => val x (L ++ [l; m]%nat)) k j.
Proof.
  intros s lead x Hn Sw Sx. destruct (ndimAB _ x lead _ _ Sx) as (N2 & N1 & D2 & D1).
  unfold inverse_sht, sht_check. rewrite D1, D2, !Nat.eqb_refl. unfold ndim at 1. rewrite Sx, lenAB. cbn [Nat.leb andb guard bindo].
  destruct (legcontract_value (s_weights s) _ _ _ lead x Sw Sx) as (y & E & SY & VY). rewrite E. cbn [bindo].
  eexists. split; [reflexivity|]. destruct (ndimAB _ y lead _ _ SY) as (N2' & N1' & D2' & D1').
  unfold irfft_dim. cbn [shp val along]. rewrite N1, <- N1', D1'. split.
  - rewrite SY, N1'. apply updB.
  - intros L k j HL. rewrite irfft_synth by auto. rewrite N1', <- HL, nthB. unfold synthesise. apply synth_ext. intros m Hm.
    rewrite updB. now apply VY.
Qed.

Lemma teq_last2 : forall X lead a b (y z : tensor X), shp y = lead ++ [a; b]%nat -> shp z = lead ++ [a; b]%nat ->
  (forall L p q, length L = length lead -> valid lead L -> (p < a)%nat -> (q < b)%nat -> val y (L ++ [p; q]%nat) = val z (L ++ [p; q]%nat)) -> teq y z.
Proof.
  intros X lead a b y z Sy Sz H. split; [congruence|]. intros i V. rewrite Sy in V.
  destruct (valid_last2 lead a b i V) as (L & p & q & -> & HL & VL & A & B). now apply H.
Qed.

Lemma analyse_lin : forall w h n a b f g l m,
  analyse w h n (fun k j => a * f k j + b * g k j) l m = Cplus (Cmult (RtoC a) (analyse w h n f l m)) (Cmult (RtoC b) (analyse w h n g l m)).
Proof.
  intros. unfold analyse. rewrite <- !(bsum_scal_l CT), <- (bsum_plus CT). apply bsum_ext. intros. rewrite fourier_lin. ring.
Qed.
Lemma analyse_ext : forall w h n f g l m, (forall k j, (k < h)%nat -> (j < n)%nat -> f k j = g k j) -> analyse w h n f l m = analyse w h n g l m.
Proof. intros. apply bsum_ext. intros. f_equal. apply fourier_ext. auto. Qed.
Lemma analyse_roll : forall w h n s f l m, (1 <= n)%nat -> analyse w h n (fun k => rollv n s (f k)) l m = Cmult (phase n s m) (analyse w h n f l m).
Proof.
  intros. unfold analyse. rewrite <- (bsum_scal_l CT). apply bsum_ext. intros. rewrite fourier_roll by auto. ring.
Qed.
Lemma synthesise_lin : forall w ll mm n a b c d k j,
  synthesise w ll mm n (fun l m => Cplus (Cmult (RtoC a) (c l m)) (Cmult (RtoC b) (d l m))) k j =
  a * synthesise w ll mm n c k j + b * synthesise w ll mm n d k j.
Proof.
  intros. unfold synthesise. rewrite <- synth_lin. apply synth_ext. intros. rewrite <- !(bsum_scal_l CT), <- (bsum_plus CT).
  apply bsum_ext. intros. ring.
Qed.
Lemma synthesise_phase : forall w ll mm n s c k j, (1 <= n)%nat ->
  synthesise w ll mm n (fun l m => Cmult (phase n s m) (c l m)) k j = rollv n s (synthesise w ll mm n c k) j.
Proof.
  intros. unfold synthesise. rewrite <- synth_phase by auto. apply synth_ext. intros. rewrite <- (bsum_scal_l CT).
  apply bsum_ext. intros. ring.
Qed.

Lemma roll_last_value : forall X (x : tensor X) lead a n s L p q, shp x = lead ++ [a; n]%nat -> length L = length lead ->
  val (roll_last s x) (L ++ [p; q]%nat) = rollv n s (fun j => val x (L ++ [p; j]%nat)) q.
Proof.
  intros X x lead a n s L p q Sx HL. destruct (ndimAB _ x lead _ _ Sx) as (N2 & N1 & D2 & D1).
  unfold roll_last, rollv. cbn [val]. rewrite D1, N1, <- HL, nthB, updB. reflexivity.
Qed.
Lemma phase_last_value : forall (x : tensor C) lead a b n s L p q, shp x = lead ++ [a; b]%nat -> length L = length lead ->
  val (phase_last n s x) (L ++ [p; q]%nat) = Cmult (phase n s q) (val x (L ++ [p; q]%nat)).
Proof.
  intros x lead a b n s L p q Sx HL. destruct (ndimAB _ x lead _ _ Sx) as (N2 & N1 & D2 & D1).
  unfold phase_last. cbn [val]. rewrite N1, <- HL, nthB. reflexivity.
Qed.
Lemma rollv_ext : forall X n s (f g : nat -> X) j, (1 <= n)%nat -> (forall i, (i < n)%nat -> f i = g i) -> rollv n s f j = rollv n s g j.
Proof. intros. unfold rollv. apply H0. apply Nat.mod_upper_bound. lia. Qed.

Section Scalar.
Variables (s : sht) (lead : list nat).
Hypothesis Hn : (1 <= s_nlon s)%nat.

Lemma real_sht_linear : forall a b x y X Y, wshape s (s_mmax s) (s_lmax s) (s_nlat s) ->
  shp x = lead ++ [s_nlat s; s_nlon s] -> shp y = shp x -> real_sht s x = Some X -> real_sht s y = Some Y ->
  exists Z, real_sht s (lin_r a b x y) = Some Z /\ teq Z (lin_c a b X Y).
Proof.
  intros a b x y X Y W Sx Sy EX EY.
  destruct (real_sht_value s lead x W Sx) as (X' & EX' & SX & VX). rewrite EX in EX'. inversion EX'; subst X'.
  destruct (real_sht_value s lead y W ltac:(congruence)) as (Y' & EY' & SY & VY). rewrite EY in EY'. inversion EY'; subst Y'.
  destruct (real_sht_value s lead (lin_r a b x y) W Sx) as (Z & EZ & SZ & VZ). exists Z. split; auto.
  eapply teq_last2; eauto. intros L p q HL VL Hp Hq. rewrite VZ by auto. unfold lin_c. cbn [val]. rewrite VX, VY by auto. apply analyse_lin.
Qed.
Lemma real_sht_roll : forall k x X, wshape s (s_mmax s) (s_lmax s) (s_nlat s) ->
  shp x = lead ++ [s_nlat s; s_nlon s] -> real_sht s x = Some X ->
  exists Z, real_sht s (roll_last k x) = Some Z /\ teq Z (phase_last (s_nlon s) k X).
Proof.
  intros k x X W Sx EX.
  destruct (real_sht_value s lead x W Sx) as (X' & EX' & SX & VX). rewrite EX in EX'. inversion EX'; subst X'.
  destruct (real_sht_value s lead (roll_last k x) W Sx) as (Z & EZ & SZ & VZ). exists Z. split; auto.
  eapply teq_last2; eauto. intros L p q HL VL Hp Hq. rewrite VZ by auto. erewrite phase_last_value by eauto. rewrite VX by auto.
  rewrite <- analyse_roll by auto. apply analyse_ext. intros a j Ha Hj. eapply roll_last_value; eauto.
Qed.
Lemma inverse_sht_linear : forall a b x y X Y, wshape s (s_mmax s) (s_nlat s) (s_lmax s) ->
  shp x = lead ++ [s_lmax s; s_mmax s] -> shp y = shp x -> inverse_sht s x = Some X -> inverse_sht s y = Some Y ->
  exists Z, inverse_sht s (lin_c a b x y) = Some Z /\ teq Z (lin_r a b X Y).
Proof.
  intros a b x y X Y W Sx Sy EX EY.
  destruct (inverse_sht_value s lead x Hn W Sx) as (X' & EX' & SX & VX). rewrite EX in EX'. inversion EX'; subst X'.
  destruct (inverse_sht_value s lead y Hn W ltac:(congruence)) as (Y' & EY' & SY & VY). rewrite EY in EY'. inversion EY'; subst Y'.
  destruct (inverse_sht_value s lead (lin_c a b x y) Hn W Sx) as (Z & EZ & SZ & VZ). exists Z. split; auto.
  eapply teq_last2; eauto. intros L p q HL VL Hp Hq. rewrite VZ by auto. unfold lin_r. cbn [val]. rewrite VX, VY by auto. apply synthesise_lin.
Qed.
Lemma inverse_sht_phase : forall k x X, wshape s (s_mmax s) (s_nlat s) (s_lmax s) ->
  shp x = lead ++ [s_lmax s; s_mmax s] -> inverse_sht s x = Some X ->
  exists Z, inverse_sht s (phase_last (s_nlon s) k x) = Some Z /\ teq Z (roll_last k X).
Proof.
  intros k x X W Sx EX.
  destruct (inverse_sht_value s lead x Hn W Sx) as (X' & EX' & SX & VX). rewrite EX in EX'. inversion EX'; subst X'.
  destruct (inverse_sht_value s lead (phase_last (s_nlon s) k x) Hn W Sx) as (Z & EZ & SZ & VZ). exists Z. split; auto.
  eapply teq_last2; eauto. intros L p q HL VL Hp Hq. rewrite VZ by auto. erewrite roll_last_value by eauto.
  transitivity (rollv (s_nlon s) k (synthesise (s_weights s) (s_lmax s) (s_mmax s) (s_nlon s) (fun l m => val x (L ++ [l; m]%nat)) p) q).
  - rewrite <- synthesise_phase by auto. unfold synthesise. apply synth_ext. intros. apply bsum_ext. intros. f_equal.
    eapply phase_last_value; eauto.
  - apply rollv_ext; auto. intros. symmetry. now apply VX.
Qed.
End Scalar.

Lemma init_weights : forall gl h w lm mm g nm cs s, real_sht_init gl h w lm mm g nm cs = Some s -> wshape s (s_mmax s) (s_lmax s) (s_nlat s).
Proof.
  intros. unfold real_sht_init in H. destruct (sht_rule gl h g); [|discriminate]. cbn [bindo] in H.
  destruct (truncate_sht h w lm mm g) as [[a b]|]; [|discriminate]. cbn [bindo] in H. inversion H. reflexivity.
Qed.
Lemma inv_init_weights : forall gl h w lm mm g nm cs s, inverse_sht_init gl h w lm mm g nm cs = Some s -> wshape s (s_mmax s) (s_nlat s) (s_lmax s).
Proof.
  intros. unfold inverse_sht_init in H. destruct (sht_rule gl h g); [|discriminate]. cbn [bindo] in H.
  destruct (truncate_sht h w lm mm g) as [[a b]|]; [|discriminate]. cbn [bindo] in H. inversion H. reflexivity.
Qed.
