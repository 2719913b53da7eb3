(** Round trip of the vector transforms. *)
From Coq Require Import List Arith Lia Bool Reals Lra.
From Coquelicot Require Import Coquelicot.
From Verif Require Import TensorModel TensorProofs BigSum FFTModel FFTProofs TruncModel LegendreModel QuadModel SHTModel
  SHTSpec SHTValueProofs VSHTValueProofs LegSpec LegProofs LegTableProofs VLegProofs QuadSpec PolyProofs QuadProofs SHTRoundSpec SHTRoundProofs SHTBandProofs DistSHTProofs.
Import ListNotations.
Local Open Scope R_scope.

Lemma vector_entry : forall h L M q nm cs d m l k, (l < L)%nat ->
  val (vector_sht_weights h L M q nm cs) [d; m; l; k]%nat =
  (if (d =? 1)%nat then -1 else 1) * (norm_spec nm false l * phase_spec cs m * comp d l m (cos (sht_colat h q k))) * rw q k * vec_norm_factor l.
Proof. intros. unfold vector_sht_weights. cbn [val nth]. rewrite dlegpoly_value by auto. destruct (d =? 1)%nat; ring. Qed.
Lemma inverse_vector_entry : forall h L M q nm cs d m l k, (l < L)%nat ->
  val (inverse_vector_dpct h L M q nm cs) [d; m; k; l]%nat = norm_spec nm true l * phase_spec cs m * comp d l m (cos (sht_colat h q k)).
Proof. intros. unfold inverse_vector_dpct. cbn [val nth]. now rewrite dlegpoly_value. Qed.

Lemma comp_above : forall d l m x, (l < m)%nat -> comp d l m x = 0.
Proof. intros. unfold comp, dalf, ealf. rewrite (proj2 (Nat.leb_gt m l)) by auto. now destruct (d =? 0)%nat. Qed.
Lemma vnf : forall l, vec_norm_factor l * (INR l * (INR l + 1)) = if (1 <=? l)%nat then 1 else 0.
Proof.
  intros l. unfold vec_norm_factor. destruct l as [|l]; cbn [Nat.eqb Nat.leb]. simpl. ring. assert (INR (S l) <> 0) by (apply not_0_INR; lia).
  pose proof (pos_INR (S l)). field. lra.
Qed.

Section Gram.
Variables (h : nat) (q : rule) (nm : shnorm) (cs : bool) (L M : nat).
Hypothesis G : good_rule h q (2 * (L - 1)).
Let W d m l k := val (vector_sht_weights h L M q nm cs) [d; m; l; k]%nat.
Let V d m k l := val (inverse_vector_dpct h L M q nm cs) [d; m; k; l]%nat.

Lemma vgram_same : forall m l l', (l < L)%nat -> (l' < L)%nat ->
  rsum h (fun k => W 0 m l k * V 0 m k l' - W 1 m l k * V 1 m k l') = if ((l =? l') && ((1 <=? l) && (m <=? l)))%nat%bool then / (2 * PI) else 0.
Proof.
  intros m l l' Hl Hl'. unfold W, V.
  destruct (le_lt_dec m l). 2:{ rewrite (bsum_zero' RT). destruct (Nat.leb_spec m l); try lia. rewrite !andb_false_r; auto.
    intros. rewrite !vector_entry, !comp_above by auto. ring. }
  destruct (Nat.leb_spec m l); [|lia]. rewrite andb_true_r.
  destruct (le_lt_dec m l'). 2:{ rewrite (bsum_zero' RT). destruct (Nat.eqb_spec l l'); auto; lia.
    intros. rewrite !(inverse_vector_entry h L M q nm cs _ m l'), !(comp_above _ l') by auto. ring. }
  rewrite (bsum_ext h _ (fun k => (norm_spec nm false l * norm_spec nm true l' * vec_norm_factor l * (ylm_const l m * ylm_const l' m)) * (rw q k * grad2 m l l' (cos (sht_colat h q k))))).
  2:{ intros k Hk. rewrite !vector_entry, !inverse_vector_entry by auto. unfold comp. cbn [Nat.eqb]. pose proof (comp_grad m l l' (cos (sht_colat h q k)) ltac:(auto) ltac:(auto) (COS_bound _)) as CG.
      transitivity ((phase_spec cs m * phase_spec cs m) * (norm_spec nm false l * norm_spec nm true l' * vec_norm_factor l) * (rw q k * (dalf l m (cos (sht_colat h q k)) * dalf l' m (cos (sht_colat h q k)) + ealf l m (cos (sht_colat h q k)) * ealf l' m (cos (sht_colat h q k))))).
      ring. rewrite phase_sq, CG. ring. }
  rewrite (bsum_scal_l RT), (flipped_sum h q (l + l')).
  2:{ eapply good_rule_le; eauto. lia. } 2: now apply grad2_poly.
  rewrite grad2_int by auto.
  transitivity (norm_spec nm false l * norm_spec nm true l' * (vec_norm_factor l * (INR l * (INR l + 1))) * (ylm_const l m * ylm_const l' m * ip m l l')). ring.
  rewrite vnf, ip_delta by auto. destruct (Nat.eqb_spec l l') as [<-|]; cbn [andb]; [rewrite norm_cancel; destruct (1 <=? l)%nat|]; ring.
Qed.
Lemma vgram_cross : forall m l l', (l < L)%nat -> (l' < L)%nat -> rsum h (fun k => W 0 m l k * V 1 m k l' - W 1 m l k * V 0 m k l') = 0.
Proof.
  intros m l l' Hl Hl'. unfold W, V.
  destruct (le_lt_dec m l). 2:{ apply (bsum_zero' RT). intros. rewrite !vector_entry, !comp_above by auto. ring. }
  destruct (le_lt_dec m l'). 2:{ apply (bsum_zero' RT). intros. rewrite !(inverse_vector_entry h L M q nm cs _ m l'), !(comp_above _ l') by auto. ring. }
  rewrite (bsum_ext h _ (fun k => (norm_spec nm false l * norm_spec nm true l' * vec_norm_factor l * (ylm_const l m * ylm_const l' m)) * (rw q k * cross2 m l l' (cos (sht_colat h q k))))).
  2:{ intros k Hk. rewrite !vector_entry, !inverse_vector_entry by auto. unfold comp. cbn [Nat.eqb]. pose proof (comp_cross m l l' (cos (sht_colat h q k)) ltac:(auto) ltac:(auto) (COS_bound _)) as CG.
      transitivity ((phase_spec cs m * phase_spec cs m) * (norm_spec nm false l * norm_spec nm true l' * vec_norm_factor l) * (rw q k * (dalf l m (cos (sht_colat h q k)) * ealf l' m (cos (sht_colat h q k)) + ealf l m (cos (sht_colat h q k)) * dalf l' m (cos (sht_colat h q k))))).
      ring. rewrite phase_sq, CG. ring. }
  rewrite (bsum_scal_l RT), (flipped_sum h q (l + l')).
  2:{ eapply good_rule_le; eauto. lia. } 2: now apply cross2_poly. rewrite cross2_int by auto. ring.
Qed.
End Gram.

(** ** The longitudinal part of the combined fields *)
Lemma real_order_0 : forall n m, real_order n m (RtoC 0) = RtoC 0.
Proof. intros. unfold real_order. destruct (m <=? n / 2)%nat; auto. destruct (_ || _); reflexivity. Qed.
Lemma real_order_vcomb : forall n m N d (v0 v1 : nat -> R) (c0 c1 : nat -> C),
  (m = 0%nat -> forall l, (l < N)%nat -> v1 l = 0) ->
  ((2 * m)%nat = n -> m <> 0%nat -> forall l, (l < N)%nat -> c0 l = RtoC 0 /\ c1 l = RtoC 0) ->
  real_order n m (csum N (fun l => vcomb (v0 l) (v1 l) d (c0 l) (c1 l))) = csum N (fun l => vcomb (v0 l) (v1 l) d (real_order n m (c0 l)) (real_order n m (c1 l))).
Proof.
  intros n m N d v0 v1 c0 c1 H0 H1. destruct (le_lt_dec m (n / 2)).
  2:{ assert (Z : forall z, real_order n m z = RtoC 0) by (intros; unfold real_order; destruct (Nat.leb_spec m (n / 2)); auto; lia).
      rewrite Z. symmetry. apply (bsum_zero' CT). intros. rewrite !Z. unfold vcomb. destruct (d =? 0)%nat; ring. }
  destruct (Nat.eq_dec m 0) as [E|E].
  - rewrite (bsum_ext N _ (fun l => Cmult (RtoC (if (d =? 0)%nat then v0 l else - v0 l)) (if (d =? 0)%nat then c0 l else c1 l))).
    2:{ intros. rewrite H0 by auto. unfold vcomb. destruct (d =? 0)%nat; try rewrite RtoC_opp; ring. }
    rewrite real_order_sum. apply bsum_ext. intros. rewrite H0 by auto. unfold vcomb. destruct (d =? 0)%nat; try rewrite RtoC_opp; ring.
  - destruct (Nat.eq_dec (2 * m) n) as [E2|E2].
    + rewrite (bsum_zero' CT N (fun l => vcomb (v0 l) (v1 l) d (c0 l) (c1 l))). rewrite real_order_0. symmetry. apply (bsum_zero' CT).
      * intros. destruct (H1 E2 E i H) as [-> ->]. rewrite !real_order_0. unfold vcomb. destruct (d =? 0)%nat; ring.
      * intros. destruct (H1 E2 E i H) as [-> ->]. unfold vcomb. destruct (d =? 0)%nat; ring.
    + assert (Z : forall z, real_order n m z = z).
      { intros [a b]. unfold real_order. destruct (Nat.leb_spec m (n / 2)); [|lia]. destruct (Nat.eqb_spec m 0), (Nat.eqb_spec (2 * m) n); try lia. reflexivity. }
      rewrite Z. apply bsum_ext. intros. now rewrite !Z.
Qed.

Lemma vcomb_comp : forall w0 w1 v0 v1 c (x0 x1 : C), (c < 2)%nat ->
  vcomb w0 w1 c (vcomb v0 v1 0 x0 x1) (vcomb v0 v1 1 x0 x1) =
  Cplus (Cmult (RtoC (w0 * v0 - w1 * v1)) (if (c =? 0)%nat then x0 else x1))
        (Cmult (RtoC (w0 * v1 - w1 * v0)) (Cmult (if (c =? 0)%nat then Ci else Copp Ci) (if (c =? 0)%nat then x1 else x0))).
Proof.
  intros w0 w1 v0 v1 c [a0 b0] [a1 b1] H. destruct c as [|[|]]; [| |lia]; unfold vcomb; cbn [Nat.eqb]; apply C_ext;
  unfold Cminus, Cmult, Cplus, Copp, Ci, RtoC, Re, Im; cbn [fst snd]; ring.
Qed.
Lemma vcomb_sum : forall w0 w1 c N (f g : nat -> C), vcomb w0 w1 c (csum N f) (csum N g) = csum N (fun l => vcomb w0 w1 c (f l) (g l)).
Proof.
  intros. unfold vcomb. destruct (c =? 0)%nat; rewrite <- ?(bsum_scal_l CT); [rewrite <- (bsum_plus CT)|rewrite <- (bsum_sub CT)]; auto.
Qed.
Lemma csum_RtoC : forall N f, csum N (fun k => RtoC (f k)) = RtoC (rsum N f).
Proof. intros. apply C_ext. rewrite csum_Re. reflexivity. rewrite csum_Im. apply (bsum_zero' RT). reflexivity. Qed.

Lemma vanalyse_vsynthesise : forall h w L M q nm cs c d l m, (1 <= w)%nat -> good_rule h q (2 * (L - 1)) -> (d < 2)%nat -> (l < L)%nat -> (m < M)%nat ->
  ((2 * m)%nat = w -> forall e l', (e < 2)%nat -> (l' < L)%nat -> c e l' m = RtoC 0) ->
  vanalyse (vector_sht_weights h L M q nm cs) h w (vsynthesise (inverse_vector_dpct h L M q nm cs) L M w c) d l m = vrepresentable_at w l m (c d l m).
Proof.
  intros h w L M q nm cs c d l m Hw G Hd Hl Hm NY. unfold vanalyse, vsynthesise.
  set (W := fun e m l k => val (vector_sht_weights h L M q nm cs) [e; m; l; k]%nat). set (V := fun e m k l => val (inverse_vector_dpct h L M q nm cs) [e; m; k; l]%nat).
  assert (RO : forall e k, real_order w m (csum L (fun l' => vcomb (V 0%nat m k l') (V 1%nat m k l') e (c 0%nat l' m) (c 1%nat l' m)))
      = csum L (fun l' => vcomb (V 0%nat m k l') (V 1%nat m k l') e (real_order w m (c 0%nat l' m)) (real_order w m (c 1%nat l' m)))).
  { intros e k. apply (real_order_vcomb w m L e (V 0%nat m k) (V 1%nat m k) (fun l' => c 0%nat l' m) (fun l' => c 1%nat l' m)).
    - intros -> l' Hl'. unfold V. rewrite inverse_vector_entry by auto. unfold comp, ealf, eA. cbn [Nat.eqb]. destruct (0 <=? l')%nat; ring.
    - intros E _ l' Hl'. split; apply NY; auto. }
  set (x := fun e l' => Cmult (RtoC (2 * PI)) (real_order w m (c e l' m))).
  rewrite (bsum_ext h _ (fun k => csum L (fun l' => Cplus (Cmult (RtoC (W 0%nat m l k * V 0%nat m k l' - W 1%nat m l k * V 1%nat m k l')) (x d l'))
     (Cmult (RtoC (W 0%nat m l k * V 1%nat m k l' - W 1%nat m l k * V 0%nat m k l')) (Cmult (if (d =? 0)%nat then Ci else Copp Ci) (x (1 - d)%nat l')))))).
  2:{ intros k Hk. rewrite !fourier_synth by auto.
      fold (V 0%nat). change (fun l0 => vcomb (val (inverse_vector_dpct h L M q nm cs) [0; m; k; l0]%nat) (val (inverse_vector_dpct h L M q nm cs) [1; m; k; l0]%nat) 0 (c 0%nat l0 m) (c 1%nat l0 m))
        with (fun l0 => vcomb (V 0%nat m k l0) (V 1%nat m k l0) 0 (c 0%nat l0 m) (c 1%nat l0 m)).
      change (fun l0 => vcomb (val (inverse_vector_dpct h L M q nm cs) [0; m; k; l0]%nat) (val (inverse_vector_dpct h L M q nm cs) [1; m; k; l0]%nat) 1 (c 0%nat l0 m) (c 1%nat l0 m))
        with (fun l0 => vcomb (V 0%nat m k l0) (V 1%nat m k l0) 1 (c 0%nat l0 m) (c 1%nat l0 m)).
      rewrite !RO, <- !(bsum_scal_l CT), vcomb_sum. apply bsum_ext. intros l' Hl'. rewrite <- !vcomb_scal, vcomb_comp by auto. fold (W 0%nat). fold (W 1%nat).
      unfold x. destruct d as [|[|]]; [| |lia]; reflexivity. }
  rewrite (bsum_swap CT).
  rewrite (bsum_ext L _ (fun l' => if (l' =? l)%nat then vrepresentable_at w l m (c d l m) else RtoC 0)).
  - now rewrite (bsum_delta_f CT L l (fun _ => vrepresentable_at w l m (c d l m))) by auto.
  - intros l' Hl'. rewrite (bsum_plus CT), !(bsum_scal_r CT), !csum_RtoC. unfold W, V. rewrite vgram_same, vgram_cross by auto.
    rewrite (Nat.eqb_sym l l'). unfold vrepresentable_at, x. pose proof PI_RGT_0.
    destruct (Nat.eqb_spec l' l) as [->|]; cbn [andb]; [destruct ((1 <=? l) && (m <=? l))%nat|]; try ring.
    rewrite Cmult_assoc, <- RtoC_mult. replace (/ (2 * PI) * (2 * PI)) with 1 by (field; lra). ring.
Qed.

Lemma vector_sht_init_eq : forall gl h w lm mm g nm cs s, vector_sht_init gl h w lm mm g nm cs = Some s ->
  exists q L M, sht_rule gl h g = Some q /\ truncate_sht h w lm mm g = Some (L, M) /\ s = mkSHT h w L M (vector_sht_weights h L M q nm cs).
Proof.
  intros gl h w lm mm g nm cs s E. unfold vector_sht_init in E. destruct (sht_rule gl h g) as [q|]; [|discriminate]. cbn [bindo] in E.
  destruct (truncate_sht h w lm mm g) as [[a b]|]; [|discriminate]. cbn [bindo] in E. inversion E. exists q, a, b. auto.
Qed.
Lemma inverse_vector_sht_init_eq : forall gl h w lm mm g nm cs s, inverse_vector_sht_init gl h w lm mm g nm cs = Some s ->
  exists q L M, sht_rule gl h g = Some q /\ truncate_sht h w lm mm g = Some (L, M) /\ s = mkSHT h w L M (inverse_vector_dpct h L M q nm cs).
Proof.
  intros gl h w lm mm g nm cs s E. unfold inverse_vector_sht_init in E. destruct (sht_rule gl h g) as [q|]; [|discriminate]. cbn [bindo] in E.
  destruct (truncate_sht h w lm mm g) as [[a b]|]; [|discriminate]. cbn [bindo] in E. inversion E. exists q, a, b. auto.
Qed.
Lemma vrepresentable_value : forall n (c : tensor C) lead e a b L d l m, shp c = lead ++ [e; a; b]%nat -> length L = length lead ->
  val (vrepresentable n c) (L ++ [d; l; m]%nat) = vrepresentable_at n l m (val c (L ++ [d; l; m]%nat)).
Proof.
  intros n c lead e a b L d l m S HL. destruct (ndimABC _ c lead _ _ _ S) as (N & _). unfold vrepresentable. cbn [val].
  rewrite N, <- HL. replace (length L + 3 - 2)%nat with (length L + 1)%nat by lia. replace (length L + 3 - 1)%nat with (length L + 2)%nat by lia.
  rewrite !nth_app_r. auto.
Qed.
Lemma valid_last3 : forall lead e a b i, valid (lead ++ [e; a; b]) i -> exists L d p q, i = L ++ [d; p; q] /\ length L = length lead /\ valid lead L /\ (d < e)%nat /\ (p < a)%nat /\ (q < b)%nat.
Proof.
  intros lead e a b i V. rewrite app3 in V. destruct (valid_last2 _ a b i V) as (L & p & q & -> & HL & VL & A & B). rewrite len1 in HL.
  destruct L as [|d L0] using rev_ind; [discriminate|]. rewrite len1 in HL. rewrite <- app3. assert (HL0 : length L0 = length lead) by lia.
  apply valid_app in VL; auto. destruct VL as [V1 V2]. apply valid_cons in V2. destruct V2. exists L0, d, p, q. repeat split; auto; apply V1.
Qed.
Lemma valid_3 : forall lead e a b L d p q, valid lead L -> (d < e)%nat -> (p < a)%nat -> (q < b)%nat -> valid (lead ++ [e; a; b]) (L ++ [d; p; q]).
Proof.
  intros. apply valid_app. now apply valid_len. split; auto. apply valid_cons; split; auto. apply valid_cons; split; auto. apply valid_cons; split; auto. apply valid_nil.
Qed.

Section VRound.
Variables (gl : nat -> rule) (h w : nat) (lm mm : option nat) (g : grid) (nm : shnorm) (cs : bool) (s t : sht) (q : rule).
Hypotheses (Es : vector_sht_init gl h w lm mm g nm cs = Some s) (Et : inverse_vector_sht_init gl h w lm mm g nm cs = Some t)
  (Eq : sht_rule gl h g = Some q) (G : good_rule h q (2 * (s_lmax s - 1))) (Hw : (1 <= w)%nat).

Lemma vsht_visht : forall lead c, shp c = lead ++ [2%nat; s_lmax s; s_mmax s] -> no_nyquist w c ->
  exists f z, inverse_vector_sht t c = Some f /\ vector_sht s f = Some z /\ teq z (vrepresentable w c).
Proof.
  intros lead c Sc NY. pose proof (vinit_weights _ _ _ _ _ _ _ _ _ Es) as W1. pose proof (inv_vinit_weights _ _ _ _ _ _ _ _ _ Et) as W2.
  destruct (vector_sht_init_eq _ _ _ _ _ _ _ _ _ Es) as (q1 & L & M & E1 & T1 & Hs).
  destruct (inverse_vector_sht_init_eq _ _ _ _ _ _ _ _ _ Et) as (q2 & L2 & M2 & E2 & T2 & Ht).
  rewrite Eq in E1, E2. inversion E1; inversion E2; subst q1 q2. rewrite T1 in T2. inversion T2; subst L2 M2.
  assert (Hw' : (1 <= s_nlon t)%nat) by now rewrite Ht.
  destruct (inverse_vector_sht_value t lead c Hw' W2) as (f & Ef & Sf & Vf). now rewrite Sc, Hs, Ht.
  destruct (vector_sht_value s lead f W1) as (z & Ez & Sz & Vz). now rewrite Sf, Hs, Ht.
  exists f, z. repeat split; auto. unfold vrepresentable. cbn [shp]. congruence.
  intros i Vi. rewrite Sz in Vi. destruct (valid_last3 _ _ _ _ _ Vi) as (I & d & l & m & -> & HL & VL & Hd & Hl & Hm).
  rewrite Vz by auto. erewrite vrepresentable_value by eauto. rewrite Hs in *. cbn [s_lmax s_mmax s_nlat s_nlon s_weights] in *.
  assert (NY' : (2 * m)%nat = w -> forall e l', (e < 2)%nat -> (l' < L)%nat -> val c (I ++ [e; l'; m]%nat) = RtoC 0).
  { intros E e l' He Hl'. apply NY. rewrite Sc; now apply valid_3. destruct (ndimABC _ c lead _ _ _ Sc) as (N & _). rewrite N, <- HL.
    replace (length I + 3 - 1)%nat with (length I + 2)%nat by lia. rewrite nth_app_r. exact E. }
  rewrite <- (vanalyse_vsynthesise h w L M q nm cs (fun e l m => val c (I ++ [e; l; m]%nat)) d l m Hw G Hd Hl Hm NY').
  apply vanalyse_ext. intros. rewrite Vf by auto. rewrite Ht. reflexivity.
Qed.
End VRound.

(** ** At the order nlon/2 coefficients are not recovered *)
Lemma vround_nyquist : forall gl nm cs, exists s t c f z,
  vector_sht_init gl 3 2 (Some 2%nat) None GEquiangular nm cs = Some s /\ inverse_vector_sht_init gl 3 2 (Some 2%nat) None GEquiangular nm cs = Some t /\
  shp c = [2; 2; 2]%nat /\ (forall i, val c i = if list_eq_dec Nat.eq_dec i [0; 1; 1]%nat then RtoC 1 else RtoC 0) /\
  inverse_vector_sht t c = Some f /\ vector_sht s f = Some z /\ val z [0; 1; 1]%nat = RtoC (1 / 4).
Proof.
  intros gl nm cs. destruct (clenshaw_curtiss_weights 3 (-1) 1) as [q|] eqn:E; [|discriminate].
  pose proof (cc_good 3 q ltac:(lia) E) as G. cbn [Nat.sub] in G.
  set (s := mkSHT 3 2 2 2 (vector_sht_weights 3 2 2 q nm cs)). set (t := mkSHT 3 2 2 2 (inverse_vector_dpct 3 2 2 q nm cs)).
  assert (Es : vector_sht_init gl 3 2 (Some 2%nat) None GEquiangular nm cs = Some s) by (unfold vector_sht_init; cbn [sht_rule]; rewrite E; reflexivity).
  assert (Et : inverse_vector_sht_init gl 3 2 (Some 2%nat) None GEquiangular nm cs = Some t) by (unfold inverse_vector_sht_init; cbn [sht_rule]; rewrite E; reflexivity).
  set (c := mkT [2; 2; 2]%nat (fun i => if list_eq_dec Nat.eq_dec i [0; 1; 1]%nat then RtoC 1 else RtoC 0)).
  destruct (inverse_vector_sht_value t [] c ltac:(simpl; lia) eq_refl eq_refl) as (f & Ef & Sf & Vf).
  destruct (vector_sht_value s [] f eq_refl Sf) as (z & Ez & Sz & Vz).
  exists s, t, c, f, z. do 6 (split; auto). specialize (Vz [] 0%nat 1%nat 1%nat eq_refl ltac:(simpl; lia)). cbn [app] in Vz. rewrite Vz.
  rewrite (vanalyse_ext _ _ _ _ (vsynthesise (inverse_vector_dpct 3 2 2 q nm cs) 2 2 2 (fun e l m => val c [e; l; m]%nat))).
  2:{ intros. exact (Vf [] d k j eq_refl). }
  unfold vanalyse, vsynthesise. cbn [s s_weights s_nlat s_nlon].
  set (K := ylm_const 1 1).
  assert (V0 : forall k, val (inverse_vector_dpct 3 2 2 q nm cs) [0; 1; k; 1]%nat = norm_spec nm true 1 * phase_spec cs 1 * (K * cos (sht_colat 3 q k))).
  { intros. rewrite inverse_vector_entry by auto. unfold comp, dalf, dA, Ap. cbn [Nat.eqb Nat.leb pow]. rewrite (Q_high 1 2) by lia. rewrite Q_1. unfold legD. cbn. unfold K. ring. }
  assert (W0 : forall k, val (vector_sht_weights 3 2 2 q nm cs) [0; 1; 1; k]%nat = norm_spec nm false 1 * phase_spec cs 1 * (K * cos (sht_colat 3 q k)) * rw q k * / 2).
  { intros. rewrite vector_entry by auto. unfold comp, dalf, dA, Ap, vec_norm_factor. cbn [Nat.eqb Nat.leb pow]. rewrite (Q_high 1 2) by lia. rewrite Q_1. unfold legD. cbn. unfold K. field. }
  assert (R0 : forall k, fourier 2 (synth 2 2 (fun m => csum 2 (fun l => vcomb (val (inverse_vector_dpct 3 2 2 q nm cs) [0; m; k; l]%nat) (val (inverse_vector_dpct 3 2 2 q nm cs) [1; m; k; l]%nat) 0 (val c [0; l; m]%nat) (val c [1; l; m]%nat)))) 1
     = RtoC (2 * PI * (norm_spec nm true 1 * phase_spec cs 1 * (K * cos (sht_colat 3 q k))))).
  { intros. rewrite fourier_synth by lia. cbn [bsum_]. unfold vcomb. cbn [Nat.eqb]. unfold c. cbn [val]. cbn [list_eq_dec]. rewrite V0.
    apply C_ext; unfold real_order, Re, Im, Cmult, Cplus, RtoC, Ci; cbn; ring. }
  assert (R1 : forall k, fourier 2 (synth 2 2 (fun m => csum 2 (fun l => vcomb (val (inverse_vector_dpct 3 2 2 q nm cs) [0; m; k; l]%nat) (val (inverse_vector_dpct 3 2 2 q nm cs) [1; m; k; l]%nat) 1 (val c [0; l; m]%nat) (val c [1; l; m]%nat)))) 1 = RtoC 0).
  { intros. rewrite fourier_synth by lia. cbn [bsum_]. unfold vcomb. cbn [Nat.eqb]. unfold c. cbn [val]. cbn [list_eq_dec].
    apply C_ext; unfold real_order, Re, Im, Cmult, Cplus, Cminus, Copp, RtoC, Ci; cbn; ring. }
  rewrite (bsum_ext 3 _ (fun k => RtoC (PI * (K * K) * (rw q k * (cos (sht_colat 3 q k) * cos (sht_colat 3 q k)))))).
  2:{ intros k Hk. rewrite R0, R1, W0. unfold vcomb. cbn [Nat.eqb]. rewrite Cmult_0_r, Cmult_0_r, Cplus_0_r, <- RtoC_mult. f_equal.
      transitivity ((norm_spec nm false 1 * norm_spec nm true 1) * (phase_spec cs 1 * phase_spec cs 1) * (PI * (K * K) * (rw q k * (cos (sht_colat 3 q k) * cos (sht_colat 3 q k))))).
      field. rewrite norm_cancel, phase_sq. ring. }
  rewrite csum_RtoC. f_equal. rewrite (bsum_scal_l RT).
  assert (P2 : is_poly 2 (fun x => x * x)). { apply is_poly_x, is_poly_id. }
  rewrite (flipped_sum 3 q 2 (fun x => x * x) G P2).
  assert (I : @eq R (RInt (fun x => x * x) (-1) 1) (2 / 3)).
  { transitivity (1 * 1 * 1 / 3 - -1 * -1 * -1 / 3). apply (RInt_derive (fun t => t * t * t / 3)). intros. auto_derive; auto. field. intros; eapply is_poly_continuous, P2. field. }
  rewrite I. unfold K. rewrite ylm_sq. unfold Kc. cbn. pose proof PI_RGT_0. field. lra.
Qed.

Lemma vequiangular_round : forall gl h w lm mm nm cs lead, (2 <= h)%nat -> (1 <= w)%nat -> TruncSpec.unset lm ->
  exists s t, vector_sht_init gl h w lm mm GEquiangular nm cs = Some s /\ inverse_vector_sht_init gl h w lm mm GEquiangular nm cs = Some t /\
  forall c, shp c = lead ++ [2%nat; s_lmax s; s_mmax s] -> no_nyquist w c ->
  exists f z, inverse_vector_sht t c = Some f /\ vector_sht s f = Some z /\ teq z (vrepresentable w c).
Proof.
  intros gl h w lm mm nm cs lead Hh Hw U. destruct (cc_model h (-1) 1 Hh) as (q & E & _).
  destruct (truncate_sht h w lm mm GEquiangular) as [[L M]|] eqn:T. 2:{ apply TruncProofs.truncate_sht_none in T. destruct T; discriminate. }
  assert (Es : vector_sht_init gl h w lm mm GEquiangular nm cs = Some (mkSHT h w L M (vector_sht_weights h L M q nm cs))).
  { unfold vector_sht_init. cbn [sht_rule]. rewrite E. cbn [bindo]. rewrite T. reflexivity. }
  assert (Et : inverse_vector_sht_init gl h w lm mm GEquiangular nm cs = Some (mkSHT h w L M (inverse_vector_dpct h L M q nm cs))).
  { unfold inverse_vector_sht_init. cbn [sht_rule]. rewrite E. cbn [bindo]. rewrite T. reflexivity. }
  eexists. eexists. split; [exact Es|]. split; [exact Et|]. intros c Sc NY. eapply vsht_visht; eauto. apply good_rule_le with (h - 1)%nat. now apply cc_good.
  cbn [s_lmax]. destruct (TruncProofs.truncate_sht_bounds _ _ _ _ _ _ _ T) as (_ & _ & _ & B). destruct (B U) as (d & D & B').
  change (Some ((h + 1) / 2)%nat = Some d) in D. assert (d = (h + 1) / 2)%nat by congruence. pose proof (Nat.div_mod (h + 1) 2 ltac:(lia)). lia.
Qed.
Lemma no_nyquist_trunc : forall w c lead L M, shp c = lead ++ [2%nat; L; M] -> (2 * (M - 1) < w)%nat -> no_nyquist w c.
Proof.
  intros w c lead L M Sc H i Vi E. exfalso. rewrite Sc in Vi. destruct (valid_last3 _ _ _ _ _ Vi) as (I & d & l & m & -> & HL & VL & Hd & Hl & Hm).
  destruct (ndimABC _ c lead _ _ _ Sc) as (N & _). rewrite N, <- HL in E. replace (length I + 3 - 1)%nat with (length I + 2)%nat in E by lia. rewrite nth_app_r in E. cbn [nth] in E. lia.
Qed.
