(** The W11 loss. *)
From Coq Require Import List Arith Lia Bool Reals Lra.
From Coquelicot Require Import Coquelicot.
From Verif Require Import TensorModel TensorProofs BigSum TruncModel QuadModel CCProofs QuadProofs QuadPropProofs FFTModel FFTProofs SHTSpec SHTValueProofs LossModel LossSpec LossProofs LossProofs2 LossProofs3 LossProofs4 GradLossModel GradLossSpec GradLossProofs GradLossProofs2.
Import ListNotations.
Local Open Scope R_scope.

(** the two gradients of a field, at sample L and pixel (k, j) *)
Definition gphi (nlon : nat) (x : tensor R) (L : list nat) (k j : nat) : R := rd nlon (fun j => val x (L ++ [k; j])) j.
Definition gtheta (nlat : nat) (x : tensor R) (L : list nat) (k j : nat) : R := 2 * rd nlat (fun k => val x (L ++ [k; j])) k.

Lemma loss_term_value : forall q h a (term : tensor R -> tensor R -> option (tensor R)) x y t m lead lm w, rows q h a -> term x y = Some t -> shp t = lead ++ [h; w] -> mask_ok h w a m lm lead -> (1 <= count lead)%nat ->
  spherical_loss term Some q x y m = Some (average lead (integral h w a m lm (val t))).
Proof.
  intros q h a term x y t m lead lm w Q Et St M C. unfold spherical_loss. rewrite Et. cbn [bindo]. destruct (integrate_any q h a t m lead lm w Q St M) as (z & -> & Sz & Vz). cbn [bindo].
  rewrite mean_value by congruence. rewrite Sz. f_equal. now apply average_ext.
Qed.
Lemma rd_sub : forall n f g j, rd n (fun l => f l - g l) j = rd n f j - rd n g j.
Proof. intros. rewrite (rd_ext n _ (fun l => 1 * f l + (-1) * g l)) by (intros; ring). rewrite rd_lin. ring. Qed.

(** everything below about a mean over the sphere or over a mask *)
Definition mean_over (w : nat -> R) (nlat nlon : nat) (lm : list nat) (m : option (tensor R)) (i : list nat) (F : nat -> nat -> R) : R :=
  match m with None => mean_on_sphere w nlat nlon F | Some mm => mean_on_mask w nlat nlon (fun k j => val mm (bidx lm i ++ [k; j])) F end.

Section O.
Variables (gl : nat -> rule) (nlat nlon : nat) (g : grid) (q kp kt : tensor R) (lat : rule) (lead : list nat).
Hypotheses (I : gradient_loss_init gl nlat nlon g = Some (q, kp, kt)) (El : precompute_latitudes gl nlat g = Some lat) (C : (1 <= count lead)%nat).
Notation RW := (row_weight nlat nlon lat true).
Notation field x := (shp x = lead ++ [nlat; nlon]).
Let Hw : loss_weights gl nlat nlon g true = Some q. Proof. apply (init_facts gl nlat nlon g q kp kt I). Qed.
Let Hlat : (1 <= nlat)%nat. Proof. apply (init_facts gl nlat nlon g q kp kt I). Qed.
Let Hlon : (1 <= nlon)%nat. Proof. apply (init_facts gl nlat nlon g q kp kt I). Qed.

Lemma term_mean : forall (term : tensor R -> tensor R -> option (tensor R)) x y t m lm (F : list nat -> nat -> nat -> R), term x y = Some t -> field t -> option_mask nlat nlon lat lead lm m ->
  (forall L k j, valid lead L -> (k < nlat)%nat -> (j < nlon)%nat -> val t (L ++ [k; j]) = F L k j) ->
  spherical_loss term Some q x y m = Some (average lead (fun i => mean_over (rw lat) nlat nlon lm m i (F i))).
Proof.
  intros term x y t m lm F Et St GM V. pose proof (con_rows gl nlat nlon g lat true q El Hlon Hw) as Q. pose proof (option_mask_ok gl nlat nlon g lat true q lead El Hlon Hw lm m GM) as K.
  rewrite (loss_term_value q nlat RW term x y t m lead lm nlon) by auto. f_equal. apply average_ext. intros i Hi. unfold mean_over. destruct m as [mm|].
  - destruct GM as (M1 & M2 & M3). rewrite (integral_on_mask gl nlat nlon g lat true q El Hlon Hw). 2:{ apply M3. eapply bidx_valid_b; eauto. }
    unfold mean_on_mask. f_equal. apply bsum_ext. intros k Hk. apply bsum_ext. intros j Hj. now rewrite V.
  - rewrite integral_on_sphere by auto. unfold mean_on_sphere. apply bsum_ext. intros k Hk. apply bsum_ext. intros j Hj. now rewrite V.
Qed.
Definition w11_at (x y : tensor R) (L : list nat) (k j : nat) : R := Rabs (gphi nlon x L k j - gphi nlon y L k j) + Rabs (gtheta nlat x L k j - gtheta nlat y L k j).
Lemma w11_term_value : forall x y, field x -> field y -> exists t, w11_term kp kt x y = Some t /\ field t /\ forall L k j, valid lead L -> (k < nlat)%nat -> (j < nlon)%nat -> val t (L ++ [k; j]) = w11_at x y L k j.
Proof.
  intros x y Sx Sy. unfold w11_term.
  destruct (gradient_phi gl nlat nlon g q kp kt I x lead Sx) as (a & -> & Sa & Va). destruct (gradient_theta gl nlat nlon g q kp kt I x lead Sx) as (b & -> & Sb & Vb).
  destruct (gradient_phi gl nlat nlon g q kp kt I y lead Sy) as (c & -> & Sc & Vc). destruct (gradient_theta gl nlat nlon g q kp kt I y lead Sy) as (d & -> & Sd & Vd). cbn [bindo].
  destruct (bmap2_same _ _ _ (fun u v => Rabs (u - v)) a c _ Sa Sc) as (e & -> & Se & Ve). destruct (bmap2_same _ _ _ (fun u v => Rabs (u - v)) b d _ Sb Sd) as (f & -> & Sf & Vf). cbn [bindo].
  destruct (bmap2_same _ _ _ Rplus e f _ Se Sf) as (t & -> & St & Vt). exists t. split; auto. split; auto. intros L k j HL Hk Hj.
  rewrite Vt, Ve, Vf by (now apply valid_2'). rewrite Va, Vb, Vc, Vd by auto. reflexivity.
Qed.
Lemma w11_value : forall x y lm m, field x -> field y -> option_mask nlat nlon lat lead lm m ->
  w11_loss (q, kp, kt) x y m = Some (average lead (fun i => mean_over (rw lat) nlat nlon lm m i (w11_at x y i))).
Proof. intros x y lm m Sx Sy GM. destruct (w11_term_value x y Sx Sy) as (t & Et & St & Vt). unfold w11_loss. eapply term_mean; eauto. Qed.

Section P.
Hypothesis P : forall k, (k < nlat)%nat -> 0 < rw lat k.
Variables (lm : list nat) (m : option (tensor R)).
Hypotheses (GM : option_mask nlat nlon lat lead lm m) (MN : mask_nonneg nlat nlon m).
Notation MO i F := (mean_over (rw lat) nlat nlon lm m i F).
Lemma total_pos : 0 < rsum nlat (rw lat). Proof. apply rsum_pos'; auto. Qed.
Lemma area_pos : forall k, (k < nlat)%nat -> 0 < area (rw lat) nlat nlon k.
Proof. intros k Hk. unfold area. pose proof total_pos. pose proof (INR_pos nlon Hlon). apply Rdiv_lt_0_compat; auto. apply Rmult_lt_0_compat; lra. Qed.
Lemma mask_total_pos : forall mm i, m = Some mm -> valid lead i -> 0 < rsum nlat (fun k => rsum nlon (fun j => rw lat k * val mm (bidx lm i ++ [k; j]))).
Proof.
  intros mm i E Hi. rewrite E in GM, MN. destruct GM as (M1 & M2 & M3). pose proof (M3 _ (bidx_valid_b _ _ _ M2 Hi)) as N. assert (0 <= rsum nlat (fun k => rsum nlon (fun j => rw lat k * val mm (bidx lm i ++ [k; j])))); [|lra].
  apply rsum_nonneg. intros k Hk. apply rsum_nonneg. intros j Hj. pose proof (P k Hk). pose proof (MN (bidx lm i) k j Hk Hj). nra.
Qed.
Lemma mo_ext : forall i F G, (forall k j, (k < nlat)%nat -> (j < nlon)%nat -> F k j = G k j) -> MO i F = MO i G.
Proof. intros i F G H. unfold mean_over. clear GM MN. destruct m; [unfold mean_on_mask; f_equal|unfold mean_on_sphere]; apply bsum_ext; intros k Hk; apply bsum_ext; intros j Hj; now rewrite H. Qed.
Lemma mo_le : forall i F G, valid lead i -> (forall k j, (k < nlat)%nat -> (j < nlon)%nat -> F k j <= G k j) -> MO i F <= MO i G.
Proof.
  intros i F G Hi H. unfold mean_over. case_eq m; [intros mm E|intros E].
  - pose proof (mask_total_pos mm i E Hi) as D. unfold mean_on_mask, Rdiv. apply Rmult_le_compat_r. left. now apply Rinv_0_lt_compat. apply rsum_le. intros k Hk. apply rsum_le. intros j Hj. pose proof (P k Hk). rewrite E in MN. pose proof (MN (bidx lm i) k j Hk Hj). apply Rmult_le_compat_l; auto. nra.
  - unfold mean_on_sphere. apply rsum_le. intros k Hk. apply rsum_le. intros j Hj. apply Rmult_le_compat_l; auto. left. now apply area_pos.
Qed.
Lemma mo_plus : forall i F G, MO i (fun k j => F k j + G k j) = MO i F + MO i G.
Proof.
  intros i F G. unfold mean_over. clear GM MN. destruct m as [mm|].
  - unfold mean_on_mask, Rdiv. rewrite <- Rmult_plus_distr_r. f_equal. rewrite <- (bsum_plus RT). apply bsum_ext. intros k Hk. rewrite <- (bsum_plus RT). apply bsum_ext. intros. ring.
  - unfold mean_on_sphere. rewrite <- (bsum_plus RT). apply bsum_ext. intros k Hk. rewrite <- (bsum_plus RT). apply bsum_ext. intros. ring.
Qed.
Lemma mo_const : forall i c, valid lead i -> MO i (fun _ _ => c) = c.
Proof.
  intros i c Hi. unfold mean_over. case_eq m; [intros mm E|intros E].
  - pose proof (mask_total_pos mm i E Hi) as D. unfold mean_on_mask. set (T := rsum nlat _) in D. match goal with |- ?a / ?b = _ => replace b with T by reflexivity; replace a with (T * c) end. field. lra.
    unfold T. rewrite <- (bsum_scal_r RT). apply bsum_ext. intros k Hk. now rewrite <- (bsum_scal_r RT).
  - unfold mean_on_sphere. rewrite (bsum_ext nlat _ (fun k => rsum nlon (fun _ => area (rw lat) nlat nlon k) * c)). rewrite (bsum_scal_r RT). rewrite area_total; auto. ring. pose proof total_pos. lra. intros k Hk. now rewrite <- (bsum_scal_r RT).
Qed.
Lemma mo_nonneg : forall i F, valid lead i -> (forall k j, (k < nlat)%nat -> (j < nlon)%nat -> 0 <= F k j) -> 0 <= MO i F.
Proof. intros i F Hi H. rewrite <- (mo_const i 0 Hi). now apply mo_le. Qed.
Lemma mo_zero : forall i F, valid lead i -> (forall k j, (k < nlat)%nat -> (j < nlon)%nat -> 0 <= F k j) ->
  (MO i F = 0 <-> forall k j, (k < nlat)%nat -> (j < nlon)%nat -> pixel_counts lm m i k j -> F k j = 0).
Proof.
  intros i F Hi H. unfold mean_over, pixel_counts. case_eq m; [intros mm E|intros E].
  - pose proof (mask_total_pos mm i E Hi) as D. unfold mean_on_mask. split.
    + intros Z k j Hk Hj N. unfold Rdiv in Z. apply Rmult_integral in Z. destruct Z as [Z|Z]. 2:{ pose proof (Rinv_0_lt_compat _ D). lra. }
      assert (T : forall k j, (k < nlat)%nat -> (j < nlon)%nat -> 0 <= rw lat k * val mm (bidx lm i ++ [k; j]) * F k j). { intros k' j' Hk' Hj'. pose proof (P k' Hk'). rewrite E in MN. pose proof (MN (bidx lm i) k' j' Hk' Hj'). apply Rmult_le_pos; auto. nra. }
      pose proof (rsum_zero_iff nlat _ (fun k Hk => rsum_nonneg nlon _ (fun j Hj => T k j Hk Hj)) Z k Hk) as Z1. cbv beta in Z1. pose proof (rsum_zero_iff nlon _ (fun j Hj => T k j Hk Hj) Z1 j Hj) as Z2. cbv beta in Z2.
      apply Rmult_integral in Z2. destruct Z2 as [Z2|Z2]; auto. apply Rmult_integral in Z2. pose proof (P k Hk). destruct Z2; [lra|contradiction].
    + intros Z. rewrite (bsum_zero' RT). unfold Rdiv. ring. intros k Hk. apply (bsum_zero' RT). intros j Hj. destruct (Req_dec (val mm (bidx lm i ++ [k; j])) 0) as [->|N]. ring. rewrite (Z k j) by auto. ring.
  - unfold mean_on_sphere. assert (T : forall k j, (k < nlat)%nat -> (j < nlon)%nat -> 0 <= area (rw lat) nlat nlon k * F k j). { intros k j Hk Hj. apply Rmult_le_pos; auto. left. now apply area_pos. } split.
    + intros Z k j Hk Hj _. pose proof (rsum_zero_iff nlat _ (fun k Hk => rsum_nonneg nlon _ (fun j Hj => T k j Hk Hj)) Z k Hk) as Z1. cbv beta in Z1. pose proof (rsum_zero_iff nlon _ (fun j Hj => T k j Hk Hj) Z1 j Hj) as Z2. cbv beta in Z2.
      apply Rmult_integral in Z2. pose proof (area_pos k Hk). destruct Z2; [lra|auto].
    + intros Z. apply (bsum_zero' RT). intros k Hk. apply (bsum_zero' RT). intros j Hj. rewrite Z by auto. ring.
Qed.

Lemma w11_at_nonneg : forall x y i k j, 0 <= w11_at x y i k j. Proof. intros. unfold w11_at. pose proof (Rabs_pos (gphi nlon x i k j - gphi nlon y i k j)). pose proof (Rabs_pos (gtheta nlat x i k j - gtheta nlat y i k j)). lra. Qed.
Lemma abs0 : forall a b, Rabs (a - b) = 0 -> a = b. Proof. intros a b H. destruct (Req_dec a b); auto. exfalso. apply (Rabs_no_R0 (a - b)); auto. lra. Qed.
Lemma w11_at_zero : forall x y i k j, w11_at x y i k j = 0 <-> gphi nlon x i k j = gphi nlon y i k j /\ gtheta nlat x i k j = gtheta nlat y i k j.
Proof.
  intros. unfold w11_at. pose proof (Rabs_pos (gphi nlon x i k j - gphi nlon y i k j)). pose proof (Rabs_pos (gtheta nlat x i k j - gtheta nlat y i k j)). split.
  - intros Z. split; apply abs0; lra.
  - intros [-> ->]. rewrite !Rminus_eq_0, Rabs_R0. ring.
Qed.
Lemma w11_nonneg : forall x y, field x -> field y -> exists v, w11_loss (q, kp, kt) x y m = Some v /\ 0 <= v /\
  (v = 0 <-> forall i k j, valid lead i -> (k < nlat)%nat -> (j < nlon)%nat -> pixel_counts lm m i k j -> gphi nlon x i k j = gphi nlon y i k j /\ gtheta nlat x i k j = gtheta nlat y i k j).
Proof.
  intros x y Sx Sy. rewrite (w11_value x y lm m) by auto. eexists. split; [reflexivity|].
  assert (N : forall i, valid lead i -> 0 <= MO i (w11_at x y i)) by (intros; apply mo_nonneg; auto; intros; apply w11_at_nonneg). split. apply average_nonneg; auto.
  rewrite average_zero by auto. split.
  - intros H i k j Hi Hk Hj Hc. apply w11_at_zero. apply (proj1 (mo_zero i (w11_at x y i) Hi (fun k j _ _ => w11_at_nonneg x y i k j)) (H i Hi)); auto.
  - intros H i Hi. apply mo_zero; auto. intros; apply w11_at_nonneg. intros k j Hk Hj Hc. apply w11_at_zero. auto.
Qed.
Lemma w11_sym : forall x y, field x -> field y -> w11_loss (q, kp, kt) x y m = w11_loss (q, kp, kt) y x m.
Proof.
  intros x y Sx Sy. rewrite !(fun x y => w11_value x y lm m) by auto. f_equal. apply average_ext. intros i Hi. apply mo_ext. intros k j Hk Hj. unfold w11_at. f_equal; apply Rabs_minus_sym.
Qed.
Lemma w11_triangle : forall x y z a b, field x -> field y -> field z -> w11_loss (q, kp, kt) x y m = Some a -> w11_loss (q, kp, kt) y z m = Some b -> exists c, w11_loss (q, kp, kt) x z m = Some c /\ c <= a + b.
Proof.
  intros x y z a b Sx Sy Sz. rewrite !(fun x y => w11_value x y lm m) by auto. intros Ea Eb. injection Ea as <-. injection Eb as <-. eexists. split; [reflexivity|]. rewrite <- average_plus. apply average_le; auto. intros i Hi.
  rewrite <- mo_plus. apply mo_le; auto. intros k j Hk Hj. unfold w11_at.
  pose proof (Rabs_triang (gphi nlon x i k j - gphi nlon y i k j) (gphi nlon y i k j - gphi nlon z i k j)) as A. pose proof (Rabs_triang (gtheta nlat x i k j - gtheta nlat y i k j) (gtheta nlat y i k j - gtheta nlat z i k j)) as B.
  replace (gphi nlon x i k j - gphi nlon y i k j + (gphi nlon y i k j - gphi nlon z i k j)) with (gphi nlon x i k j - gphi nlon z i k j) in A by ring.
  replace (gtheta nlat x i k j - gtheta nlat y i k j + (gtheta nlat y i k j - gtheta nlat z i k j)) with (gtheta nlat x i k j - gtheta nlat z i k j) in B by ring. lra.
Qed.
Lemma grad_offset : forall x x' (c : list nat -> R) i k j, (k < nlat)%nat -> (j < nlon)%nat -> valid lead i -> (forall k j, (k < nlat)%nat -> (j < nlon)%nat -> val x' (i ++ [k; j]) = val x (i ++ [k; j]) + c i) ->
  gphi nlon x' i k j = gphi nlon x i k j /\ gtheta nlat x' i k j = gtheta nlat x i k j.
Proof.
  intros x x' c i k j Hk Hj Hi H. unfold gphi, gtheta. split.
  - rewrite (rd_ext nlon _ (fun j => 1 * val x (i ++ [k; j]) + 1 * c i)) by (intros; rewrite H by auto; ring). rewrite (rd_lin nlon 1 1 (fun j => val x (i ++ [k; j])) (fun _ => c i)). rewrite rd_const by auto. ring.
  - rewrite (rd_ext nlat _ (fun k => 1 * val x (i ++ [k; j]) + 1 * c i)) by (intros; rewrite H by auto; ring). rewrite (rd_lin nlat 1 1 (fun k => val x (i ++ [k; j])) (fun _ => c i)). rewrite rd_const by auto. ring.
Qed.
Lemma w11_offset : forall x y x' y' c d, field x -> field y -> field x' -> field y' ->
  (forall i k j, valid lead i -> (k < nlat)%nat -> (j < nlon)%nat -> val x' (i ++ [k; j]) = val x (i ++ [k; j]) + c i /\ val y' (i ++ [k; j]) = val y (i ++ [k; j]) + d i) ->
  w11_loss (q, kp, kt) x' y' m = w11_loss (q, kp, kt) x y m.
Proof.
  intros x y x' y' c d Sx Sy Sx' Sy' H. rewrite !(fun x y => w11_value x y lm m) by auto. f_equal. apply average_ext. intros i Hi. apply mo_ext. intros k j Hk Hj. unfold w11_at.
  destruct (grad_offset x x' c i k j Hk Hj Hi) as [-> ->]. { intros. now apply H. } destruct (grad_offset y y' d i k j Hk Hj Hi) as [-> ->]. { intros. now apply H. } reflexivity.
Qed.
End P.
(** equal gradients everywhere: the difference is a constant and the shortest waves *)
Definition checker (f : nat -> nat -> R) : Prop := exists a b c d, (Nat.odd nlon = true -> b = 0 /\ d = 0) /\ (Nat.odd nlat = true -> c = 0 /\ d = 0) /\
  forall k j, (k < nlat)%nat -> (j < nlon)%nat -> f k j = a + b * (-1) ^ j + c * (-1) ^ k + d * (-1) ^ k * (-1) ^ j.
Lemma grads_equal : forall x y i, (forall k j, (k < nlat)%nat -> (j < nlon)%nat -> gphi nlon x i k j = gphi nlon y i k j /\ gtheta nlat x i k j = gtheta nlat y i k j) <->
  checker (fun k j => val x (i ++ [k; j]) - val y (i ++ [k; j])).
Proof.
  intros x y i. set (f k j := val x (i ++ [k; j]) - val y (i ++ [k; j])).
  assert (GP : forall k j, gphi nlon x i k j - gphi nlon y i k j = rd nlon (fun j => f k j) j) by (intros; symmetry; apply rd_sub).
  assert (GT : forall k j, gtheta nlat x i k j - gtheta nlat y i k j = 2 * rd nlat (fun k => f k j) k). { intros. unfold gtheta, f. rewrite rd_sub. ring. }
  split.
  - intros H.
    assert (R : forall k, (k < nlat)%nat -> exists a d, (Nat.odd nlon = true -> d = 0) /\ forall l, (l < nlon)%nat -> f k l = a + d * (-1) ^ l).
    { intros k Hk. apply rd_kernel; auto. intros j Hj. rewrite <- GP. destruct (H k j Hk Hj) as [-> _]. ring. }
    assert (T : forall j, (j < nlon)%nat -> exists a d, (Nat.odd nlat = true -> d = 0) /\ forall l, (l < nlat)%nat -> f l j = a + d * (-1) ^ l).
    { intros j Hj. apply (rd_kernel nlat (fun l => f l j)); auto. intros k Hk. pose proof (GT k j) as E. destruct (H k j Hk Hj) as [_ E2]. rewrite E2 in E. lra. }
    destruct (T 0%nat ltac:(lia)) as (a0 & d0 & O0 & E0). destruct (Nat.eq_dec nlon 1) as [N1|N1].
    + exists a0, 0, d0, 0. split; auto. split. intros O. split; auto. intros k j Hk Hj. replace j with 0%nat by lia. rewrite E0 by auto. cbn [pow]. ring.
    + destruct (T 1%nat ltac:(lia)) as (a1 & d1 & O1 & E1). exists ((a0 + a1) / 2), ((a0 - a1) / 2), ((d0 + d1) / 2), ((d0 - d1) / 2).
      assert (V : forall k, (k < nlat)%nat -> exists a d, (Nat.odd nlon = true -> d = 0) /\ a + d = a0 + d0 * (-1) ^ k /\ a - d = a1 + d1 * (-1) ^ k /\ forall l, (l < nlon)%nat -> f k l = a + d * (-1) ^ l).
      { intros k Hk. destruct (R k Hk) as (a & d & O & E). exists a, d. split; auto. pose proof (E 0%nat ltac:(lia)) as F0. pose proof (E 1%nat ltac:(lia)) as F1. rewrite E0 in F0 by auto. rewrite E1 in F1 by auto. cbn [pow] in F0, F1. split; [lra|]. split; [lra|]. auto. }
      split; [|split].
      * intros O. destruct (V 0%nat ltac:(lia)) as (a & d & O' & V1 & V2 & _). specialize (O' O). cbn [pow] in V1, V2.
        destruct (Nat.odd nlat) eqn:Ol. rewrite (O0 eq_refl), (O1 eq_refl) in *. split; [lra|field].
        destruct (Nat.eq_dec nlat 1) as [->|N]; [discriminate|]. destruct (V 1%nat ltac:(lia)) as (a' & d' & O'' & V1' & V2' & _). specialize (O'' O). cbn [pow] in V1', V2'. split; lra.
      * intros O. rewrite O0, O1 by auto. split; field.
      * intros k j Hk Hj. destruct (V k Hk) as (a & d & _ & V1 & V2 & E). rewrite E by auto. replace a with ((a0 + a1) / 2 + (d0 + d1) / 2 * (-1) ^ k) by lra. replace d with ((a0 - a1) / 2 + (d0 - d1) / 2 * (-1) ^ k) by lra. ring.
  - intros (a & b & c & d & O1 & O2 & E) k j Hk Hj. change (forall k j, (k < nlat)%nat -> (j < nlon)%nat -> f k j = a + b * (-1) ^ j + c * (-1) ^ k + d * (-1) ^ k * (-1) ^ j) in E. split; apply Rminus_diag_uniq.
    + rewrite GP. apply (proj2 (rd_kernel nlon (fun j => f k j) Hlon)); auto. exists (a + c * (-1) ^ k), (b + d * (-1) ^ k). split. intros O. destruct (O1 O) as [-> ->]. ring. intros l Hl. rewrite E by auto. ring.
    + rewrite GT. rewrite (proj2 (rd_kernel nlat (fun k => f k j) Hlat)); auto. ring. exists (a + b * (-1) ^ j), (c + d * (-1) ^ j). split. intros O. destruct (O2 O) as [-> ->]. ring. intros l Hl. rewrite E by auto. ring.
Qed.
End O.
