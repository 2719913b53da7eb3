(** Spherical integrals with and without a mask, and the L1, L2 and squared losses. *)
From Coq Require Import List Arith Lia Bool Reals Lra.
From Verif Require Import TensorModel TensorProofs BigSum TruncModel QuadModel CCProofs LossModel LossSpec LossProofs.
Import ListNotations.
Local Open Scope R_scope.

Lemma bmap2_same : forall A B D (f : A -> B -> D) x y s, shp x = s -> shp y = s -> exists z, bmap2 f x y = Some z /\ shp z = s /\ forall i, valid s i -> val z i = f (val x i) (val y i).
Proof.
  intros A B D f x y s Sx Sy. unfold bmap2. rewrite Sx, Sy, bshape_refl. cbn [bindo]. eexists. split; [reflexivity|]. split; auto. intros i V. cbn [val]. now rewrite !bidx_valid.
Qed.
Lemma valid_2' : forall lead a b L p q, valid lead L -> (p < a)%nat -> (q < b)%nat -> valid (lead ++ [a; b]) (L ++ [p; q]).
Proof.
  intros lead a b L p q [H1 H2] Ha Hb. split. rewrite !app_length, H1. reflexivity. intros d Hd. rewrite app_length in Hd. cbn in Hd.
  destruct (lt_dec d (length lead)). { rewrite !app_nth1 by lia. auto. }
  rewrite !app_nth2 by lia. rewrite H1. destruct (d - length lead)%nat as [|[|k]] eqn:Q; cbn; lia.
Qed.
Lemma sum_last2_value : forall x lead h w, shp x = lead ++ [h; w] -> exists y, sum_last2 x = Some y /\ shp y = lead /\
  forall i, val y i = rsum h (fun a => rsum w (fun b => val x (i ++ [a; b]))).
Proof.
  intros x lead h w Sx. unfold sum_last2, guard, ndim, dimsz. rewrite Sx, app_length. cbn [length]. rewrite (proj2 (Nat.leb_le 2 (length lead + 2))) by lia. cbn [bindo].
  eexists. split; [reflexivity|]. cbn [shp val]. split. rewrite firstn_app. replace (length lead + 2 - 2)%nat with (length lead) by lia. rewrite firstn_all, Nat.sub_diag. cbn. apply app_nil_r.
  intros i. rewrite !app_nth2 by lia. replace (length lead + 2 - 2 - length lead)%nat with 0%nat by lia. replace (length lead + 2 - 1 - length lead)%nat with 1%nat by lia. reflexivity.
Qed.

(** [q]: the row weights [a]. *)
Definition rows (q : tensor R) (h : nat) (a : nat -> R) : Prop := shp q = [h; 1%nat] /\ forall k, (k < h)%nat -> val q [k; 0%nat] = a k.
Lemma integrate_value : forall q h a u lead w, rows q h a -> shp u = lead ++ [h; w] ->
  exists y, integrate_sphere q u None = Some y /\ shp y = lead /\ forall i, valid lead i -> val y i = rsum h (fun k => rsum w (fun j => a k * val u (i ++ [k; j]%nat))).
Proof.
  intros q h a u lead w [Sq Vq] Su. unfold integrate_sphere, bmap2. rewrite Su, Sq, bshape_rows. cbn [bindo].
  destruct (sum_last2_value (mkT (lead ++ [h; w]) (fun i => val u (bidx (lead ++ [h; w]) i) * val q (bidx [h; 1%nat] i))) lead h w eq_refl) as (y & E & S & V).
  exists y. split; auto. split; auto. intros i Hi. rewrite V. apply bsum_ext. intros k Hk. apply bsum_ext. intros j Hj. cbn [val].
  rewrite bidx_valid by (now apply valid_2'). rewrite bidx_rows by auto. rewrite Vq by auto. ring.
Qed.
Definition denominator (h w : nat) (a : nat -> R) (m : tensor R) (i : list nat) : R := rsum h (fun k => rsum w (fun j => a k * val m (i ++ [k; j]%nat))).
Lemma integrate_mask_value : forall q h a u m lead lm w, rows q h a -> shp u = lead ++ [h; w] -> shp m = lm ++ [h; w] -> bshape lm lead = Some lead ->
  (forall i, valid lm i -> denominator h w a m i <> 0) ->
  exists y, integrate_sphere q u (Some m) = Some y /\ shp y = lead /\ forall i, valid lead i ->
    val y i = rsum h (fun k => rsum w (fun j => a k * val m (bidx lm i ++ [k; j]%nat) * val u (i ++ [k; j]%nat))) / denominator h w a m (bidx lm i).
Proof.
  intros q h a u m lead lm w [Sq Vq] Su Sm Hb HD. unfold integrate_sphere.
  unfold bmap2 at 1. rewrite Su, Sm, (bshape_app2 _ _ _ h w Hb). cbn [bindo]. unfold bmap2 at 1. rewrite Sq. cbn [shp]. rewrite bshape_rows. cbn [bindo].
  match goal with |- context [sum_last2 ?x] => destruct (sum_last2_value x lead h w eq_refl) as (num & E & S & V) end. rewrite E. cbn [bindo].
  unfold bmap2. rewrite Sq, Sm, bshape_rows. cbn [bindo].
  match goal with |- context [sum_last2 ?x] => destruct (sum_last2_value x lm h w eq_refl) as (den & E' & S' & V') end. rewrite E'. cbn [bindo].
  assert (VD : forall i, valid lm i -> val den i = denominator h w a m i).
  { intros i Hi. rewrite V'. unfold denominator. apply bsum_ext. intros k Hk. apply bsum_ext. intros j Hj. cbn [val]. rewrite bidx_valid by (now apply valid_2'). rewrite bidx_rows, Vq by auto. ring. }
  unfold tdiv. rewrite (proj2 (forallb_forall _ _)).
  2:{ intros i Hi. rewrite S' in Hi. apply in_indices in Hi. rewrite VD by auto. destruct (Req_EM_T (denominator h w a m i) 0) as [Z|Z]; auto. exfalso. now apply (HD i). }
  unfold bmap2. rewrite S, S', bshape_comm, Hb. cbn [bindo]. eexists. split; [reflexivity|]. split; auto. intros i Hi. cbn [val].
  rewrite (bidx_valid lead) by auto. rewrite VD by (eapply bidx_valid_b; eauto). f_equal. rewrite V. apply bsum_ext. intros k Hk. apply bsum_ext. intros j Hj. cbn [val shp].
  rewrite (bidx_valid (lead ++ [h; w])) by (now apply valid_2'). rewrite bidx_rows, Vq by auto. rewrite (bidx_valid (lead ++ [h; w])) by (now apply valid_2'). rewrite bidx_app2 by auto. ring.
Qed.
Lemma integrate_mask_none : forall q h a u m lead lm w i, rows q h a -> shp u = lead ++ [h; w] -> shp m = lm ++ [h; w] -> bshape lm lead = Some lead ->
  valid lm i -> denominator h w a m i = 0 -> integrate_sphere q u (Some m) = None.
Proof.
  intros q h a u m lead lm w i [Sq Vq] Su Sm Hb Hi HD. unfold integrate_sphere.
  unfold bmap2 at 1. rewrite Su, Sm, (bshape_app2 _ _ _ h w Hb). cbn [bindo]. unfold bmap2 at 1. rewrite Sq. cbn [shp]. rewrite bshape_rows. cbn [bindo].
  match goal with |- context [sum_last2 ?x] => destruct (sum_last2_value x lead h w eq_refl) as (num & E & S & V) end. rewrite E. cbn [bindo].
  unfold bmap2. rewrite Sq, Sm, bshape_rows. cbn [bindo].
  match goal with |- context [sum_last2 ?x] => destruct (sum_last2_value x lm h w eq_refl) as (den & E' & S' & V') end. rewrite E'. cbn [bindo].
  assert (VD : val den i = 0).
  { transitivity (denominator h w a m i); [|exact HD]. rewrite V'. unfold denominator. apply bsum_ext. intros k Hk. apply bsum_ext. intros j Hj. cbn [val]. rewrite bidx_valid by (now apply valid_2'). rewrite bidx_rows, Vq by auto. ring. }
  unfold tdiv. match goal with |- (if ?b then _ else _) = _ => destruct b eqn:B end; auto. rewrite forallb_forall in B. specialize (B i). rewrite S' in B. specialize (B ltac:(now apply in_indices)).
  rewrite VD in B. destruct (Req_EM_T 0 0) as [_|N]; [discriminate|]. exfalso. now apply N.
Qed.

(** ** Losses *)
Definition integral (h w : nat) (a : nat -> R) (m : option (tensor R)) (lm : list nat) (f : list nat -> R) (i : list nat) : R :=
  match m with
  | None => rsum h (fun k => rsum w (fun j => a k * f (i ++ [k; j]%nat)))
  | Some m => rsum h (fun k => rsum w (fun j => a k * val m (bidx lm i ++ [k; j]%nat) * f (i ++ [k; j]%nat))) / denominator h w a m (bidx lm i)
  end.
Definition mask_ok (h w : nat) (a : nat -> R) (m : option (tensor R)) (lm lead : list nat) : Prop :=
  match m with None => True | Some m => shp m = lm ++ [h; w] /\ bshape lm lead = Some lead /\ forall i, valid lm i -> denominator h w a m i <> 0 end.
Lemma integrate_any : forall q h a u m lead lm w, rows q h a -> shp u = lead ++ [h; w] -> mask_ok h w a m lm lead ->
  exists y, integrate_sphere q u m = Some y /\ shp y = lead /\ forall i, valid lead i -> val y i = integral h w a m lm (val u) i.
Proof.
  intros q h a u m lead lm w Q Su M. destruct m as [m|]; cbn [integral mask_ok] in *. destruct M as (M1 & M2 & M3). now apply integrate_mask_value. now apply integrate_value.
Qed.
Lemma loss_value : forall q h a x y m lead lm w f, rows q h a -> shp x = lead ++ [h; w] -> shp y = lead ++ [h; w] -> mask_ok h w a m lm lead -> (1 <= count lead)%nat ->
  spherical_loss (bmap2 f) Some q x y m = Some (average lead (integral h w a m lm (fun i => f (val x i) (val y i)))).
Proof.
  intros q h a x y m lead lm w f Q Sx Sy M C. unfold spherical_loss. destruct (bmap2_same _ _ _ f x y _ Sx Sy) as (z & -> & Sz & Vz). cbn [bindo].
  destruct (integrate_any q h a z m lead lm w Q Sz M) as (l & -> & Sl & Vl). cbn [bindo]. rewrite mean_value by (rewrite Sl; auto). f_equal. rewrite Sl. apply average_ext. intros i Hi. rewrite Vl by auto.
  unfold integral. destruct m; [f_equal|]; (apply bsum_ext; intros k Hk; apply bsum_ext; intros j Hj; rewrite Vz by (now apply valid_2'); reflexivity).
Qed.
Lemma integral_ext : forall h w a m lm f g i, (forall k j, (k < h)%nat -> (j < w)%nat -> f (i ++ [k; j]%nat) = g (i ++ [k; j]%nat)) -> integral h w a m lm f i = integral h w a m lm g i.
Proof. intros h w a m lm f g i H. unfold integral. destruct m; [f_equal|]; (apply bsum_ext; intros k Hk; apply bsum_ext; intros j Hj; rewrite H by auto; reflexivity). Qed.
(** masks with entries >= 0 and weights > 0 *)
Definition mask_nonneg (h w : nat) (m : option (tensor R)) : Prop := match m with None => True | Some m => forall i k j, (k < h)%nat -> (j < w)%nat -> 0 <= val m (i ++ [k; j]%nat) end.
Lemma denominator_pos : forall h w a m i, (forall k, (k < h)%nat -> 0 < a k) -> mask_nonneg h w (Some m) -> denominator h w a m i <> 0 -> 0 < denominator h w a m i.
Proof.
  intros h w a m i A M N. assert (0 <= denominator h w a m i). { apply rsum_nonneg. intros k Hk. apply rsum_nonneg. intros j Hj. specialize (A k Hk). specialize (M i k j Hk Hj). nra. } lra.
Qed.
Lemma integral_lin : forall h w a m lm c d f g i, integral h w a m lm (fun x => c * f x + d * g x) i = c * integral h w a m lm f i + d * integral h w a m lm g i.
Proof.
  intros h w a m lm c d f g i. unfold integral. destruct m as [mm|].
  - unfold Rdiv. rewrite <- !Rmult_assoc, <- Rmult_plus_distr_r. f_equal. rewrite <- !(bsum_scal_l RT), <- (bsum_plus RT). apply bsum_ext. intros k Hk. rewrite <- !(bsum_scal_l RT), <- (bsum_plus RT). apply bsum_ext. intros j Hj. ring.
  - rewrite <- !(bsum_scal_l RT), <- (bsum_plus RT). apply bsum_ext. intros k Hk. rewrite <- !(bsum_scal_l RT), <- (bsum_plus RT). apply bsum_ext. intros j Hj. ring.
Qed.
Section Pos.
Variables (h w : nat) (a : nat -> R) (m : option (tensor R)) (lm lead : list nat).
Hypotheses (A : forall k, (k < h)%nat -> 0 < a k) (M : mask_ok h w a m lm lead) (MN : mask_nonneg h w m).
Lemma integral_le : forall f g i, valid lead i -> (forall k j, (k < h)%nat -> (j < w)%nat -> f (i ++ [k; j]%nat) <= g (i ++ [k; j]%nat)) -> integral h w a m lm f i <= integral h w a m lm g i.
Proof.
  intros f g i Hi H. unfold integral. destruct m as [mm|].
  - destruct M as (_ & M2 & M3). assert (D := denominator_pos h w a mm (bidx lm i) A MN (M3 _ (bidx_valid_b _ _ _ M2 Hi))).
    apply Rmult_le_compat_r. left. now apply Rinv_0_lt_compat. apply rsum_le. intros k Hk. apply rsum_le. intros j Hj. specialize (A k Hk). pose proof (MN (bidx lm i) k j Hk Hj). specialize (H k j Hk Hj).
    apply Rmult_le_compat_l; auto. nra.
  - apply rsum_le. intros k Hk. apply rsum_le. intros j Hj. specialize (A k Hk). specialize (H k j Hk Hj). nra.
Qed.
Lemma integral_nonneg : forall f i, valid lead i -> (forall k j, (k < h)%nat -> (j < w)%nat -> 0 <= f (i ++ [k; j]%nat)) -> 0 <= integral h w a m lm f i.
Proof.
  intros f i Hi H. apply Rle_trans with (integral h w a m lm (fun _ => 0 * 0 + 0 * 0) i). rewrite (integral_lin h w a m lm 0 0 (fun _ => 0) (fun _ => 0)). lra. apply integral_le; auto. intros. rewrite !Rmult_0_l, Rplus_0_l. auto.
Qed.
(** a pixel counts when there is no mask, or the mask is not zero there *)
Definition counted (i : list nat) (k j : nat) : Prop := match m with None => True | Some mm => val mm (bidx lm i ++ [k; j]%nat) <> 0 end.
Lemma integral_zero : forall f i, valid lead i -> (forall k j, (k < h)%nat -> (j < w)%nat -> 0 <= f (i ++ [k; j]%nat)) ->
  (integral h w a m lm f i = 0 <-> forall k j, (k < h)%nat -> (j < w)%nat -> counted i k j -> f (i ++ [k; j]%nat) = 0).
Proof.
  intros f i Hi H. unfold integral, counted. destruct m as [mm|].
  - destruct M as (_ & M2 & M3). assert (D := denominator_pos h w a mm (bidx lm i) A MN (M3 _ (bidx_valid_b _ _ _ M2 Hi))). pose proof (Rinv_0_lt_compat _ D).
    assert (NN : forall k j, (k < h)%nat -> (j < w)%nat -> 0 <= a k * val mm (bidx lm i ++ [k; j]%nat) * f (i ++ [k; j]%nat)). { intros k j Hk Hj. specialize (A k Hk). pose proof (MN (bidx lm i) k j Hk Hj). specialize (H k j Hk Hj). apply Rmult_le_pos; auto. nra. }
    split.
    + intros Z k j Hk Hj Hc. assert (Z' : rsum h (fun k => rsum w (fun j => a k * val mm (bidx lm i ++ [k; j]%nat) * f (i ++ [k; j]%nat))) = 0). { unfold Rdiv in Z. apply Rmult_integral in Z. destruct Z; auto. lra. }
      pose proof (rsum_zero_iff h _ (fun k Hk => rsum_nonneg w _ (fun j Hj => NN k j Hk Hj)) Z' k Hk) as Z1. pose proof (rsum_zero_iff w _ (fun j Hj => NN k j Hk Hj) Z1 j Hj) as Z2. cbn beta in Z2.
      specialize (A k Hk). apply Rmult_integral in Z2. destruct Z2 as [Z2|Z2]; auto. apply Rmult_integral in Z2. destruct Z2; [lra|contradiction].
    + intros Z. rewrite (bsum_zero' RT). unfold Rdiv; ring. intros k Hk. apply (bsum_zero' RT). intros j Hj. destruct (Req_dec (val mm (bidx lm i ++ [k; j]%nat)) 0) as [->|Q]. ring. rewrite Z by auto. ring.
  - assert (NN : forall k j, (k < h)%nat -> (j < w)%nat -> 0 <= a k * f (i ++ [k; j]%nat)). { intros k j Hk Hj. specialize (A k Hk). specialize (H k j Hk Hj). apply Rmult_le_pos; auto. lra. }
    split.
    + intros Z k j Hk Hj _. pose proof (rsum_zero_iff h _ (fun k Hk => rsum_nonneg w _ (fun j Hj => NN k j Hk Hj)) Z k Hk) as Z1. pose proof (rsum_zero_iff w _ (fun j Hj => NN k j Hk Hj) Z1 j Hj) as Z2. cbn beta in Z2.
      specialize (A k Hk). apply Rmult_integral in Z2. destruct Z2; auto. lra.
    + intros Z. apply (bsum_zero' RT). intros k Hk. apply (bsum_zero' RT). intros j Hj. rewrite Z by auto. ring.
Qed.
(** weights summing to one, or a mask: constants integrate to themselves *)
Lemma integral_const : forall c i, valid lead i -> (m = None -> rsum h (fun k => rsum w (fun _ => a k)) = 1) -> integral h w a m lm (fun _ => c) i = c.
Proof.
  intros c i Hi H1. unfold integral. destruct m as [mm|].
  - destruct M as (_ & M2 & M3). assert (D := M3 _ (bidx_valid_b _ _ _ M2 Hi)). unfold denominator in *.
    rewrite (bsum_ext h (fun k => rsum w (fun j => a k * val mm (bidx lm i ++ [k; j]%nat) * c)) (fun k => rsum w (fun j => a k * val mm (bidx lm i ++ [k; j]%nat)) * c)) by (intros; apply (bsum_scal_r RT)).
    rewrite (bsum_scal_r RT). now field.
  - rewrite (bsum_ext h _ (fun k => rsum w (fun _ => a k) * c)) by (intros; apply (bsum_scal_r RT)). rewrite (bsum_scal_r RT), H1 by auto. ring.
Qed.
(** Cauchy-Schwarz *)
Lemma integral_cs : forall f g i, valid lead i ->
  integral h w a m lm (fun x => f x * g x) i ^ 2 <= integral h w a m lm (fun x => f x ^ 2) i * integral h w a m lm (fun x => g x ^ 2) i.
Proof.
  intros f g i Hi. set (F := integral h w a m lm (fun x => f x ^ 2) i). set (G := integral h w a m lm (fun x => g x ^ 2) i). set (H := integral h w a m lm (fun x => f x * g x) i).
  assert (HF : 0 <= F) by (apply integral_nonneg; auto; intros; apply pow2_ge_0). assert (HG : 0 <= G) by (apply integral_nonneg; auto; intros; apply pow2_ge_0).
  assert (Q : forall s t, 0 <= s ^ 2 * F + 2 * s * t * H + t ^ 2 * G).
  { intros s t. replace (s ^ 2 * F + 2 * s * t * H + t ^ 2 * G) with (integral h w a m lm (fun x => (s * f x + t * g x) ^ 2) i). apply integral_nonneg; auto. intros. apply pow2_ge_0.
    rewrite (integral_ext h w a m lm (fun x => (s * f x + t * g x) ^ 2) (fun x => 1 * (s ^ 2 * f x ^ 2 + (2 * s * t) * (f x * g x)) + t ^ 2 * g x ^ 2)) by (intros; ring).
    rewrite (integral_lin h w a m lm 1 (t ^ 2) (fun x => s ^ 2 * f x ^ 2 + (2 * s * t) * (f x * g x)) (fun x => g x ^ 2)), (integral_lin h w a m lm (s ^ 2) (2 * s * t) (fun x => f x ^ 2) (fun x => f x * g x)). unfold F, G, H. ring. }
  destruct (Req_dec G 0) as [Z|Z].
  - pose proof (Q H (- (F + 1) / 2)) as Q1. rewrite Z in *. nra.
  - specialize (Q G (- H)). assert (0 < G) by lra. assert (G * (F * G - H ^ 2) >= 0) by nra. nra.
Qed.
End Pos.
