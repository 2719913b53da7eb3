(** Proofs about the element types of the attention layers. *)
From Coq Require Import List Arith Lia Bool.
From Verif Require Import MixedPrecModel MixedPrecSpec RingTypesModel.
Import ListNotations.

Lemma dt_refl : forall t, dt_eqb t t = true. Proof. now destruct t. Qed.
Lemma dt_eq : forall a b, dt_eqb a b = true <-> a = b. Proof. intros [] []; cbn; split; congruence. Qed.
Lemma read_right : forall n t u, read_as n t u = Right <-> t = u.
Proof.
  intros n t u. unfold read_as. destruct (dt_eqb t u) eqn:E. split; auto. intros _. now apply dt_eq. split; [destruct (_ <=? _); discriminate|]. intros ->. now rewrite dt_refl in E.
Qed.
Lemma read_outside : forall n t u, 1 <= n -> size t < size u -> read_as n t u = Outside.
Proof.
  intros n t u Hn H. unfold read_as. destruct (dt_eqb t u) eqn:E. apply dt_eq in E. subst. lia. rewrite (proj2 (Nat.leb_gt _ _)); [reflexivity|]. now apply Nat.mul_lt_mono_pos_l.
Qed.
Lemma worse_right : forall a b, worse a b = Right <-> a = Right /\ b = Right.
Proof. intros [] []; cbn; split; try tauto; try discriminate; intros [? ?]; discriminate. Qed.
Lemma worse_outside_l : forall a b, a = Outside -> worse a b = Outside. Proof. now intros [] [] H. Qed.
Lemma worse_outside_r : forall a b, b = Outside -> worse a b = Outside. Proof. now intros [] [] H. Qed.
Lemma ring_right : forall k v q quad n m nlat, ring_kernel k v q quad n m nlat = Right <-> k = q /\ v = q /\ quad = F32.
Proof. intros. unfold ring_kernel. rewrite !worse_right, !read_right. tauto. Qed.

Section Rms.
Variable rms : dtype -> dtype -> dtype.
Lemma ac_none : forall t, ac_dt None t = t. Proof. now destruct t. Qed.
Lemma ac_some : forall a t, t <> F64 -> ac_dt (Some a) t = a. Proof. intros a [] H; try reflexivity. congruence. Qed.
Lemma project_ok : forall ac l x, types_ok ac x (a_dt l) -> project ac l x = Some (conv_dt ac x).
Proof.
  intros [a|] l x H; unfold project; cbn [types_ok conv_dt] in *. destruct H as (Ha & Hx & Hw). now rewrite !ac_some, dt_refl by auto. rewrite !ac_none, H, dt_refl. reflexivity.
Qed.
(** The types of the arguments a user may combine for the whole layer *)
Definition inputs_ok (ac : autocast) (l : alayer) (xk xv xq : dtype) : Prop :=
  types_ok ac xk (a_dt l) /\ types_ok ac xv (a_dt l) /\ types_ok ac xq (a_dt l).
Lemma qkv_ok : forall ac l xk xv xq, inputs_ok ac l xk xv xq -> exists k v q, qkv rms ac l xk xv xq = Some (k, v, q) /\
  (ac = None -> k = a_dt l /\ v = a_dt l /\ q = match a_scale l with Some s => promote (a_dt l) s | None => a_dt l end).
Proof.
  intros ac l xk xv xq (Hk & Hv & Hq). unfold qkv. rewrite !project_ok by auto. cbn [bind]. do 3 eexists. split; [reflexivity|]. intros ->. cbn in *. subst. unfold qk_norm. now destruct (a_qknorm l).
Qed.
Lemma forward_ok : forall ac l xk xv xq n m nlat, inputs_ok ac l xk xv xq -> a_quad l = F32 -> (forall s, a_scale l = Some s -> ac <> None \/ promote (a_dt l) s = a_dt l) ->
  ring_forward rms ac l xk xv xq n m nlat = Some (Right, conv_dt ac (a_dt l)) /\ serial_forward rms ac l xk xv xq n m nlat = Some (Right, conv_dt ac (a_dt l)) /\
  exists k v q, qkv rms ac l xk xv xq = Some (k, v, q) /\ forall p, ring_backward rms ac l xk xv xq n m p nlat = Some (Right, (k, v, q)).
Proof.
  intros ac l xk xv xq n m nlat I Hq Hs. destruct (qkv_ok ac l xk xv xq I) as (k & v & q & E & N). unfold ring_forward, serial_forward, ring_backward. rewrite E. cbn [bind].
  assert (C : cast ac k = conv_dt ac (a_dt l) /\ cast ac v = conv_dt ac (a_dt l) /\ cast ac q = conv_dt ac (a_dt l)).
  { destruct ac as [a|]; cbn [cast conv_dt]; auto. destruct (N eq_refl) as (-> & -> & ->). repeat split. destruct (a_scale l) as [s|] eqn:Es; auto. destruct (Hs s eq_refl); congruence. }
  destruct C as (-> & -> & ->). assert (P : project ac l (conv_dt ac (a_dt l)) = Some (conv_dt ac (a_dt l))).
  { destruct I as (I & _). destruct ac as [a|]; cbn [conv_dt types_ok] in *; rewrite project_ok; cbn; tauto. }
  rewrite P. cbn [bind]. assert (K : forall t, ring_kernel t t t (a_quad l) n m nlat = Right) by (intros; apply ring_right; auto).
  split. now rewrite K. split.
  - unfold serial_kernel. rewrite !dt_refl. cbn [andb guard bind]. fold (ring_kernel (conv_dt ac (a_dt l)) (conv_dt ac (a_dt l)) (conv_dt ac (a_dt l)) (a_quad l) n m nlat). now rewrite K.
  - exists k, v, q. split; auto. intros p. unfold ring_bwd_kernel. rewrite K. rewrite (proj2 (read_right p _ _) eq_refl). reflexivity.
Qed.
End Rms.

(** ** A layer that was converted with its buffers *)
Definition narrow (t : dtype) : access := match t with F32 => Right | F64 => Wrong | _ => Outside end.
Lemma read_narrow : forall n t, 1 <= n -> read_as n t F32 = narrow t.
Proof.
  intros n t Hn. destruct t; cbn [narrow]; [apply read_outside; cbn; lia | apply read_outside; cbn; lia | now apply read_right |].
  unfold read_as. cbn [dt_eqb size]. rewrite (proj2 (Nat.leb_le _ _)); [reflexivity | lia].
Qed.
Lemma forward_quad : forall rms ac l xk xv xq n m nlat, inputs_ok ac l xk xv xq -> a_scale l = None -> 1 <= nlat ->
  ring_forward rms ac l xk xv xq n m nlat = Some (narrow (a_quad l), conv_dt ac (a_dt l)) /\
  serial_forward rms ac l xk xv xq n m nlat = Some (narrow (a_quad l), conv_dt ac (a_dt l)) /\
  (a_quad l <> F32 -> serial_cpu_forward rms ac l xk xv xq = None).
Proof.
  intros rms ac l xk xv xq n m nlat I Hs Hn. destruct (qkv_ok rms ac l xk xv xq I) as (k & v & q & E & N). unfold ring_forward, serial_forward, serial_cpu_forward. rewrite E. cbn [bind].
  assert (C : cast ac k = conv_dt ac (a_dt l) /\ cast ac v = conv_dt ac (a_dt l) /\ cast ac q = conv_dt ac (a_dt l)).
  { destruct ac as [a|]; cbn [cast conv_dt]; auto. destruct (N eq_refl) as (-> & -> & ->). rewrite Hs. auto. }
  destruct C as (-> & -> & ->). assert (P : project ac l (conv_dt ac (a_dt l)) = Some (conv_dt ac (a_dt l))).
  { destruct I as (I & _). destruct ac as [a|]; cbn [conv_dt types_ok] in *; rewrite project_ok; cbn; tauto. }
  rewrite P. unfold ring_kernel, serial_kernel, serial_cpu_kernel. rewrite !dt_refl. cbn [andb guard bind].
  assert (R : forall j t, read_as j t t = Right) by (intros; now apply read_right). rewrite !R, (read_narrow nlat _ Hn).
  assert (W : worse (worse Right Right) (narrow (a_quad l)) = narrow (a_quad l)) by (destruct (narrow (a_quad l)); reflexivity).
  rewrite W. split; [reflexivity|]. split; [reflexivity|]. intros Hq. destruct (dt_eqb (a_quad l) F32) eqn:D; [apply dt_eq in D; congruence | reflexivity].
Qed.

(** ** A scale of a wider type *)
Lemma promote_size : forall a s, size a < size s -> promote a s = s. Proof. intros [] []; cbn; intros; try reflexivity; lia. Qed.
Lemma scale_wide : forall rms l s n m nlat, a_scale l = Some s -> size (a_dt l) < size s -> 1 <= n ->
  serial_forward rms None l (a_dt l) (a_dt l) (a_dt l) n m nlat = None /\
  ring_forward rms None l (a_dt l) (a_dt l) (a_dt l) n m nlat = Some (Outside, a_dt l).
Proof.
  intros rms l s n m nlat Hs Hw Hn.
  assert (I : inputs_ok None l (a_dt l) (a_dt l) (a_dt l)) by (cbn; repeat split).
  destruct (qkv_ok rms None l _ _ _ I) as (k & v & q & E & N). destruct (N eq_refl) as (-> & -> & ->). rewrite Hs, promote_size in E by auto.
  unfold ring_forward, serial_forward. rewrite E. cbn [bind cast]. split.
  - unfold serial_kernel. destruct (dt_eqb (a_dt l) s) eqn:D; [apply dt_eq in D; subst; lia | reflexivity].
  - rewrite (project_ok None l (a_dt l)) by reflexivity. cbn [bind conv_dt]. unfold ring_kernel. rewrite (read_outside n) by auto. now destruct (read_as m (a_dt l) s), (read_as nlat (a_quad l) F32).
Qed.
