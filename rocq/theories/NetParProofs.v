(** The forward passes are uniform in their carrier: a relation kept by layers, sums and
    concatenations is kept by the networks. *)
From Coq Require Import String List Arith Lia Bool.
From Verif Require Import TensorModel NetModel NetModels NetSpec.
Import ListNotations.
Local Open Scope list_scope.
Local Open Scope nat_scope.

Definition orel {Y1 Y2 Y3} (Q : Y1 -> Y2 -> Y3 -> Prop) (m1 : option Y1) (m2 : option Y2) (m3 : option Y3) : Prop :=
  forall y1, m1 = Some y1 -> exists y2 y3, m2 = Some y2 /\ m3 = Some y3 /\ Q y1 y2 y3.
Lemma orel_ret : forall Y1 Y2 Y3 (Q : Y1 -> Y2 -> Y3 -> Prop) a b c, Q a b c -> orel Q (Some a) (Some b) (Some c).
Proof. intros. intros y E. injection E as <-. eauto. Qed.
Lemma orel_none : forall Y1 Y2 Y3 (Q : Y1 -> Y2 -> Y3 -> Prop) b c, orel Q None b c.
Proof. intros. intros y E. discriminate. Qed.
Lemma orel_bind : forall Y1 Y2 Y3 Z1 Z2 Z3 (Q : Y1 -> Y2 -> Y3 -> Prop) (Q' : Z1 -> Z2 -> Z3 -> Prop) m1 m2 m3 f1 f2 f3,
  orel Q m1 m2 m3 -> (forall a b c, Q a b c -> orel Q' (f1 a) (f2 b) (f3 c)) -> orel Q' (bindo m1 f1) (bindo m2 f2) (bindo m3 f3).
Proof.
  intros Y1 Y2 Y3 Z1 Z2 Z3 Q Q' m1 m2 m3 f1 f2 f3 H F z E. destruct m1 as [a|]; [|discriminate]. cbn in E.
  destruct (H a eq_refl) as (b & c & -> & -> & HQ). cbn. apply (F a b c HQ z E).
Qed.
Inductive forall3 {Y1 Y2 Y3} (Q : Y1 -> Y2 -> Y3 -> Prop) : list Y1 -> list Y2 -> list Y3 -> Prop :=
| f3_nil : forall3 Q [] [] []
| f3_cons : forall a b c la lb lc, Q a b c -> forall3 Q la lb lc -> forall3 Q (a :: la) (b :: lb) (c :: lc).
Lemma forall3_app : forall Y1 Y2 Y3 (Q : Y1 -> Y2 -> Y3 -> Prop) la lb lc la' lb' lc', forall3 Q la lb lc -> forall3 Q la' lb' lc' -> forall3 Q (la ++ la') (lb ++ lb') (lc ++ lc').
Proof. induction 1; cbn; intros; auto. constructor; auto. Qed.
Lemma forall3_rev : forall Y1 Y2 Y3 (Q : Y1 -> Y2 -> Y3 -> Prop) la lb lc, forall3 Q la lb lc -> forall3 Q (rev la) (rev lb) (rev lc).
Proof. induction 1; cbn. constructor. apply forall3_app; auto. constructor; auto. constructor. Qed.

Section Par.
Context {X1 X2 X3 : Type}.
Variables (r1 : layer -> X1 -> option X1) (r2 : layer -> X2 -> option X2) (r3 : layer -> X3 -> option X3).
Variables (a1 : X1 -> X1 -> option X1) (a2 : X2 -> X2 -> option X2) (a3 : X3 -> X3 -> option X3).
Variables (c1 : list X1 -> option X1) (c2 : list X2 -> option X2) (c3 : list X3 -> option X3).
Variable Rl : X1 -> X2 -> X3 -> Prop.
Variable ok : layer -> Prop.
Hypothesis Hrun : forall l t x y, ok l -> Rl t x y -> orel Rl (r1 l t) (r2 l x) (r3 l y).
Hypothesis Hadd : forall t x y t' x' y', Rl t x y -> Rl t' x' y' -> orel Rl (a1 t t') (a2 x x') (a3 y y').
Hypothesis Hcat : forall t x y, forall3 Rl t x y -> orel Rl (c1 t) (c2 x) (c3 y).

Lemma par_seq : forall ls t x y, Forall ok ls -> Rl t x y -> orel Rl (seqrun r1 ls t) (seqrun r2 ls x) (seqrun r3 ls y).
Proof.
  induction ls; intros t x y F H; cbn [seqrun]. apply orel_ret; auto.
  inversion F; subst. eapply orel_bind. apply Hrun; eauto. intros. apply IHls; auto.
Qed.
Lemma par_skip : forall sk t x y t' x' y', Forall ok (oflat sk) -> Rl t x y -> Rl t' x' y' -> orel Rl (add_skip r1 a1 sk t t') (add_skip r2 a2 sk x x') (add_skip r3 a3 sk y y').
Proof.
  intros [ls|] t x y t' x' y' F H H'; cbn [add_skip]. 2: apply orel_ret; auto.
  eapply orel_bind. apply par_seq; eauto. intros. apply Hadd; auto.
Qed.
Lemma par_fold : forall B (f1 : B -> X1 -> option X1) (f2 : B -> X2 -> option X2) (f3 : B -> X3 -> option X3) bs,
  (forall b, In b bs -> forall t x y, Rl t x y -> orel Rl (f1 b t) (f2 b x) (f3 b y)) ->
  forall t x y, Rl t x y -> orel Rl (foldM f1 bs t) (foldM f2 bs x) (foldM f3 bs y).
Proof.
  intros B f1 f2 f3. induction bs; intros F t x y H; cbn [foldM]. apply orel_ret; auto.
  eapply orel_bind. apply F; cbn; eauto. intros. apply IHbs; auto. intros. apply F; cbn; auto.
Qed.
Lemma par_features : forall B (f1 : B -> X1 -> option X1) (f2 : B -> X2 -> option X2) (f3 : B -> X3 -> option X3) bs,
  (forall b, In b bs -> forall t x y, Rl t x y -> orel Rl (f1 b t) (f2 b x) (f3 b y)) ->
  forall t x y, Rl t x y -> orel (forall3 Rl) (features f1 bs t) (features f2 bs x) (features f3 bs y).
Proof.
  intros B f1 f2 f3. induction bs; intros F t x y H; cbn [features]. apply orel_ret; constructor.
  eapply orel_bind. apply F; cbn; eauto. intros. eapply orel_bind. apply IHbs; eauto. intros. apply F; cbn; auto.
  intros. apply orel_ret. constructor; auto.
Qed.
Local Ltac step := first [eapply orel_bind; [|intros] | idtac].
Local Ltac fin := repeat match goal with H : Forall ok (_ ++ _) |- _ => apply Forall_app in H; destruct H | H : Forall ok (_ :: _) |- _ => inversion H; subst; clear H end.

Lemma par_sblock : forall b, Forall ok (sblock_layers b) -> forall t x y, Rl t x y -> orel Rl (sblock_forward r1 a1 b t) (sblock_forward r2 a2 b x) (sblock_forward r3 a3 b y).
Proof.
  intros b F t x y H. unfold sblock_layers in F. cbn [app] in F. fin. unfold sblock_forward.
  eapply orel_bind. apply Hrun; eauto. intros. eapply orel_bind. apply Hrun; eauto. intros.
  eapply orel_bind. apply par_seq; eauto. intros. eapply orel_bind. apply par_skip; eauto. intros.
  eapply orel_bind. apply par_seq; eauto. intros. apply par_skip; auto.
Qed.
Lemma par_lblock : forall b, Forall ok (lblock_layers b) -> forall t x y, Rl t x y -> orel Rl (lblock_forward r1 a1 b t) (lblock_forward r2 a2 b x) (lblock_forward r3 a3 b y).
Proof.
  intros b F t x y H. unfold lblock_layers in F. cbn [app] in F. fin. unfold lblock_forward.
  eapply orel_bind. apply Hrun; eauto. intros.
  eapply orel_bind. apply par_seq; eauto. intros. eapply orel_bind. apply par_skip; eauto. intros.
  eapply orel_bind. apply par_seq; eauto. intros. apply par_skip; auto.
Qed.
Lemma par_ablock : forall b, Forall ok (ablock_layers b) -> forall t x y, Rl t x y -> orel Rl (ablock_forward r1 a1 b t) (ablock_forward r2 a2 b x) (ablock_forward r3 a3 b y).
Proof.
  intros b F t x y H. unfold ablock_layers in F. cbn [app] in F. fin. unfold ablock_forward.
  eapply orel_bind. apply par_seq; eauto. intros. eapply orel_bind. apply Hrun; eauto. intros.
  eapply orel_bind. apply Hadd; eauto. intros. eapply orel_bind. apply par_seq; eauto. intros.
  eapply orel_bind. apply par_seq; eauto. intros. apply Hadd; auto.
Qed.
Lemma par_dblock : forall b, Forall ok (dblock_layers b) -> forall t x y, Rl t x y -> orel Rl (dblock_forward r1 a1 b t) (dblock_forward r2 a2 b x) (dblock_forward r3 a3 b y).
Proof.
  intros b F t x y H. unfold dblock_layers in F. fin. unfold dblock_forward.
  eapply orel_bind. apply par_seq; eauto. intros. eapply orel_bind. apply par_seq; eauto. intros.
  eapply orel_bind. apply Hadd; eauto. intros. apply Hrun; auto.
Qed.
Lemma par_ublock : forall b, Forall ok (ublock_layers b) -> forall t x y, Rl t x y -> orel Rl (ublock_forward r1 a1 b t) (ublock_forward r2 a2 b x) (ublock_forward r3 a3 b y).
Proof.
  intros b F t x y H. unfold ublock_layers in F. fin. unfold ublock_forward.
  eapply orel_bind. apply par_seq; eauto. intros. eapply orel_bind. apply par_seq; eauto. intros.
  eapply orel_bind. apply Hadd; eauto. intros. apply par_seq; auto.
Qed.
Lemma par_wblock : forall b, Forall ok (wblock_layers b) -> forall t x y, Rl t x y -> orel Rl (wblock_forward r1 a1 b t) (wblock_forward r2 a2 b x) (wblock_forward r3 a3 b y).
Proof.
  intros b F t x y H. unfold wblock_layers in F. fin. unfold wblock_forward.
  eapply orel_bind. apply Hrun; eauto. intros. eapply orel_bind. apply Hrun; eauto. intros. eapply orel_bind. apply Hadd; eauto. intros.
  do 5 (eapply orel_bind; [apply Hrun; eauto|intros]). apply Hadd; auto.
Qed.
Lemma flat_ok : forall B (f : B -> list layer) bs, Forall ok (flat_map f bs) -> forall b, In b bs -> Forall ok (f b).
Proof. intros B f bs F b I. apply Forall_forall. intros l Hl. rewrite Forall_forall in F. apply F. apply in_flat_map. eauto. Qed.
Lemma par_tblock : forall b, Forall ok (tblock_layers b) -> forall t x y, Rl t x y -> orel Rl (tblock_forward r1 a1 b t) (tblock_forward r2 a2 b x) (tblock_forward r3 a3 b y).
Proof.
  intros b F t x y H. unfold tblock_layers in F. fin. unfold tblock_forward.
  eapply orel_bind. apply par_seq; eauto. intros. eapply orel_bind. eapply par_fold; eauto. intros. apply par_wblock; auto. eapply flat_ok; eauto.
  intros. apply Hrun; auto.
Qed.
Theorem par_sfno : forall n, Forall ok (sfno_layers n) -> forall t x y, Rl t x y -> orel Rl (sfno_forward r1 a1 n t) (sfno_forward r2 a2 n x) (sfno_forward r3 a3 n y).
Proof.
  intros n F t x y H. unfold sfno_layers in F. fin. unfold sfno_forward.
  eapply orel_bind. apply par_seq; eauto. intros. eapply orel_bind. apply par_seq; eauto. intros.
  eapply orel_bind. eapply par_fold; eauto. intros. apply par_sblock; auto. eapply flat_ok; eauto. intros.
  eapply orel_bind. apply par_seq; eauto. intros. apply par_skip; auto.
Qed.
Theorem par_lsno : forall n, Forall ok (lsno_layers n) -> forall t x y, Rl t x y -> orel Rl (lsno_forward r1 a1 n t) (lsno_forward r2 a2 n x) (lsno_forward r3 a3 n y).
Proof.
  intros n F t x y H. unfold lsno_layers in F. fin. unfold lsno_forward.
  eapply orel_bind. apply par_seq; eauto. intros. eapply orel_bind. apply par_seq; eauto. intros.
  eapply orel_bind. eapply par_fold; eauto. intros. apply par_lblock; auto. eapply flat_ok; eauto. intros.
  eapply orel_bind. apply par_seq; eauto. intros. destruct (ls_res n). apply Hadd; auto. apply orel_ret; auto.
Qed.
Theorem par_strans : forall n, Forall ok (strans_layers n) -> forall t x y, Rl t x y -> orel Rl (strans_forward r1 a1 n t) (strans_forward r2 a2 n x) (strans_forward r3 a3 n y).
Proof.
  intros n F t x y H. unfold strans_layers in F. fin. unfold strans_forward.
  eapply orel_bind. apply par_seq; eauto. intros. eapply orel_bind. apply par_seq; eauto. intros.
  eapply orel_bind. eapply par_fold; eauto. intros. apply par_ablock; auto. eapply flat_ok; eauto. intros.
  eapply orel_bind. apply par_seq; eauto. intros. destruct (st_res n). apply Hadd; auto. apply orel_ret; auto.
Qed.
Lemma par_up : forall us, Forall ok (flat_map ublock_layers us) -> forall ft fx fy, forall3 Rl ft fx fy -> forall t x y, Rl t x y ->
  orel Rl (up_path r1 a1 c1 us ft t) (up_path r2 a2 c2 us fx x) (up_path r3 a3 c3 us fy y).
Proof.
  induction us as [|u us IH]; intros F ft fx fy H3 t x y H; cbn [up_path]. apply orel_ret; auto.
  destruct H3 as [|a b c ft fx fy H0 H3]. apply orel_ret; auto. cbn [flat_map] in F. fin.
  eapply orel_bind. apply Hcat. do 2 (constructor; eauto). constructor. intros. eapply orel_bind. apply par_ublock; eauto. intros. apply IH; auto.
Qed.
Theorem par_unet : forall n, Forall ok (unet_layers n) -> forall t x y, Rl t x y -> orel Rl (unet_forward r1 a1 c1 n t) (unet_forward r2 a2 c2 n x) (unet_forward r3 a3 c3 n y).
Proof.
  intros n F t x y H. unfold unet_layers in F. fin. unfold unet_forward. cbv zeta.
  eapply orel_bind. eapply par_features; eauto. intros. apply par_dblock; auto. eapply flat_ok; eauto. intros ft fx fy H3.
  apply forall3_rev in H3. destruct (un_u n) as [|u us].
  { destruct (rev ft), (rev fx), (rev fy); apply orel_none. }
  destruct H3 as [|a b c ft' fx' fy' HH0 HH3]. apply orel_none. cbn [flat_map] in *. fin.
  eapply orel_bind. apply par_ublock; eauto. intros. eapply orel_bind. apply par_up; eauto. intros. apply par_seq; auto.
Qed.
Lemma par_upsample : forall us, Forall ok (concat us) -> forall ft fx fy, forall3 Rl ft fx fy ->
  orel (forall3 Rl) (upsample_all r1 us ft) (upsample_all r2 us fx) (upsample_all r3 us fy).
Proof.
  induction us as [|u us IH]; intros F ft fx fy H3; cbn [upsample_all]. apply orel_ret; constructor.
  destruct H3 as [|a b c ft fx fy H0 H3]. apply orel_ret; constructor. cbn [concat] in F. fin.
  eapply orel_bind. apply par_seq; eauto. intros. eapply orel_bind. apply IH; eauto. intros. apply orel_ret. constructor; auto.
Qed.
Theorem par_seg : forall n, Forall ok (seg_layers n) -> forall t x y, Rl t x y -> orel Rl (seg_forward r1 a1 c1 n t) (seg_forward r2 a2 c2 n x) (seg_forward r3 a3 c3 n y).
Proof.
  intros n F t x y H. unfold seg_layers in F. fin. unfold seg_forward. cbv zeta.
  eapply orel_bind. eapply par_features; eauto. intros. apply par_tblock; auto. eapply flat_ok; eauto. intros ft fx fy H3.
  eapply orel_bind. apply par_upsample; eauto. intros. eapply orel_bind. apply Hcat; eauto. intros. apply par_seq; auto.
Qed.
End Par.
