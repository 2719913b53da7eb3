(** The ring kernels: the running state after any sequence of chunks. *)
From Coq Require Import List Arith Lia Bool ZArith Reals Lra Permutation.
From Verif Require Import TensorModel TensorProofs BigSum DiscoModel PrimModel PrimSpec PrimProofs AttnModel AttnSpec AttnCoreProofs AttnUpProofs
  DistStateModel DistAttnModel.
Import ListNotations.
Local Open Scope R_scope.

Section Channels.
Variable Cv : nat.
(** the state stands for the unnormalised sums D and N *)
Definition stands (st : rst) (D : R) (N : nat -> R) : Prop :=
  match r_max st with
  | None => r_sum st = 0 /\ (forall c, (c < Cv)%nat -> r_acc st c = 0) /\ D = 0 /\ forall c, (c < Cv)%nat -> N c = 0
  | Some m => r_sum st * exp m = D /\ forall c, (c < Cv)%nat -> r_acc st c * exp m = N c
  end.
Lemma stands_init : stands rst0 0 (fun _ => 0).
Proof. cbn. auto. Qed.
Lemma stands_ext : forall st D D' N N', D = D' -> (forall c, (c < Cv)%nat -> N c = N' c) -> stands st D N -> stands st D' N'.
Proof.
  intros st D D' N N' -> E. unfold stands. destruct (r_max st); intros H.
  - destruct H as (H1 & H2). split; auto. intros. rewrite <- E by auto. auto.
  - destruct H as (H1 & H2 & H3 & H4). repeat split; auto. intros. rewrite <- E by auto. auto.
Qed.
Lemma exp_cancel : forall a b, exp (a - b) * exp b = exp a.
Proof. intros. rewrite <- exp_plus. f_equal. ring. Qed.
Lemma stands_entry : forall st D N s w v, stands st D N -> stands (ring_entry s w v st) (D + w * exp s) (fun c => N c + w * exp s * v c).
Proof.
  intros st D N s w v H. unfold stands in H. unfold ring_entry. destruct (r_max st) as [m|] eqn:E.
  - destruct H as (H1 & H2). unfold stands. cbn [r_max r_sum r_acc exp_diff]. set (m' := Rmax m s). split.
    + rewrite <- H1, <- (exp_cancel s m'), <- (exp_cancel m m'). ring.
    + intros c Hc. rewrite <- H2, <- (exp_cancel s m'), <- (exp_cancel m m') by auto. ring.
  - destruct H as (H1 & H2 & H3 & H4). unfold stands. cbn [r_max r_sum r_acc exp_diff]. split.
    + rewrite H1, H3. replace (s - s) with 0 by ring. rewrite exp_0. ring.
    + intros c Hc. rewrite H2, H4 by auto. replace (s - s) with 0 by ring. rewrite exp_0. ring.
Qed.
Lemma stands_final : forall st D N, stands st D N -> D <> 0 -> r_sum st <> 0 /\ forall c, (c < Cv)%nat -> r_acc st c / r_sum st = N c / D.
Proof.
  intros st D N H HD. unfold stands in H. destruct (r_max st) as [m|]; [|destruct H as (_ & _ & H & _); contradiction].
  destruct H as (H1 & H2). pose proof (exp_pos m). assert (r_sum st <> 0) by (intros Z; apply HD; rewrite <- H1, Z; ring).
  split; auto. intros c Hc. rewrite <- H1, <- H2 by auto. field. split; [lra|auto].
Qed.
Lemma stands_zero : forall st N, stands st 0 N -> r_sum st = 0.
Proof.
  intros st N H. unfold stands in H. destruct (r_max st) as [m|]; [|tauto]. destruct H as (H & _). pose proof (exp_pos m).
  apply Rmult_integral in H. destruct H; [auto|lra].
Qed.

(** ** One thread per cell *)
Lemma upd3_same : forall S b h w (s : S) buf, upd3 b h w s buf b h w = s.
Proof. intros. unfold upd3. rewrite !Nat.eqb_refl. reflexivity. Qed.
Lemma upd3_other : forall S b h w (s : S) buf b' h' w', (b', h', w') <> (b, h, w) -> upd3 b h w s buf b' h' w' = buf b' h' w'.
Proof.
  intros. unfold upd3. destruct (Nat.eqb_spec b' b), (Nat.eqb_spec h' h), (Nat.eqb_spec w' w); cbn [andb]; auto. congruence.
Qed.
Lemma fold_upd3 : forall S T (key : T -> nat * nat * nat) (f : nat -> nat -> nat -> S -> S) l (buf : nat -> nat -> nat -> S) b h w, NoDup (map key l) ->
  fold_left (fun buf t => let '(b, h, w) := key t in upd3 b h w (f b h w (buf b h w)) buf) l buf b h w =
  if in_dec (fun x y : nat * nat * nat => ltac:(decide equality; [apply Nat.eq_dec|decide equality; apply Nat.eq_dec])) (b, h, w) (map key l)
  then f b h w (buf b h w) else buf b h w.
Proof.
  intros S T key f l. induction l as [|t l IH]; intros buf b h w ND.
  - cbn [fold_left map]. destruct (in_dec _ _ []) as [[]|]; reflexivity.
  - cbn [map] in ND. inversion ND as [|? ? N1 N2]; subst. cbn [fold_left]. rewrite IH by auto. cbn [map].
    destruct (in_dec _ (b, h, w) (map key l)) as [I|I].
    + destruct (in_dec _ (b, h, w) (key t :: map key l)) as [I'|I']; [|elim I'; right; exact I].
      destruct (key t) as [[b' h'] w'] eqn:E. rewrite upd3_other; auto. intros Q. rewrite Q in I. contradiction.
    + destruct (key t) as [[b' h'] w'] eqn:E. destruct (in_dec _ (b, h, w) ((b', h', w') :: map key l)) as [I'|I'].
      * destruct I' as [I'|I']; [|contradiction]. inversion I'; subst. apply upd3_same.
      * apply upd3_other. intros Q. apply I'. left. congruence.
Qed.
Lemma cells3_in : forall Ho Wo B b h w, In (b, h, w) (cells3 Ho Wo B) <-> (b < B /\ h < Ho /\ w < Wo)%nat.
Proof.
  intros. unfold cells3. rewrite in_flat_map. split.
  - intros (x & H1 & H2). apply in_map_iff in H2. destruct H2 as ([h' w'] & E & H2). cbn [fst snd] in E. inversion E; subst. apply cells_in in H2. apply in_seq in H1. lia.
  - intros (H1 & H2). exists b. split; [apply in_seq; lia|]. apply in_map_iff. exists (h, w). split; auto. apply cells_in. auto.
Qed.
Lemma nodup_flat : forall X Y (l : list X) (f : X -> list Y), NoDup l -> (forall x, In x l -> NoDup (f x)) ->
  (forall x x' y, In x l -> In x' l -> In y (f x) -> In y (f x') -> x = x') -> NoDup (flat_map f l).
Proof.
  intros X Y l f. induction l as [|a l IH]; intros ND N1 N2; [constructor|]. inversion ND; subst. cbn [flat_map].
  assert (G : NoDup (flat_map f l)). { apply IH; auto. - intros; apply N1; right; auto. - intros. eapply N2; eauto; right; auto. }
  assert (N3 : NoDup (f a)) by (apply N1; left; auto).
  assert (D : forall y, In y (f a) -> ~ In y (flat_map f l)).
  { intros y Hy Q. apply in_flat_map in Q. destruct Q as (x & Hx & Hy'). assert (a = x) by (eapply N2; eauto; [left; auto|right; auto]). subst. contradiction. }
  clear - G N3 D. induction (f a) as [|y r IHr]; cbn [app]; auto. inversion N3; subst. constructor.
  - rewrite in_app_iff. intros [Q|Q]; [contradiction|]. eapply D; eauto. left; auto.
  - apply IHr; auto. intros. apply D. right; auto.
Qed.
Lemma nodup_map : forall X Y (f : X -> Y) l, NoDup l -> (forall x x', In x l -> In x' l -> f x = f x' -> x = x') -> NoDup (map f l).
Proof.
  intros X Y f l. induction l; intros ND H; [constructor|]. inversion ND; subst. cbn [map]. constructor.
  - rewrite in_map_iff. intros (x & E & Hx). assert (x = a) by (apply H; auto; [right; auto|left; auto]). subst. contradiction.
  - apply IHl; auto. intros. apply H; auto; right; auto.
Qed.
Lemma cells3_nodup : forall Ho Wo B, NoDup (cells3 Ho Wo B).
Proof.
  intros. unfold cells3. apply nodup_flat.
  - apply seq_NoDup.
  - intros b _. apply nodup_map.
    + unfold cells. apply nodup_flat; [apply seq_NoDup| |].
      * intros h _. apply nodup_map; [apply seq_NoDup|]. intros x x' _ _ E. congruence.
      * intros x x' y _ _ H1 H2. apply in_map_iff in H1. apply in_map_iff in H2. destruct H1 as (? & <- & _), H2 as (? & E & _). congruence.
    + intros [] [] _ _ E. cbn [fst snd] in E. congruence.
  - intros x x' y _ _ H1 H2. apply in_map_iff in H1. apply in_map_iff in H2. destruct H1 as (? & <- & _), H2 as (? & E & _). congruence.
Qed.

Lemma fold_ext : forall S X (f g : S -> X -> S) l s, (forall s x, f s x = g s x) -> fold_left f l s = fold_left g l s.
Proof. intros S X f g l. induction l; intros s H; cbn [fold_left]; [reflexivity|]. rewrite H. auto. Qed.

Section Gather.
Variables (Ck : nat) (quad : nat -> R) (roff col : list nat) (nlat_halo nlon_kx lon_lo_kx : nat) (start : Z) (Ho Wo : nat)
  (kx vx qy : fld) (Wi ps : nat) (row_idx : list nat).
Lemma ring_step_cell : forall B buf b ho wo, Permutation row_idx (seq 0 Ho) -> (b < B -> ho < Ho -> wo < Wo ->
  ring_step Ck quad roff col nlat_halo nlon_kx lon_lo_kx start Ho Wo kx vx qy Wi ps row_idx B buf b ho wo =
  fold_left (ring_visit Ck quad nlat_halo nlon_kx lon_lo_kx start kx vx qy Wi ps b ho wo) (csr_row roff col ho) (buf b ho wo))%nat.
Proof.
  intros B buf b ho wo Pm Hb Hh Hw. unfold ring_step.
  set (vis := ring_visit Ck quad nlat_halo nlon_kx lon_lo_kx start kx vx qy Wi ps).
  assert (L : length row_idx = Ho) by (rewrite (Permutation_length Pm), seq_length; reflexivity).
  assert (ND : NoDup row_idx) by (eapply Permutation_NoDup; [apply Permutation_sym; exact Pm|apply seq_NoDup]).
  set (key := fun t : nat * nat * nat => (fst (fst t), nth (snd (fst t)) row_idx 0%nat, snd t)).
  set (f := fun b h w st => fold_left (vis b h w) (csr_row roff col h) st).
  assert (NK : NoDup (map key (cells3 Ho Wo B))).
  { apply nodup_map; [apply cells3_nodup|]. intros [[b1 h1] w1] [[b2 h2] w2] H1 H2 E. unfold key in E. cbn [fst snd] in E. apply cells3_in in H1. apply cells3_in in H2.
    inversion E as [[E1 E2 E3]]. rewrite (NoDup_nth row_idx 0%nat) in ND. rewrite (ND h1 h2) by (auto; lia). reflexivity. }
  pose proof (fold_upd3 _ _ key f _ buf b ho wo NK) as E.
  etransitivity.
  { etransitivity; [|exact E]. apply (f_equal (fun f : rbuf => f b ho wo)). apply fold_ext. intros s [[b' h'] w']. reflexivity. }
  destruct (in_dec _ _ _) as [I|I]; [reflexivity|]. elim I. apply in_map_iff.
    assert (In ho row_idx) by (eapply Permutation_in; [apply Permutation_sym; exact Pm|apply in_seq; lia]).
    destruct (In_nth _ _ 0%nat H) as (h & Hh' & E'). exists (b, h, wo). unfold key. cbn [fst snd]. rewrite E'. split; auto. apply cells3_in. lia.
Qed.
(** is the neighbour of this entry in the chunk *)
Definition in_chunk (wo c : nat) : bool :=
  let wip := ((c mod Wi + ps * wo) mod Wi)%nat in
  ((lon_lo_kx <=? wip) && (wip <? lon_lo_kx + nlon_kx))%nat.
Definition in_halo (c : nat) : bool := ((start <=? Z.of_nat (c / Wi)) && (Z.of_nat (c / Wi) <? start + Z.of_nat nlat_halo))%Z.
Lemma ring_visits : forall b ho wo (kg vg : nat -> nat -> nat -> R) l st D N, (forall c, In c l -> in_halo c = true) ->
  (forall c d, In c l -> in_chunk wo c = true ->
     let hl := Z.to_nat (Z.of_nat (c / Wi) - start) in let wip := ((c mod Wi + ps * wo) mod Wi)%nat in
     ((d < Ck)%nat -> kx b hl (wip - lon_lo_kx)%nat d = kg (c / Wi)%nat wip d) /\ ((d < Cv)%nat -> vx b hl (wip - lon_lo_kx)%nat d = vg (c / Wi)%nat wip d)) ->
  stands st D N ->
  let F c := if in_chunk wo c then quad (c / Wi)%nat * exp (dot Ck (qy b ho wo) (kg (c / Wi) ((c mod Wi + ps * wo) mod Wi))%nat) else 0 in
  stands (fold_left (ring_visit Ck quad nlat_halo nlon_kx lon_lo_kx start kx vx qy Wi ps b ho wo) l st)
    (D + rlsum F l) (fun d => N d + rlsum (fun c => F c * vg (c / Wi)%nat ((c mod Wi + ps * wo) mod Wi)%nat d) l).
Proof.
  intros b ho wo kg vg l. induction l as [|c l IH]; intros st D N HH HK S F.
  - cbn [fold_left]. eapply stands_ext; [| |exact S]; intros; cbn [lsum_ fold_right]; ring.
  - cbn [fold_left].
    assert (S1 : stands (ring_visit Ck quad nlat_halo nlon_kx lon_lo_kx start kx vx qy Wi ps b ho wo st c) (D + F c) (fun d => N d + F c * vg (c / Wi)%nat ((c mod Wi + ps * wo) mod Wi)%nat d)).
    { unfold ring_visit, F. specialize (HH c (or_introl eq_refl)). specialize (fun d => HK c d (or_introl eq_refl)).
      unfold in_chunk in *. unfold in_halo in HH. cbv zeta in *. set (wip := ((c mod Wi + ps * wo) mod Wi)%nat) in *.
      destruct (Nat.leb_spec lon_lo_kx wip), (Nat.ltb_spec wip (lon_lo_kx + nlon_kx)); cbn [andb] in *.
      2:{ rewrite (proj2 (Nat.ltb_ge wip lon_lo_kx)), (proj2 (Nat.leb_le _ _)) by lia. cbn [orb]. eapply stands_ext; [| |exact S]; intros; ring. }
      2:{ rewrite (proj2 (Nat.ltb_lt wip lon_lo_kx)) by lia. cbn [orb]. eapply stands_ext; [| |exact S]; intros; ring. }
      2:{ rewrite (proj2 (Nat.ltb_lt wip lon_lo_kx)) by lia. cbn [orb]. eapply stands_ext; [| |exact S]; intros; ring. }
      rewrite (proj2 (Nat.ltb_ge wip lon_lo_kx)), (proj2 (Nat.leb_gt _ _)) by lia. cbn [orb].
      apply andb_prop in HH. destruct HH as (H1 & H2). apply Z.leb_le in H1. apply Z.ltb_lt in H2.
      rewrite (proj2 (Z.ltb_ge (Z.of_nat (c / Wi) - start) 0)), (proj2 (Z.leb_gt _ _)) by lia. cbn [orb].
      replace (dot Ck (qy b ho wo) (kx b (Z.to_nat (Z.of_nat (c / Wi) - start)) (wip - lon_lo_kx)%nat)) with (dot Ck (qy b ho wo) (kg (c / Wi)%nat wip)).
      2:{ unfold dot. apply bsum_ext. intros i Hi. destruct (HK i eq_refl) as (-> & _); auto. }
      eapply stands_ext; [reflexivity| |apply stands_entry; exact S]. intros d Hd. cbn beta. destruct (HK d eq_refl) as (_ & ->); auto. }
    assert (S2 : stands (fold_left (ring_visit Ck quad nlat_halo nlon_kx lon_lo_kx start kx vx qy Wi ps b ho wo) l (ring_visit Ck quad nlat_halo nlon_kx lon_lo_kx start kx vx qy Wi ps b ho wo st c))
      (D + F c + rlsum F l) (fun d => N d + F c * vg (c / Wi)%nat ((c mod Wi + ps * wo) mod Wi)%nat d + rlsum (fun c => F c * vg (c / Wi)%nat ((c mod Wi + ps * wo) mod Wi)%nat d) l)).
    { exact (IH _ _ _ (fun c Hc => HH c (or_intror Hc)) (fun c d Hc => HK c d (or_intror Hc)) S1). }
    eapply stands_ext; [| |exact S2]; intros; rewrite rlsum_cons; ring.
Qed.
End Gather.

Section Scatter.
Variables (Ck : nat) (quad : nat -> R) (roff col : list nat) (nlat_halo nlon_kx lon_lo_kx : nat) (start : Z) (Ho Wo : nat)
  (kx vx qy : fld) (WoG ps : nat).
Let trips := chunk_trips roff col nlat_halo nlon_kx lon_lo_kx Wo WoG ps.
Let sc := trip_score Ck kx qy.
Definition maxstep (b : nat) (l : list ((nat * nat) * (nat * nat))) (m : nat -> nat -> option R) : nat -> nat -> option R :=
  fold_left (fun m t h w => if ((h =? fst (snd t)) && (w =? snd (snd t)))%nat%bool then omax (m h w) (sc b t) else m h w) l m.
Lemma maxstep_grow : forall b l m h w, (m h w <> None -> maxstep b l m h w <> None) /\ ((exists t, In t l /\ snd t = (h, w)) -> maxstep b l m h w <> None).
Proof.
  intros b l. induction l as [|t l IH]; intros m h w.
  - split; auto. intros (t & [] & _).
  - unfold maxstep. cbn [fold_left].
    set (m1 := fun h w => if ((h =? fst (snd t)) && (w =? snd (snd t)))%nat%bool then omax (m h w) (sc b t) else m h w).
    change (fold_left _ l m1) with (maxstep b l m1). destruct (IH m1 h w) as (I1 & I2). split.
    + intros Hm. apply I1. unfold m1. destruct (_ && _)%bool; auto. destruct (m h w); discriminate.
    + intros (t' & [<-|Ht] & E); [|apply I2; eauto]. apply I1. unfold m1. rewrite E. cbn [fst snd]. rewrite !Nat.eqb_refl. cbn [andb]. destruct (m h w); discriminate.
Qed.
Lemma stands_rescale : forall m' st D N, stands st D N -> (r_max st <> None -> m' <> None) -> stands (rescale m' st) D N /\ r_max (rescale m' st) = m'.
Proof.
  intros m' st D N S H. unfold rescale. destruct m' as [m'|].
  - unfold stands in S. destruct (r_max st) as [m|] eqn:E.
    + destruct S as (S1 & S2). destruct (Req_EM_T m m') as [->|_].
      * split; [|exact E]. unfold stands. rewrite E. auto.
      * split; [|reflexivity]. unfold stands. cbn [r_max r_sum r_acc]. split; [rewrite <- S1|intros c Hc; rewrite <- S2 by auto]; rewrite <- (exp_cancel m m'); ring.
    + destruct S as (S1 & S2 & S3 & S4). split; [|reflexivity]. unfold stands. cbn [r_max r_sum r_acc]. split; [rewrite S3|intros c Hc; rewrite S4 by auto]; ring.
  - destruct (r_max st) eqn:E; [exfalso; apply H; [discriminate|reflexivity]|]. auto.
Qed.
Definition accstep (b : nat) (l : list ((nat * nat) * (nat * nat))) (buf : nat -> nat -> rst) : nat -> nat -> rst :=
  fold_left (fun (buf : nat -> nat -> rst) t h w => if ((h =? fst (snd t)) && (w =? snd (snd t)))%nat%bool then
      let st := buf h w in
      let alpha := match r_max st with None => 0 | Some m => exp (sc b t - m) end * quad (Z.to_nat (start + Z.of_nat (fst (fst t)))) in
      mkR (r_sum st + alpha) (r_max st) (fun c => r_acc st c + alpha * vx b (fst (fst t)) (snd (fst t)) c)
    else buf h w) l buf.
Lemma accstep_stands : forall b h w l buf D N, (forall t, In t l -> snd t = (h, w) -> r_max (buf h w) <> None) -> stands (buf h w) D N ->
  let F t := if pt_eqb (h, w) (snd t) then quad (Z.to_nat (start + Z.of_nat (fst (fst t)))) * exp (sc b t) else 0 in
  stands (accstep b l buf h w) (D + rlsum F l) (fun c => N c + rlsum (fun t => F t * vx b (fst (fst t)) (snd (fst t)) c) l).
Proof.
  intros b h w l. induction l as [|t l IH]; intros buf D N HM S F.
  - unfold accstep. cbn [fold_left]. eapply stands_ext; [| |exact S]; intros; cbn [lsum_ fold_right]; ring.
  - unfold accstep. cbn [fold_left].
    set (buf1 := fun h w => if ((h =? fst (snd t)) && (w =? snd (snd t)))%nat%bool then
      let st := buf h w in
      let alpha := match r_max st with None => 0 | Some m => exp (sc b t - m) end * quad (Z.to_nat (start + Z.of_nat (fst (fst t)))) in
      mkR (r_sum st + alpha) (r_max st) (fun c => r_acc st c + alpha * vx b (fst (fst t)) (snd (fst t)) c)
      else buf h w). change (fold_left _ l buf1) with (accstep b l buf1).
    assert (M1 : r_max (buf1 h w) = r_max (buf h w)) by (unfold buf1; destruct (_ && _)%bool; reflexivity).
    assert (S1 : stands (buf1 h w) (D + F t) (fun c => N c + F t * vx b (fst (fst t)) (snd (fst t)) c)).
    { unfold buf1, F, pt_eqb. cbn [fst snd]. destruct (Nat.eqb_spec h (fst (snd t))) as [Eh|], (Nat.eqb_spec w (snd (snd t))) as [Ew|]; cbn [andb].
      2-4: eapply stands_ext; [| |exact S]; intros; ring.
      assert (Q : r_max (buf h w) <> None) by (apply (HM t); [left; auto|destruct (snd t); cbn [fst snd] in *; congruence]).
      unfold stands in *. cbn [r_max r_sum r_acc]. destruct (r_max (buf h w)) as [m|]; [|congruence]. destruct S as (S1 & S2).
      rewrite <- (exp_cancel (sc b t) m). split; [rewrite <- S1; ring|]. intros c Hc. rewrite <- S2 by auto. ring. }
    assert (S2 : stands (accstep b l buf1 h w) (D + F t + rlsum F l) (fun c => N c + F t * vx b (fst (fst t)) (snd (fst t)) c + rlsum (fun t => F t * vx b (fst (fst t)) (snd (fst t)) c) l)).
    { apply (IH buf1); [|exact S1]. intros t' Ht Et. rewrite M1. apply (HM t'); auto. right; auto. }
    eapply stands_ext; [| |exact S2]; intros; rewrite rlsum_cons; ring.
Qed.
Lemma ring_step_up_cell : forall B buf b h w D N, stands (buf b h w) D N -> (b < B)%nat -> (h < Ho)%nat -> (w < Wo)%nat ->
  let F t := if pt_eqb (h, w) (snd t) then quad (Z.to_nat (start + Z.of_nat (fst (fst t)))) * exp (sc b t) else 0 in
  stands (ring_step_up Ck quad roff col nlat_halo nlon_kx lon_lo_kx start Ho Wo kx vx qy WoG ps B buf b h w)
    (D + rlsum F trips) (fun c => N c + rlsum (fun t => F t * vx b (fst (fst t)) (snd (fst t)) c) trips).
Proof.
  intros B buf b h w D N S Hb Hh Hw F. unfold ring_step_up. rewrite (proj2 (Nat.ltb_lt b B)) by auto.
  set (m := step_max _ _ _ _ _ _ _ _ _ _ _ _ _). set (buf1 := fun h w : nat => if ((h <? Ho) && (w <? Wo))%nat%bool then rescale (m h w) (buf b h w) else buf b h w).
  destruct (stands_rescale (m h w) (buf b h w) D N S) as (S1 & M1).
  { apply (proj1 (maxstep_grow b trips (fun h w => r_max (buf b h w)) h w)). }
  assert (E : buf1 h w = rescale (m h w) (buf b h w)) by (unfold buf1; rewrite (proj2 (Nat.ltb_lt h Ho)), (proj2 (Nat.ltb_lt w Wo)) by auto; reflexivity).
  change (stands (accstep b trips buf1 h w) (D + rlsum F trips) (fun c => N c + rlsum (fun t => F t * vx b (fst (fst t)) (snd (fst t)) c) trips)).
  apply accstep_stands; rewrite E; auto. intros t Ht Et. rewrite M1.
  apply (proj2 (maxstep_grow b trips (fun h w => r_max (buf b h w)) h w)). eauto.
Qed.
End Scatter.
End Channels.

(** ** Chunks of a line *)
Lemma chunk_pick : forall W A x g, (1 <= A)%nat -> (x < W)%nat ->
  rlsum (fun s => if ((chunk_lo W A s <=? x) && (x <? chunk_lo W A s + chunk_len W A s))%nat then g else 0) (seq 0 A) = g.
Proof.
  intros W A x g HA Hx.
  assert (G : forall n, (n <= A)%nat -> rlsum (fun s => if ((chunk_lo W A s <=? x) && (x <? chunk_lo W A s + chunk_len W A s))%nat then g else 0) (seq 0 n) = if (x <? chunk_lo W A n)%nat then g else 0).
  { induction n; intros Hn. { cbn. reflexivity. }
    rewrite seq_S, (lsum_app RT), IHn by lia. cbn [Nat.add lsum_ fold_right]. unfold chunk_len. pose proof (chunk_lo_mono W A n).
    replace (chunk_lo W A n + (chunk_lo W A (S n) - chunk_lo W A n))%nat with (chunk_lo W A (S n)) by lia.
    destruct (Nat.ltb_spec x (chunk_lo W A n)), (Nat.leb_spec (chunk_lo W A n) x), (Nat.ltb_spec x (chunk_lo W A (S n))); cbn [andb]; try lia; ring. }
  rewrite G by lia. rewrite chunk_lo_total by auto. rewrite (proj2 (Nat.ltb_lt x W)) by auto. reflexivity.
Qed.
Lemma chunk_sum : forall W A (G : nat -> R), (1 <= A)%nat ->
  rlsum (fun s => rlsum (fun w => G (chunk_lo W A s + w)%nat) (seq 0 (chunk_len W A s))) (seq 0 A) = rlsum G (seq 0 W).
Proof.
  intros W A G HA.
  assert (E : forall n, (n <= A)%nat -> rlsum (fun s => rlsum (fun w => G (chunk_lo W A s + w)%nat) (seq 0 (chunk_len W A s))) (seq 0 n) = rlsum G (seq 0 (chunk_lo W A n))).
  { induction n; intros Hn. { reflexivity. }
    rewrite seq_S, (lsum_app RT), IHn by lia. cbn [Nat.add]. rewrite rlsum_cons. cbn [lsum_ fold_right]. unfold chunk_len. pose proof (chunk_lo_mono W A n).
    replace (chunk_lo W A (S n)) with (chunk_lo W A n + (chunk_lo W A (S n) - chunk_lo W A n))%nat at 2 by lia.
    rewrite seq_app, (lsum_app RT). cbn [Nat.add]. rewrite !(lsum_seq RT).
    replace (rlsum G (seq (chunk_lo W A n) (chunk_lo W A (S n) - chunk_lo W A n))) with (rsum (chunk_lo W A (S n) - chunk_lo W A n) (fun w => G (chunk_lo W A n + w)%nat)); [ring|].
    rewrite <- (lsum_seq RT). generalize (chunk_lo W A (S n) - chunk_lo W A n)%nat. intros m. generalize (chunk_lo W A n). intros a.
    clear. revert a. induction m; intros a; [reflexivity|]. cbn [seq]. rewrite !rlsum_cons. rewrite <- IHm, Nat.add_0_r. f_equal.
    rewrite <- seq_shift, lsum_map. apply rlsum_ext. intros. f_equal. lia. }
  rewrite E, chunk_lo_total by auto. reflexivity.
Qed.
