(** What one thread of the CUDA attention kernels does between exchanges. *)
From Coq Require Import List Arith Lia Bool Reals Lra FunctionalExtensionality.
From Verif Require Import TensorModel TensorProofs BigSum AttnModel GpuModel GpuSpec GpuProofs GpuProofs2 WarpProofs CudaWarpModel CudaAttnModel CudaAttnProofs.
Import ListNotations.
Local Open Scope nat_scope.

(** the part p holds f from [base] on *)
Definition reads (inp : nat -> R) (insize : nat) (p : nat * nat) (base n : nat) (f : nat -> R) : Prop :=
  forall c, c < n -> base + c < snd p /\ fst p + (base + c) < insize /\ inp (fst p + (base + c)) = f c.
Lemma get_reads : forall inp N p b n f r c, reads inp N p b n f -> c < n -> get p r (b + c) = IGet r (fst p + (b + c)).
Proof. intros. unfold get. rewrite (proj2 (Nat.ltb_lt _ _)); [reflexivity|]. now apply (H c). Qed.
Lemma lrun_nil : forall inp m, lrun inp [] m = (m, []).
Proof. reflexivity. Qed.
Ltac lr := repeat (rewrite lrun_cons; cbn [reg_of sh_of emit fst snd app]); rewrite ?lrun_nil; cbn [fst snd app].

Ltac regs := unfold r_dot, r_t, r_u, r_sum, r_max, r_alpha, r_exp, r_new, r_w, r_loc, put in *; cbn [Nat.eqb plus] in *.
Lemma high_ne : forall (rg : nat -> R) a b v, a < b -> put a v rg b = rg b.
Proof. intros. apply put_ne. lia. Qed.

Section Lane.
Variables (inp : nat -> R) (N : nat).

(** the products of a thread with values from the shared array *)
Lemma dot_load : forall p b n f l rg sh, (forall c, In c l -> c < n) -> reads inp N p b n f ->
  let m := lrun inp (ISet r_dot (fun _ => 0%R) :: flat_map (fun c => [ILoad r_t c; get p r_u (b + c); ISet r_dot (fun r => r r_dot + r r_t * r r_u)%R]) l) (rg, sh) in
  snd m = [] /\ snd (fst m) = sh /\ fst (fst m) r_dot = rlsum (fun c => sh c * f c)%R l /\ forall r, 3 <= r -> fst (fst m) r = rg r.
Proof.
  intros p b n f l rg sh Hl HR m. subst m. rewrite lrun_cons. cbn [reg_of sh_of emit fst snd app].
  destruct (lrun_loop _ inp (fun c => [ILoad r_t c; get p r_u (b + c); ISet r_dot (fun r => r r_dot + r r_t * r r_u)%R]) (fun _ => [])
    (fun d m => snd m = sh /\ fst m r_dot = rlsum (fun c => sh c * f c)%R d /\ forall r, 3 <= r -> fst m r = rg r) l (put r_dot 0%R rg, sh)) as [(I1 & I2 & I3) I4].
  - cbn [fst snd]. split; [reflexivity|]. split; [apply put_eq|]. intros r Hr. apply put_ne. unfold r_dot. lia.
  - intros d x r0 [rg1 sh1] E (I1 & I2 & I3). cbn [fst snd] in *. subst sh1. assert (Hx : x < n) by (apply Hl; rewrite E, in_app_iff; right; now left). rewrite (get_reads inp N p b n f r_u x HR Hx). lr. split; [|reflexivity]. split; [reflexivity|].
    destruct (HR x Hx) as (_ & _ & ->). rewrite (lsum_app RT). cbn [lsum_ fold_right]. split.
    + rewrite put_eq. unfold put at 3 4. rewrite !put_eq. cbn [Nat.eqb r_t r_u r_dot]. unfold put. cbn [Nat.eqb r_t r_u r_dot]. rewrite I2. ring.
    + intros r Hr. rewrite !put_ne by (unfold r_dot, r_t, r_u; lia). auto.
  - split; [|auto]. rewrite I4. clear. induction l; auto.
Qed.
(** the products of a thread with values from the input *)
Lemma dot_get : forall p b f p' b' f' n l rg sh, (forall c, In c l -> c < n) -> reads inp N p b n f -> reads inp N p' b' n f' ->
  let m := lrun inp (ISet r_dot (fun _ => 0%R) :: flat_map (fun c => [get p' r_t (b' + c); get p r_u (b + c); ISet r_dot (fun r => r r_dot + r r_t * r r_u)%R]) l) (rg, sh) in
  snd m = [] /\ snd (fst m) = sh /\ fst (fst m) r_dot = rlsum (fun c => f' c * f c)%R l /\ forall r, 3 <= r -> fst (fst m) r = rg r.
Proof.
  intros p b f p' b' f' n l rg sh Hl HR HR' m. subst m. rewrite lrun_cons. cbn [reg_of sh_of emit fst snd app].
  destruct (lrun_loop _ inp (fun c => [get p' r_t (b' + c); get p r_u (b + c); ISet r_dot (fun r => r r_dot + r r_t * r r_u)%R]) (fun _ => [])
    (fun d m => snd m = sh /\ fst m r_dot = rlsum (fun c => f' c * f c)%R d /\ forall r, 3 <= r -> fst m r = rg r) l (put r_dot 0%R rg, sh)) as [(I1 & I2 & I3) I4].
  - cbn [fst snd]. split; [reflexivity|]. split; [apply put_eq|]. intros r Hr. apply put_ne. unfold r_dot. lia.
  - intros d x r0 [rg1 sh1] E (I1 & I2 & I3). cbn [fst snd] in *. subst sh1. assert (Hx : x < n) by (apply Hl; rewrite E, in_app_iff; right; now left). rewrite (get_reads inp N p b n f r_u x HR Hx), (get_reads inp N p' b' n f' r_t x HR' Hx). lr. split; [|reflexivity]. split; [reflexivity|].
    destruct (HR x Hx) as (_ & _ & ->). destruct (HR' x Hx) as (_ & _ & ->). rewrite (lsum_app RT). cbn [lsum_ fold_right]. split.
    + rewrite put_eq. unfold put. cbn [Nat.eqb r_t r_u r_dot]. rewrite I2. ring.
    + intros r Hr. rewrite !put_ne by (unfold r_dot, r_t, r_u; lia). auto.
  - split; [|auto]. rewrite I4. clear. induction l; auto.
Qed.
(** the new maximum and sum *)
Lemma new_max_run : forall pw hi H quad rest rg sh, reads inp N pw 0 H quad -> hi < H ->
  lrun inp (new_max pw hi ++ rest) (rg, sh) = lrun inp rest (fst (fst (lrun inp (new_max pw hi) (rg, sh))), sh) /\
  forall rg', fst (fst (lrun inp (new_max pw hi) (rg, sh))) = rg' ->
  let mx := Rmax (rg r_max) (rg r_dot) in
  rg' r_new = mx /\ rg' r_alpha = (exp (rg r_dot - mx) * quad hi)%R /\ rg' r_exp = exp (rg r_max - mx) /\ rg' r_sum = (exp (rg r_dot - mx) * quad hi + rg r_sum * exp (rg r_max - mx))%R /\
  rg' r_max = rg r_max /\ forall r, 9 <= r -> rg' r = rg r.
Proof.
  intros pw hi H quad rest rg sh HR Hh. unfold new_max. change hi with (0 + hi) at 1 2 3. rewrite (get_reads inp N pw 0 H quad r_w hi HR Hh). destruct (HR hi Hh) as (_ & _ & E). split.
  - rewrite lrun_app. lr. now rewrite <- surjective_pairing.
  - intros rg' <-. lr. rewrite E. do 5 (split; [unfold put; cbn [Nat.eqb r_t r_u r_dot r_new r_alpha r_exp r_sum r_max r_w]; reflexivity|]).
    intros r Hr. rewrite !put_ne by (unfold r_new, r_alpha, r_exp, r_sum, r_w; lia). reflexivity.
Qed.
(** the local array *)
Lemma loc_update : forall p b n f l rg sh, NoDup l -> (forall c, In c l -> c < n) -> reads inp N p b n f ->
  let m := lrun inp (flat_map (fun c => [get p r_t (b + c); ISet (r_loc c) (fun r => r r_exp * r (r_loc c) + r r_alpha * r r_t)%R]) l ++ [ISet r_max (fun r => r r_new)]) (rg, sh) in
  snd m = [] /\ snd (fst m) = sh /\ (forall c, In c l -> fst (fst m) (r_loc c) = (rg r_exp * rg (r_loc c) + rg r_alpha * f c)%R) /\ fst (fst m) r_sum = rg r_sum /\ fst (fst m) r_max = rg r_new.
Proof.
  intros p b n f l rg sh ND Hl HR m. subst m. rewrite lrun_app.
  destruct (lrun_loop _ inp (fun c => [get p r_t (b + c); ISet (r_loc c) (fun r => r r_exp * r (r_loc c) + r r_alpha * r r_t)%R]) (fun _ => [])
    (fun d m => snd m = sh /\ (forall r, 3 <= r < 9 -> fst m r = rg r) /\ (forall c, In c d -> fst m (r_loc c) = (rg r_exp * rg (r_loc c) + rg r_alpha * f c)%R) /\ forall c, ~ In c d -> fst m (r_loc c) = rg (r_loc c)) l (rg, sh)) as [(I1 & I2 & I3 & I4) I5].
  - cbn [fst snd]. split; [reflexivity|]. split; [auto|]. split; [intros c []|auto].
  - intros d x r0 [rg1 sh1] E (I1 & I2 & I3 & I4). cbn [fst snd] in *. subst sh1. assert (Hx : x < n) by (apply Hl; rewrite E, in_app_iff; right; now left). rewrite (get_reads inp N p b n f r_t x HR Hx). lr. split; [|reflexivity]. split; [reflexivity|].
    destruct (HR x Hx) as (_ & _ & Ef). assert (Nx : ~ In x d) by (rewrite E in ND; apply NoDup_remove_2 in ND; rewrite in_app_iff in ND; tauto).
    split; [|split].
    + intros r Hr. rewrite !put_ne by (unfold r_loc, r_t; lia). auto.
    + intros c Hc. destruct (Nat.eq_dec c x) as [->|Ne].
      * rewrite put_eq. rewrite !put_ne by (unfold r_loc, r_t, r_exp, r_alpha; lia). rewrite put_eq, Ef, (I4 x Nx), !I2 by (unfold r_exp, r_alpha; lia). reflexivity.
      * apply in_app_iff in Hc. destruct Hc as [Hc|[<-|[]]]; [|contradiction]. rewrite !put_ne by (unfold r_loc, r_t; lia). auto.
    + intros c Hc. rewrite in_app_iff in Hc. rewrite !put_ne by (unfold r_loc, r_t; first [lia|intros Ec; apply Hc; right; left; lia]). apply I4. tauto.
  - rewrite I5. destruct (fst (lrun inp (flat_map _ l) (rg, sh))) as [rg1 sh1] eqn:Em. cbn [fst snd] in *. lr. subst sh1. split; [rewrite app_nil_r; clear; induction l; auto|]. split; [reflexivity|]. split; [|split].
    + intros c Hc. rewrite put_ne by (unfold r_loc, r_max; lia). auto.
    + rewrite put_ne by (unfold r_sum, r_max; lia). apply I2. unfold r_sum. lia.
    + rewrite put_eq. apply I2. unfold r_new. lia.
Qed.
(** the same in the shared array *)
Lemma sh_update : forall p b n f l rg sh, NoDup l -> (forall c, In c l -> c < n) -> reads inp N p b n f ->
  let m := lrun inp (flat_map (fun c => [ILoad r_u c; get p r_t (b + c); IStore c (fun r => r r_exp * r r_u + r r_alpha * r r_t)%R]) l ++ [ISet r_max (fun r => r r_new)]) (rg, sh) in
  snd m = [] /\ (forall c, In c l -> snd (fst m) c = (rg r_exp * sh c + rg r_alpha * f c)%R) /\ fst (fst m) r_sum = rg r_sum /\ fst (fst m) r_max = rg r_new.
Proof.
  intros p b n f l rg sh ND Hl HR m. subst m. rewrite lrun_app.
  destruct (lrun_loop _ inp (fun c => [ILoad r_u c; get p r_t (b + c); IStore c (fun r => r r_exp * r r_u + r r_alpha * r r_t)%R]) (fun _ => [])
    (fun d m => (forall r, 3 <= r < 9 -> fst m r = rg r) /\ (forall c, In c d -> snd m c = (rg r_exp * sh c + rg r_alpha * f c)%R) /\ forall c, ~ In c d -> snd m c = sh c) l (rg, sh)) as [(I2 & I3 & I4) I5].
  - cbn [fst snd]. split; [auto|]. split; [intros c []|auto].
  - intros d x r0 [rg1 sh1] E (I2 & I3 & I4). cbn [fst snd] in *. assert (Hx : x < n) by (apply Hl; rewrite E, in_app_iff; right; now left). rewrite (get_reads inp N p b n f r_t x HR Hx). lr. split; [|reflexivity].
    destruct (HR x Hx) as (_ & _ & Ef). assert (Nx : ~ In x d) by (rewrite E in ND; apply NoDup_remove_2 in ND; rewrite in_app_iff in ND; tauto).
    split; [|split].
    + intros r Hr. rewrite !put_ne by (unfold r_t, r_u; lia). auto.
    + intros c Hc. destruct (Nat.eq_dec c x) as [->|Ne].
      * rewrite put_eq. unfold put. cbn [Nat.eqb r_t r_u r_exp r_alpha]. rewrite Ef, (I4 x Nx), !I2 by (unfold r_exp, r_alpha; lia). reflexivity.
      * apply in_app_iff in Hc. destruct Hc as [Hc|[<-|[]]]; [|contradiction]. rewrite !put_ne by auto. auto.
    + intros c Hc. rewrite in_app_iff in Hc. rewrite put_ne by (intros ->; apply Hc; right; now left). apply I4. tauto.
  - rewrite I5. destruct (fst (lrun inp (flat_map _ l) (rg, sh))) as [rg1 sh1] eqn:Em. cbn [fst snd] in *. lr. split; [rewrite app_nil_r; clear; induction l; auto|]. split; [|split].
    + auto.
    + rewrite put_ne by (unfold r_sum, r_max; lia). apply I2. unfold r_sum. lia.
    + rewrite put_eq. apply I2. unfold r_new. lia.
Qed.
(** the start *)
Lemma zero_locs : forall l rg sh, let m := lrun inp (map (fun c => ISet (r_loc c) (fun _ => 0%R)) l) (rg, sh) in
  snd m = [] /\ snd (fst m) = sh /\ forall c, In c l -> fst (fst m) (r_loc c) = 0%R.
Proof.
  intros l rg sh m. subst m. rewrite map_flat.
  destruct (lrun_loop _ inp (fun c => [ISet (r_loc c) (fun _ => 0%R)]) (fun _ => []) (fun d m => snd m = sh /\ forall c, In c d -> fst m (r_loc c) = 0%R) l (rg, sh)) as [[I1 I2] I3].
  - split; [reflexivity|]. intros c [].
  - intros d x r [rg1 sh1] E [I1 I2]. cbn [fst snd] in *. lr. split; [|reflexivity]. split; [auto|]. intros c Hc. unfold put. destruct (Nat.eqb_spec (r_loc c) (r_loc x)) as [|Ne]; [reflexivity|]. apply I2. apply in_app_iff in Hc. destruct Hc as [Hc|[->|[]]]; [auto|congruence].
  - split; [rewrite I3; clear; induction l; auto|auto].
Qed.
Lemma zero_cells : forall l rg sh, let m := lrun inp (map (fun c => IStore c (fun _ => 0%R)) l) (rg, sh) in
  snd m = [] /\ forall c, In c l -> snd (fst m) c = 0%R.
Proof.
  intros l rg sh m. subst m. rewrite map_flat.
  destruct (lrun_loop _ inp (fun c => [IStore c (fun _ => 0%R)]) (fun _ => []) (fun d m => forall c, In c d -> snd m c = 0%R) l (rg, sh)) as [I2 I3].
  - intros c [].
  - intros d x r [rg1 sh1] E I2. cbn [fst snd] in *. lr. split; [|reflexivity]. intros c Hc. unfold put. destruct (Nat.eqb_spec c x) as [|Ne]; [reflexivity|]. apply I2. apply in_app_iff in Hc. destruct Hc as [Hc|[->|[]]]; [auto|congruence].
  - split; [rewrite I3; clear; induction l; auto|auto].
Qed.
Lemma copy_cells : forall p b n f l rg sh, (forall c, In c l -> c < n) -> reads inp N p b n f ->
  let m := lrun inp (flat_map (fun c => [get p r_t (b + c); IStore c (fun r => r r_t)]) l) (rg, sh) in
  snd m = [] /\ (forall r, 3 <= r -> fst (fst m) r = rg r) /\ (forall c, In c l -> snd (fst m) c = f c) /\ forall c, ~ In c l -> snd (fst m) c = sh c.
Proof.
  intros p b n f l rg sh Hl HR m. subst m.
  destruct (lrun_loop _ inp (fun c => [get p r_t (b + c); IStore c (fun r => r r_t)]) (fun _ => []) (fun d m => (forall r, 3 <= r -> fst m r = rg r) /\ (forall c, In c d -> snd m c = f c) /\ forall c, ~ In c d -> snd m c = sh c) l (rg, sh)) as [(I1 & I2 & I3) I4].
  - split; [auto|]. split; [intros c []|auto].
  - intros d x r [rg1 sh1] E (I1 & I2 & I3). cbn [fst snd] in *. assert (Hx : x < n) by (apply Hl; rewrite E, in_app_iff; right; now left). rewrite (get_reads inp N p b n f r_t x HR Hx). destruct (HR x Hx) as (_ & _ & Ef). lr. split; [|reflexivity]. split; [|split].
    + intros r1 Hr. rewrite put_ne by (unfold r_t; lia). auto.
    + intros c Hc. rewrite put_eq, Ef. unfold put. destruct (Nat.eqb_spec c x) as [->|Ne]; [reflexivity|]. apply I2. apply in_app_iff in Hc. destruct Hc as [Hc|[->|[]]]; [auto|congruence].
    + intros c Hc. rewrite in_app_iff in Hc. rewrite put_ne by (intros ->; apply Hc; right; now left). apply I3. tauto.
  - split; [rewrite I4; clear; induction l; auto|auto].
Qed.
End Lane.

Lemma lane_loop : forall X inp nT (f : X -> list gstep) (tr : X -> list (nat * uop * R)) (Inv : list X -> (nat -> (nat -> R) * (nat -> R)) -> Prop) l st, Inv [] st ->
  (forall d x r st, l = d ++ x :: r -> Inv d st -> Inv (d ++ [x]) (fst (lane_prog inp nT (f x) (st, []))) /\ snd (lane_prog inp nT (f x) (st, [])) = tr x) ->
  Inv l (fst (lane_prog inp nT (flat_map f l) (st, []))) /\ snd (lane_prog inp nT (flat_map f l) (st, [])) = flat_map tr l.
Proof.
  intros X inp nT f tr Inv l st H0 HS.
  assert (G : forall r d st, l = d ++ r -> Inv d st -> Inv l (fst (lane_prog inp nT (flat_map f r) (st, []))) /\ snd (lane_prog inp nT (flat_map f r) (st, [])) = flat_map tr r).
  { induction r as [|x r IH]; intros d m0 E HI.
    - rewrite app_nil_r in E. subst. split; [exact HI|reflexivity].
    - cbn [flat_map]. rewrite lane_prog_app. cbn [fst snd]. destruct (HS d x r m0 E HI) as [H1 H2]. destruct (IH (d ++ [x]) (fst (lane_prog inp nT (f x) (m0, [])))) as [H3 H4]; [now rewrite <- app_assoc|exact H1|].
      split; [exact H3|]. now rewrite H2, H4. }
  exact (G l [] st eq_refl H0).
Qed.
Lemma flat_map_nil : forall X Y (l : list X), flat_map (fun _ => @nil Y) l = [].
Proof. induction l; auto. Qed.
Lemma flat_map_none : forall X Y (f : X -> list Y) l, (forall x, In x l -> f x = []) -> flat_map f l = [].
Proof. induction l; intros H; [reflexivity|]. cbn [flat_map]. rewrite H by now left. apply IHl. intros. apply H. now right. Qed.
Lemma flat_map_in_ext : forall X Y (f g : X -> list Y) l, (forall x, In x l -> f x = g x) -> flat_map f l = flat_map g l.
Proof. induction l; intros H; [reflexivity|]. cbn [flat_map]. rewrite H by now left. f_equal. apply IHl. intros. apply H. now right. Qed.
Definition after (inp : nat -> R) (nT : nat) (p : nat -> list instr) (st : nat -> (nat -> R) * (nat -> R)) : nat -> (nat -> R) * (nat -> R) :=
  fun t => if t <? nT then fst (lrun inp (p t) (st t)) else st t.
Definition after_sum (nT r : nat) (st : nat -> (nat -> R) * (nat -> R)) : nat -> (nat -> R) * (nat -> R) :=
  fun t => if t <? nT then (put r (rsum nT (fun t' => fst (st t') r)) (fst (st t)), snd (st t)) else st t.
Lemma after_in : forall inp nT p st t, t < nT -> after inp nT p st t = fst (lrun inp (p t) (st t)).
Proof. intros. unfold after. now rewrite (proj2 (Nat.ltb_lt _ _) H). Qed.
Lemma after_sum_in : forall nT r st t, t < nT -> after_sum nT r st t = (put r (rsum nT (fun t' => fst (st t') r)) (fst (st t)), snd (st t)).
Proof. intros. unfold after_sum. now rewrite (proj2 (Nat.ltb_lt _ _) H). Qed.
Lemma lane_seg : forall inp nT p rest st, lane_prog inp nT (Seg p :: rest) (st, []) =
  (fst (lane_prog inp nT rest (after inp nT p st, [])), flat_map (fun t => snd (lrun inp (p t) (st t))) (seq 0 nT) ++ snd (lane_prog inp nT rest (after inp nT p st, []))).
Proof. intros. exact (lane_prog_app inp nT [Seg p] rest st). Qed.
Lemma lane_sum : forall inp nT r rest st, lane_prog inp nT (sum_bar nT r :: rest) (st, []) = lane_prog inp nT rest (after_sum nT r st, []).
Proof. intros. reflexivity. Qed.
Lemma quiet : forall inp nT p st, (forall t, t < nT -> snd (lrun inp (p t) (st t)) = []) -> flat_map (fun t => snd (lrun inp (p t) (st t))) (seq 0 nT) = [].
Proof. intros. apply flat_map_none. intros t Ht. apply in_seq in Ht. apply H. lia. Qed.
