(** Loops over channels of one thread of the attention kernels. *)
From Coq Require Import List Arith Lia Bool Reals Lra Permutation FunctionalExtensionality.
From Verif Require Import TensorModel TensorProofs BigSum GpuModel GpuSpec GpuProofs GpuProofs2 WarpProofs CudaWarpModel CudaAttnModel CudaAttnUpModel CudaAttnProofs CudaAttnLaneProofs.
Import ListNotations.
Local Open Scope nat_scope.
Lemma flat_one : forall X Y (f : X -> Y) l, flat_map (fun x => [f x]) l = map f l.
Proof. intros. symmetry. apply map_flat. Qed.
Lemma set_in : forall p i f, i < snd p -> set_out p i f = IOut (fst p + i) f.
Proof. intros. unfold set_out. now rewrite (proj2 (Nat.ltb_lt _ _) H). Qed.
Lemma add_in : forall o p i f, i < snd p -> add_out o p i f = IAtom o (fst p + i) f.
Proof. intros. unfold add_out. now rewrite (proj2 (Nat.ltb_lt _ _) H). Qed.

Ltac pe := repeat match goal with
  | |- context[put ?i ?v ?f ?i] => rewrite (put_eq _ i v f)
  | |- context[put ?i ?v ?f ?j] => rewrite (put_ne _ i j v f) by (first [assumption | (apply not_eq_sym; assumption) | discriminate | (unfold r_dot, r_t, r_u in *; lia)])
  end.
Section Loops.
Variables (inp : nat -> R) (N : nat).
(** sh[base + c] = p[b + c] *)
Lemma loop_copy : forall p b base n f l rg sh, (forall c, In c l -> c < n) -> reads inp N p b n f ->
  let m := lrun inp (flat_map (fun c => [get p r_t (b + c); IStore (base + c) (fun r => r r_t)]) l) (rg, sh) in
  snd m = [] /\ (forall r, r <> r_t -> fst (fst m) r = rg r) /\ (forall c, In c l -> snd (fst m) (base + c) = f c) /\ forall a, (forall c, In c l -> a <> base + c) -> snd (fst m) a = sh a.
Proof.
  intros p b base n f l rg sh Hl HR m. subst m.
  destruct (lrun_loop _ inp (fun c => [get p r_t (b + c); IStore (base + c) (fun r => r r_t)]) (fun _ => []) (fun d m => (forall r, r <> r_t -> fst m r = rg r) /\ (forall c, In c d -> snd m (base + c) = f c) /\ forall a, (forall c, In c d -> a <> base + c) -> snd m a = sh a) l (rg, sh)) as [(I1 & I2 & I3) I4].
  - split; [auto|]. split; [intros c []|auto].
  - intros d x r [rg1 sh1] E (I1 & I2 & I3). cbn [fst snd] in *. assert (Hx : x < n) by (apply Hl; rewrite E, in_app_iff; right; now left). rewrite (get_reads inp N p b n f r_t x HR Hx). destruct (HR x Hx) as (_ & _ & Ef). lr. split; [|reflexivity]. split; [|split].
    + intros r1 Hr. rewrite put_ne by auto. auto.
    + intros c Hc. rewrite put_eq, Ef. unfold put. destruct (Nat.eqb_spec (base + c) (base + x)) as [Eq|Ne]; [f_equal; lia|]. apply I2. apply in_app_iff in Hc. destruct Hc as [Hc|[->|[]]]; [auto|congruence].
    + intros a Ha. rewrite put_ne by (apply Ha; rewrite in_app_iff; right; now left). apply I3. intros c Hc. apply Ha. rewrite in_app_iff. now left.
  - split; [rewrite I4; apply flat_map_nil|auto].
Qed.
(** rd += sh[base + c] * p[b + c] *)
Lemma loop_dot : forall rd p b base n f l rg sh, rd <> r_t -> rd <> r_u -> (forall c, In c l -> c < n) -> reads inp N p b n f ->
  let m := lrun inp (ISet rd (fun _ => 0%R) :: flat_map (fun c => [ILoad r_t (base + c); get p r_u (b + c); ISet rd (fun r => r rd + r r_t * r r_u)%R]) l) (rg, sh) in
  snd m = [] /\ snd (fst m) = sh /\ fst (fst m) rd = rlsum (fun c => sh (base + c)%nat * f c)%R l /\ forall r, r <> r_t -> r <> r_u -> r <> rd -> fst (fst m) r = rg r.
Proof.
  intros rd p b base n f l rg sh N1 N2 Hl HR m. subst m. rewrite lrun_cons. cbn [reg_of sh_of emit fst snd app].
  destruct (lrun_loop _ inp (fun c => [ILoad r_t (base + c); get p r_u (b + c); ISet rd (fun r => r rd + r r_t * r r_u)%R]) (fun _ => [])
    (fun d m => snd m = sh /\ fst m rd = rlsum (fun c => sh (base + c)%nat * f c)%R d /\ forall r, r <> r_t -> r <> r_u -> r <> rd -> fst m r = rg r) l (put rd 0%R rg, sh)) as [(I1 & I2 & I3) I4].
  - cbn [fst snd]. split; [reflexivity|]. split; [apply put_eq|]. intros r _ _ Hr. now apply put_ne.
  - intros d x r0 [rg1 sh1] E (I1 & I2 & I3). cbn [fst snd] in *. subst sh1. assert (Hx : x < n) by (apply Hl; rewrite E, in_app_iff; right; now left). rewrite (get_reads inp N p b n f r_u x HR Hx). lr. split; [|reflexivity]. split; [reflexivity|].
    destruct (HR x Hx) as (_ & _ & ->). rewrite (lsum_app RT). cbn [lsum_ fold_right]. split.
    + pe. rewrite I2. ring.
    + intros r Hr1 Hr2 Hr3. rewrite !put_ne by auto. auto.
  - split; [|auto]. rewrite I4. apply flat_map_nil.
Qed.
(** atomicAdd(&p[b + c], ra * sh[base + c]) *)
Lemma loop_atom : forall o ra p b base n l rg sh, ra <> r_t -> (forall c, In c l -> c < n) -> (forall c, c < n -> b + c < snd p) ->
  let m := lrun inp (flat_map (fun c => [ILoad r_t (base + c); add_out o p (b + c) (fun r => r ra * r r_t)%R]) l) (rg, sh) in
  snd m = map (fun c => (fst p + (b + c), UAtom o, (rg ra * sh (base + c)%nat)%R)) l /\ snd (fst m) = sh /\ forall r, r <> r_t -> fst (fst m) r = rg r.
Proof.
  intros o ra p b base n l rg sh N1 Hl Hp m. subst m.
  destruct (lrun_loop _ inp (fun c => [ILoad r_t (base + c); add_out o p (b + c) (fun r => r ra * r r_t)%R]) (fun c => [(fst p + (b + c), UAtom o, (rg ra * sh (base + c)%nat)%R)])
    (fun _ m => snd m = sh /\ forall r, r <> r_t -> fst m r = rg r) l (rg, sh)) as [(I1 & I2) I4].
  - auto.
  - intros d x r0 [rg1 sh1] E (I1 & I2). cbn [fst snd] in *. subst sh1. assert (Hx : x < n) by (apply Hl; rewrite E, in_app_iff; right; now left). rewrite add_in by auto. lr. split; [split; [reflexivity|]|].
    + intros r Hr. rewrite put_ne by auto. auto.
    + rewrite put_eq, put_ne by auto. rewrite I2 by auto. reflexivity.
  - split; [|auto]. rewrite I4. apply flat_one.
Qed.
(** sh[base + c] += ra * p[b + c] *)
Lemma loop_update : forall ra p b base n f l rg sh, ra <> r_t -> ra <> r_u -> NoDup l -> (forall c, In c l -> c < n) -> reads inp N p b n f ->
  let m := lrun inp (flat_map (fun c => [ILoad r_t (base + c); get p r_u (b + c); IStore (base + c) (fun r => r r_t + r ra * r r_u)%R]) l) (rg, sh) in
  snd m = [] /\ (forall r, r <> r_t -> r <> r_u -> fst (fst m) r = rg r) /\ (forall c, In c l -> snd (fst m) (base + c) = (sh (base + c)%nat + rg ra * f c)%R) /\ forall a, (forall c, In c l -> a <> base + c) -> snd (fst m) a = sh a.
Proof.
  intros ra p b base n f l rg sh N1 N2 ND Hl HR m. subst m.
  destruct (lrun_loop _ inp (fun c => [ILoad r_t (base + c); get p r_u (b + c); IStore (base + c) (fun r => r r_t + r ra * r r_u)%R]) (fun _ => [])
    (fun d m => (forall r, r <> r_t -> r <> r_u -> fst m r = rg r) /\ (forall c, In c d -> snd m (base + c) = (sh (base + c)%nat + rg ra * f c)%R) /\ forall a, (forall c, In c d -> a <> base + c) -> snd m a = sh a) l (rg, sh)) as [(I1 & I2 & I3) I4].
  - split; [auto|]. split; [intros c []|auto].
  - intros d x r [rg1 sh1] E (I1 & I2 & I3). cbn [fst snd] in *. assert (Hx : x < n) by (apply Hl; rewrite E, in_app_iff; right; now left). rewrite (get_reads inp N p b n f r_u x HR Hx). destruct (HR x Hx) as (_ & _ & Ef).
    assert (Nx : ~ In x d) by (rewrite E in ND; apply NoDup_remove_2 in ND; rewrite in_app_iff in ND; tauto). lr. split; [|reflexivity]. split; [|split].
    + intros r1 Hr1 Hr2. rewrite !put_ne by auto. auto.
    + intros c Hc. destruct (Nat.eq_dec c x) as [->|Ne].
      * pe. rewrite Ef, I1 by auto. rewrite I3; [reflexivity|]. intros c Hd Ec. apply Nx. replace x with c by lia. exact Hd.
      * apply in_app_iff in Hc. destruct Hc as [Hc|[<-|[]]]; [|contradiction]. rewrite put_ne by lia. auto.
    + intros a Ha. rewrite put_ne by (apply Ha; rewrite in_app_iff; right; now left). apply I3. intros c Hc. apply Ha. rewrite in_app_iff. now left.
  - split; [rewrite I4; apply flat_map_nil|auto].
Qed.
(** p[b + c] = sh[base + c] *)
Lemma loop_write : forall p b base n l rg sh, (forall c, In c l -> c < n) -> (forall c, c < n -> b + c < snd p) ->
  let m := lrun inp (flat_map (fun c => [ILoad r_t (base + c); set_out p (b + c) (fun r => r r_t)]) l) (rg, sh) in
  snd m = map (fun c => (fst p + (b + c), USet, sh (base + c))) l /\ snd (fst m) = sh /\ forall r, r <> r_t -> fst (fst m) r = rg r.
Proof.
  intros p b base n l rg sh Hl Hp m. subst m.
  destruct (lrun_loop _ inp (fun c => [ILoad r_t (base + c); set_out p (b + c) (fun r => r r_t)]) (fun c => [(fst p + (b + c), USet, sh (base + c))])
    (fun _ m => snd m = sh /\ forall r, r <> r_t -> fst m r = rg r) l (rg, sh)) as [(I1 & I2) I4].
  - auto.
  - intros d x r0 [rg1 sh1] E (I1 & I2). cbn [fst snd] in *. subst sh1. assert (Hx : x < n) by (apply Hl; rewrite E, in_app_iff; right; now left). rewrite set_in by auto. lr. split; [split; [reflexivity|]|].
    + intros r Hr. rewrite put_ne by auto. auto.
    + rewrite put_eq. reflexivity.
  - split; [|auto]. rewrite I4. apply flat_one.
Qed.
End Loops.
