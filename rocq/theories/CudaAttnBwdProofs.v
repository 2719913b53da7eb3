(** The CUDA kernels of the attention backward pass: one group. *)
From Coq Require Import List Arith Lia Bool Reals Lra Permutation FunctionalExtensionality.
From Verif Require Import TensorModel TensorProofs BigSum DiscoModel AttnModel AttnCoreProofs GpuModel GpuSpec GpuProofs GpuProofs2 WarpProofs CudaDiscoModel CudaWarpModel WarpSumProofs CudaFwdProofs CudaAttnModel CudaAttnUpModel CudaAttnBwdModel CudaAttnProofs CudaAttnLaneProofs WarpKernelProofs CudaKeyProofs CudaLoopProofs CudaAttnUpProofs CudaAttnUpProofs2.
From Verif Require Import AttnSpec.
Import ListNotations.
Local Open Scope nat_scope.
Notation upd := (nat * uop * R)%type (only parsing).
Notation lanes := (nat -> (nat -> R) * (nat -> R)) (only parsing).
Notation lane := ((nat -> R) * (nat -> R))%type (only parsing).

(** ** Sums under a moving maximum *)
Section Online.
Local Open Scope R_scope.
Variables (S W : nat -> R).
Lemma rl_cons : forall (f : nat -> R) x d, rlsum f (x :: d) = f x + rlsum f d.
Proof. reflexivity. Qed.
Definition E (m : R) (g : nat -> R) (d : list nat) : R := rlsum (fun x => exp (S x - m) * W x * g x) d.
Lemma E_shift : forall m m' g d, E m g d * exp (m - m') = E m' g d.
Proof.
  intros m m' g d. unfold E. induction d as [|x d IH]; [cbn; ring|]. rewrite !rl_cons. rewrite Rmult_plus_distr_r, IH. f_equal.
  replace (S x - m') with ((S x - m) + (m - m')) by ring. rewrite exp_plus. ring.
Qed.
Lemma E_snoc : forall m g d x, E m g (d ++ [x]) = E m g d + exp (S x - m) * W x * g x.
Proof. intros. unfold E. rewrite (lsum_app RT). cbn [lsum_ fold_right]. ring. Qed.
Lemma E_pos : forall m d, d <> [] -> (forall x, In x d -> 0 < W x) -> 0 < E m (fun _ => 1) d.
Proof.
  intros m d Hd H. unfold E. destruct d as [|x d]; [congruence|]. rewrite rl_cons. assert (P := exp_pos (S x - m)). assert (P2 := H x (or_introl eq_refl)).
  assert (0 <= rlsum (fun y => exp (S y - m) * W y * 1) d). { assert (Q : forall y, In y d -> 0 < W y) by (intros; apply H; now right). clear -Q. induction d as [|y d IH]; [cbn; lra|]. rewrite rl_cons. assert (P := exp_pos (S y - m)). assert (0 < W y) by (apply Q; now left). specialize (IH ltac:(intros; apply Q; now right)). assert (0 < exp (S y - m) * W y) by (apply Rmult_lt_0_compat; lra). lra. }
  assert (0 < exp (S x - m) * W x) by (apply Rmult_lt_0_compat; lra). lra.
Qed.
(** the weights that remain, and their averages *)
Definition prb (d : list nat) (x : nat) : R := exp (S x) * W x / rlsum (fun y => exp (S y) * W y) d.
Definition avg (g : nat -> R) (d : list nat) : R := rlsum (fun y => prb d y * g y) d.
Lemma E_one : forall m d, E m (fun _ => 1) d = rlsum (fun y => exp (S y) * W y) d * exp (- m).
Proof. intros m d. unfold E. induction d as [|x d IH]; [cbn; ring|]. rewrite !rl_cons. rewrite IH. unfold Rminus at 1. rewrite exp_plus. ring. Qed.
Lemma E_prb : forall m d x, d <> [] -> (forall x, In x d -> 0 < W x) -> exp (S x - m) * W x * (1 / E m (fun _ => 1) d) = prb d x.
Proof.
  intros m d x Hd H. assert (P := E_pos m d Hd H). rewrite E_one in *. unfold prb. unfold Rminus. rewrite exp_plus. assert (Q := exp_pos (- m)).
  assert (rlsum (fun y => exp (S y) * W y) d <> 0) by (intros Z; rewrite Z in P; lra). field. repeat split; auto; lra.
Qed.
Lemma E_avg : forall m g d, d <> [] -> (forall x, In x d -> 0 < W x) -> E m g d * (1 / E m (fun _ => 1) d) = avg g d.
Proof.
  intros m g d Hd H. unfold avg. rewrite (lsum_ext _ (fun y => prb d y * g y) (fun y => (1 / E m (fun _ => 1) d) * (exp (S y - m) * W y * g y))).
  - rewrite rlsum_scal. unfold E at 1. ring.
  - intros y _. rewrite <- (E_prb m d y Hd H). ring.
Qed.
Lemma E_dq : forall m g kk d, d <> [] -> (forall x, In x d -> 0 < W x) ->
  let s := E m (fun _ => 1) d in 1 / s * (1 / s) * (s * E m (fun x => g x * kk x) d - E m g d * E m kk d) = rlsum (fun x => prb d x * (g x - avg g d) * kk x) d.
Proof.
  intros m g kk d Hd H s. assert (P : 0 < s) by (now apply E_pos). transitivity (E m (fun x => g x * kk x) d * (1 / s) - (E m g d * (1 / s)) * (E m kk d * (1 / s))); [field; lra|].
  unfold s. rewrite !E_avg by auto. rewrite (lsum_ext _ (fun x => prb d x * (g x - avg g d) * kk x) (fun x => prb d x * (g x * kk x) + (- avg g d) * (prb d x * kk x))) by (intros; ring).
  rewrite (lsum_plus RT), rlsum_scal. unfold avg at 1 3. ring.
Qed.
End Online.

(** ** The parts of a group *)
Section Group.
Variables (inp : nat -> R) (N BD : nat) (regs ph : bool) (own oc ok ov : nat -> nat) (qs ds Ck Cv Hi : nat) (cin cout kch vch zch : nat -> list nat).
Variables (pk pv pq pdy pw dk dv dq : nat * nat) (fmin : R) (qb db : nat) (row : list nat) (hi kb vb : nat -> nat) (K Vv : nat -> nat -> R) (q dyf quad : nat -> R).
Definition pub (a : nat) : bool := (ds <=? a) && (a <? qs + Ck).
Hypotheses (HBD : 1 <= BD) (Hqs : qs = ds + Cv) (Hds : regs = false -> Ck + Ck + Ck <= ds).
Hypotheses (Hcin : covers BD Ck oc cin) (Hcout : covers BD Cv oc cout) (Hoc : forall c, oc c < BD) (Hz : forall t c, In c (cin t) -> In c (zch t)).
Hypotheses (Hkch : covers BD Ck ok kch) (Hvch : covers BD Cv ov vch) (Hok : forall c, ok c < BD) (Hov : forall c, ov c < BD).
Hypotheses (Hoq : forall c, c < Ck -> own (qs + c) = oc c) (Hod : forall c, c < Cv -> own (ds + c) = oc c).
Hypotheses (Ho0 : regs = false -> forall c, c < Ck -> own c = oc c /\ own (Ck + c) = oc c /\ own (Ck + Ck + c) = oc c).
Hypotheses (Hkv : forall t c, t < BD -> In c (kch t) -> vis own pub ph t (qs + c)) (Hvv : forall t c, t < BD -> In c (vch t) -> vis own pub ph t (ds + c)).
Hypotheses (RQ : reads inp N pq qb Ck q) (RD : reads inp N pdy db Cv dyf) (RW : reads inp N pw 0 Hi quad).
Hypotheses (RK : forall x, In x row -> reads inp N pk (kb x) Ck (K x)) (RV : forall x, In x row -> reads inp N pv (vb x) Cv (Vv x)) (Hhi : forall x, In x row -> hi x < Hi).
Hypotheses (BK : forall x c, In x row -> c < Ck -> kb x + c < snd dk) (BV : forall x c, In x row -> c < Cv -> vb x + c < snd dv) (BQ : forall c, c < Ck -> qb + c < snd dq).

Definition f_init (t : nat) : list instr :=
  (if regs then flat_map (fun c => [ISet (r_lk c) (fun _ => 0%R); ISet (r_lvw c) (fun _ => 0%R); ISet (r_lkvw c) (fun _ => 0%R)]) (zch t) ++
     flat_map (fun c => [get pq r_t (qb + c); IStore (qs + c) (fun r => r r_t)]) (cin t)
   else flat_map (fun c => [IStore c (fun _ => 0%R); IStore (Ck + c) (fun _ => 0%R); IStore (Ck + Ck + c) (fun _ => 0%R); get pq r_t (qb + c); IStore (qs + c) (fun r => r r_t)]) (cin t)) ++
  flat_map (fun c => [get pdy r_t (db + c); IStore (ds + c) (fun r => r r_t)]) (cout t).
Definition f_start (t : nat) : list instr := [ISet r_sum (fun _ => 0%R); ISet r_max (fun _ => fmin); ISet r_int (fun _ => 0%R)].
Definition f_acc (x t : nat) : list instr :=
  if regs then flat_map (fun c => [get pk r_t (kb x + c); ISet (r_lk c) (fun r => r r_exp * r (r_lk c) + r r_alpha * r r_t)%R;
                                   ISet (r_lvw c) (fun r => r r_exp * r (r_lvw c) + r r_ag)%R;
                                   ISet (r_lkvw c) (fun r => r r_exp * r (r_lkvw c) + r r_ag * r r_t)%R]) (cin t)
  else flat_map (fun c => [get pk r_t (kb x + c); ILoad r_u c; IStore c (fun r => r r_exp * r r_u + r r_alpha * r r_t)%R;
                           ILoad r_u (Ck + c); IStore (Ck + c) (fun r => r r_exp * r r_u + r r_ag)%R;
                           ILoad r_u (Ck + Ck + c); IStore (Ck + Ck + c) (fun r => r r_exp * r r_u + r r_ag * r r_t)%R]) (cin t).
Definition f_stats (x t : nat) : list instr := new_stats pw (hi x) ++ f_acc x t ++ [ISet r_max (fun r => r r_new)].
Definition f_out (t : nat) : list instr :=
  if regs then flat_map (fun c => [set_out dq (qb + c) (fun r => r r_inv * r r_inv * (r r_sum * r (r_lkvw c) - r (r_lvw c) * r (r_lk c)))%R]) (cin t)
  else flat_map (fun c => [ILoad r_t (Ck + Ck + c); ILoad r_u (Ck + c); ILoad r_w c; set_out dq (qb + c) (fun r => r r_inv * r r_inv * (r r_sum * r r_t - r r_u * r r_w))%R]) (cin t).
Definition f_mid (t : nat) : list instr := [ISet r_inv (fun r => 1 / r r_sum)%R; ISet r_int (fun r => r r_int * r r_inv)%R] ++ f_out t.
Definition f_grads (x t : nat) : list instr := entry_weight pw (hi x) ++
  flat_map (fun c => [ILoad r_t (qs + c); add_out AAdd dk (kb x + c) (fun r => r r_ag * r r_t)%R]) (kch t) ++
  flat_map (fun c => [ILoad r_t (ds + c); add_out AAdd dv (vb x + c) (fun r => r r_alpha * r r_t)%R]) (vch t).
Definition f_dots (x : nat) : list fstep := [FSeg (fun t => dot_loop r_dot qs pk (kb x) (cin t) ++ dot_loop r_gd ds pv (vb x) (cout t)); FSum r_dot; FSum r_gd].
Definition f_body : list fstep :=
  [FSeg f_init] ++ (if ph then [FShare] else []) ++ [FSeg f_start] ++ flat_map (fun x => f_dots x ++ [FSeg (f_stats x)]) row ++ [FSeg f_mid] ++ flat_map (fun x => f_dots x ++ [FSeg (f_grads x)]) row.

(** ** What one thread does *)
Definition AK (m : lane) (c : nat) : R := if regs then fst m (r_lk c) else snd m c.
Definition AW (m : lane) (c : nat) : R := if regs then fst m (r_lvw c) else snd m (Ck + c).
Definition AKW (m : lane) (c : nat) : R := if regs then fst m (r_lkvw c) else snd m (Ck + Ck + c).
Lemma cin_lt : forall t c, t < BD -> In c (cin t) -> c < Ck.
Proof. intros t c Ht H. now apply (Hcin t Ht) in H. Qed.
Lemma cout_lt : forall t c, t < BD -> In c (cout t) -> c < Cv.
Proof. intros t c Ht H. now apply (Hcout t Ht) in H. Qed.

Lemma regs_cases : regs = true \/ regs = false.
Proof. destruct regs; auto. Qed.
Lemma lk_ne : forall c c', (r_lk c <> r_lvw c' /\ r_lk c <> r_lkvw c' /\ r_lvw c <> r_lkvw c' /\ r_lvw c <> r_lk c' /\ r_lkvw c <> r_lk c' /\ r_lkvw c <> r_lvw c').
Proof. intros. unfold r_lk, r_lvw, r_lkvw. lia. Qed.
Lemma lk_inj : forall c c', c <> c' -> r_lk c <> r_lk c' /\ r_lvw c <> r_lvw c' /\ r_lkvw c <> r_lkvw c'.
Proof. intros. unfold r_lk, r_lvw, r_lkvw. lia. Qed.
Lemma lk_hi : forall c, 14 <= r_lk c /\ 14 <= r_lvw c /\ 14 <= r_lkvw c.
Proof. intros. unfold r_lk, r_lvw, r_lkvw. lia. Qed.

Lemma lk_low : forall r c, r < 14 -> r <> r_lk c /\ r <> r_lvw c /\ r <> r_lkvw c.
Proof. intros. unfold r_lk, r_lvw, r_lkvw. lia. Qed.
Lemma lk_t : forall c, r_t <> r_lk c /\ r_t <> r_lvw c /\ r_t <> r_lkvw c.
Proof. intros. apply lk_low. unfold r_t. lia. Qed.
Lemma zero_lane : forall l rg sh, let m := lrun inp (flat_map (fun c => [ISet (r_lk c) (fun _ => 0%R); ISet (r_lvw c) (fun _ => 0%R); ISet (r_lkvw c) (fun _ => 0%R)]) l) (rg, sh) in
  snd m = [] /\ snd (fst m) = sh /\ forall c, In c l -> fst (fst m) (r_lk c) = 0%R /\ fst (fst m) (r_lvw c) = 0%R /\ fst (fst m) (r_lkvw c) = 0%R.
Proof.
  intros l rg sh m. subst m.
  destruct (lrun_loop _ inp (fun c => [ISet (r_lk c) (fun _ => 0%R); ISet (r_lvw c) (fun _ => 0%R); ISet (r_lkvw c) (fun _ => 0%R)]) (fun _ => []) (fun d m => snd m = sh /\ forall c, In c d -> fst m (r_lk c) = 0%R /\ fst m (r_lvw c) = 0%R /\ fst m (r_lkvw c) = 0%R) l (rg, sh)) as [(I1 & I2) I4].
  - split; [reflexivity|intros c []].
  - intros d x r [rg1 sh1] E0 (I1 & I2). cbn [fst snd] in *. lr. split; [|reflexivity]. split; [exact I1|]. intros c Hc. destruct (Nat.eq_dec c x) as [->|Ne].
    + destruct (lk_ne x x) as (? & ? & ? & ? & ? & ?). repeat split; pe; reflexivity.
    + apply in_app_iff in Hc. destruct Hc as [Hc|[?|[]]]; [|congruence]. destruct (lk_ne x c) as (? & ? & ? & ? & ? & ?). destruct (lk_inj x c) as (? & ? & ?); [congruence|]. destruct (I2 c Hc) as (? & ? & ?). repeat split; pe; assumption.
  - split; [|auto]. rewrite I4. apply flat_map_nil.
Qed.
Lemma zero_shared : forall l rg sh, regs = false -> (forall c, In c l -> c < Ck) -> let m := lrun inp (flat_map (fun c => [IStore c (fun _ => 0%R); IStore (Ck + c) (fun _ => 0%R); IStore (Ck + Ck + c) (fun _ => 0%R); get pq r_t (qb + c); IStore (qs + c) (fun r => r r_t)]) l) (rg, sh) in
  snd m = [] /\ forall c, In c l -> snd (fst m) c = 0%R /\ snd (fst m) (Ck + c) = 0%R /\ snd (fst m) (Ck + Ck + c) = 0%R /\ snd (fst m) (qs + c) = q c.
Proof.
  intros l rg sh Hr Hl m. subst m. assert (Hd := Hds Hr).
  destruct (lrun_loop _ inp (fun c => [IStore c (fun _ => 0%R); IStore (Ck + c) (fun _ => 0%R); IStore (Ck + Ck + c) (fun _ => 0%R); get pq r_t (qb + c); IStore (qs + c) (fun r => r r_t)]) (fun _ => [])
    (fun d m => forall c, In c d -> snd m c = 0%R /\ snd m (Ck + c) = 0%R /\ snd m (Ck + Ck + c) = 0%R /\ snd m (qs + c) = q c) l (rg, sh)) as [I2 I4].
  - intros c [].
  - intros d x r [rg1 sh1] E0 I2. cbn [fst snd] in *. assert (Hx : x < Ck) by (apply Hl; rewrite E0, in_app_iff; right; now left). rewrite (get_reads inp N pq qb Ck q r_t x RQ Hx). destruct (RQ x Hx) as (_ & _ & Ef). lr. split; [|reflexivity]. rewrite put_eq, Ef.
    intros c Hc. assert (Lc : c < Ck). { apply Hl. rewrite E0. apply in_app_iff in Hc. apply in_app_iff. destruct Hc as [Hc|[->|[]]]; [now left|right; now left]. } destruct (Nat.eq_dec c x) as [->|Ne].
    + repeat split; rewrite ?put_eq; repeat (rewrite put_ne by lia; rewrite ?put_eq); reflexivity.
    + apply in_app_iff in Hc. destruct Hc as [Hc|[?|[]]]; [|congruence]. destruct (I2 c Hc) as (? & ? & ? & ?). repeat split; rewrite !put_ne by lia; assumption.
  - split; [|auto]. rewrite I4. apply flat_map_nil.
Qed.
Lemma init_lane : forall t m, t < BD -> let m' := lrun inp (f_init t) m in
  snd m' = [] /\ (forall c, In c (cin t) -> snd (fst m') (qs + c) = q c /\ AK (fst m') c = 0%R /\ AW (fst m') c = 0%R /\ AKW (fst m') c = 0%R) /\ forall c, In c (cout t) -> snd (fst m') (ds + c) = dyf c.
Proof.
  intros t [rg sh] Ht m'. subst m'. unfold f_init, AK, AW, AKW. rewrite lrun_app. destruct regs_cases as [Er|Er]; rewrite Er.
  - rewrite lrun_app. destruct (zero_lane (zch t) rg sh) as (A1 & A2 & A3). set (m1 := lrun inp _ (rg, sh)) in *. rewrite (surjective_pairing (fst m1)).
    destruct (loop_copy inp N pq qb qs Ck q (cin t) (fst (fst m1)) (snd (fst m1)) (fun c => cin_lt t c Ht) RQ) as (B1 & B2 & B3 & B4). set (m2 := lrun inp _ (fst (fst m1), snd (fst m1))) in *. cbn [fst snd]. rewrite (surjective_pairing (fst m2)).
    destruct (loop_copy inp N pdy db ds Cv dyf (cout t) (fst (fst m2)) (snd (fst m2)) (fun c => cout_lt t c Ht) RD) as (C1 & C2 & C3 & C4). rewrite A1, B1, C1. split; [reflexivity|]. split; [|exact C3].
    intros c Hc. split. { rewrite C4; [now apply B3|]. intros c' Hc'. apply cout_lt in Hc'; auto. lia. }
    destruct (A3 c (Hz t c Hc)) as (? & ? & ?). destruct (lk_hi c) as (? & ? & ?). rewrite !C2, !B2 by (unfold r_t; lia). auto.
  - destruct (zero_shared (cin t) rg sh Er (fun c => cin_lt t c Ht)) as (A1 & A2). set (m1 := lrun inp _ (rg, sh)) in *. rewrite (surjective_pairing (fst m1)). assert (Hd := Hds Er).
    destruct (loop_copy inp N pdy db ds Cv dyf (cout t) (fst (fst m1)) (snd (fst m1)) (fun c => cout_lt t c Ht) RD) as (C1 & C2 & C3 & C4). cbn [fst snd]. rewrite A1, C1. split; [reflexivity|]. split; [|exact C3].
    intros c Hc. assert (Lc := cin_lt t c Ht Hc). destruct (A2 c Hc) as (? & ? & ? & ?). rewrite !C4 by (intros c' Hc'; apply cout_lt in Hc'; [|exact Ht]; lia). auto.
Qed.
(** the accumulators *)
Lemma acc_lane : forall x t m, In x row -> t < BD -> let m' := lrun inp (f_acc x t) m in
  snd m' = [] /\ (forall r, r < 14 -> r <> r_t -> r <> r_u -> fst (fst m') r = fst m r) /\ (forall a, (regs = false -> Ck + Ck + Ck <= a) -> snd (fst m') a = snd m a) /\
  forall c, In c (cin t) -> AK (fst m') c = (fst m r_exp * AK m c + fst m r_alpha * K x c)%R /\ AW (fst m') c = (fst m r_exp * AW m c + fst m r_ag)%R /\ AKW (fst m') c = (fst m r_exp * AKW m c + fst m r_ag * K x c)%R.
Proof.
  intros x t [rg sh] Hx Ht m'. subst m'. assert (RKx := RK x Hx). assert (ND := proj1 (Hcin t Ht)). assert (Hl := fun c => cin_lt t c Ht). unfold f_acc, AK, AW, AKW. cbn [fst snd].
  destruct regs_cases as [Er|Er]; rewrite Er.
  - match goal with |- context[flat_map ?f _] => destruct (lrun_loop _ inp f (fun _ => []) (fun d m => snd m = sh /\ (forall r, r < 14 -> r <> r_t -> r <> r_u -> fst m r = rg r) /\
      (forall c, ~ In c d -> fst m (r_lk c) = rg (r_lk c) /\ fst m (r_lvw c) = rg (r_lvw c) /\ fst m (r_lkvw c) = rg (r_lkvw c)) /\
      forall c, In c d -> fst m (r_lk c) = (rg r_exp * rg (r_lk c) + rg r_alpha * K x c)%R /\ fst m (r_lvw c) = (rg r_exp * rg (r_lvw c) + rg r_ag)%R /\ fst m (r_lkvw c) = (rg r_exp * rg (r_lkvw c) + rg r_ag * K x c)%R) (cin t) (rg, sh)) as [(I1 & I2 & I3 & I4) I5] end.
    + split; [reflexivity|]. split; [auto|]. split; [auto|]. intros c [].
    + intros d y r [rg1 sh1] E0 (I1 & I2 & I3 & I4). cbn [fst snd] in *. assert (Hy : In y (cin t)) by (rewrite E0; apply in_elt). assert (Ly := Hl y Hy). assert (Ny : ~ In y d) by (rewrite E0 in ND; apply NoDup_remove_2 in ND; rewrite in_app_iff in ND; tauto).
      rewrite (get_reads inp N pk (kb x) Ck (K x) r_t y RKx Ly). destruct (RKx y Ly) as (_ & _ & Ef). lr. split; [|reflexivity]. destruct (lk_ne y y) as (? & ? & ? & ? & ? & ?).
      assert (F1 := fun r => lk_low r y).
      assert (G : forall r, r < 14 -> r <> r_t -> r <> r_u -> rg1 r = rg r) by exact I2.
      assert (M1 : r_exp <> r_lk y /\ r_exp <> r_lvw y /\ r_exp <> r_lkvw y) by (apply F1; unfold r_exp; lia). assert (M2 : r_alpha <> r_lk y /\ r_alpha <> r_lvw y /\ r_alpha <> r_lkvw y) by (apply F1; unfold r_alpha; lia).
      assert (M3 : r_ag <> r_lk y /\ r_ag <> r_lvw y /\ r_ag <> r_lkvw y) by (apply F1; unfold r_ag; lia). assert (M4 : r_t <> r_lk y /\ r_t <> r_lvw y /\ r_t <> r_lkvw y) by (apply F1; unfold r_t; lia).
      assert (N1 : rg1 r_exp = rg r_exp) by (apply G; unfold r_exp, r_t, r_u; lia). assert (N2 : rg1 r_alpha = rg r_alpha) by (apply G; unfold r_alpha, r_t, r_u; lia). assert (N3 : rg1 r_ag = rg r_ag) by (apply G; unfold r_ag, r_t, r_u; lia).
      destruct M1 as (? & ? & ?), M2 as (? & ? & ?), M3 as (? & ? & ?), M4 as (? & ? & ?). split; [exact I1|]. split; [|split].
      * intros r1 Hr1 Hr2 Hr3. destruct (F1 r1 Hr1) as (? & ? & ?). pe. auto.
      * intros c Hc. rewrite in_app_iff in Hc. assert (Nc : y <> c) by (intros ->; apply Hc; right; now left). destruct (lk_ne y c) as (? & ? & ? & ? & ? & ?). destruct (lk_inj y c Nc) as (? & ? & ?). destruct (lk_t c) as (? & ? & ?).
        destruct (I3 c) as (? & ? & ?); [tauto|]. repeat split; pe; assumption.
      * intros c Hc. destruct (Nat.eq_dec c y) as [->|Nc].
        -- destruct (I3 y Ny) as (J1 & J2 & J3). repeat split; pe; rewrite ?Ef, ?N1, ?N2, ?N3, ?J1, ?J2, ?J3; reflexivity.
        -- apply in_app_iff in Hc. destruct Hc as [Hc|[?|[]]]; [|congruence]. destruct (lk_ne y c) as (? & ? & ? & ? & ? & ?). destruct (lk_inj y c) as (? & ? & ?); [congruence|]. destruct (lk_t c) as (? & ? & ?).
           destruct (I4 c Hc) as (? & ? & ?). repeat split; pe; assumption.
    + split; [rewrite I5; apply flat_map_nil|]. split; [exact I2|]. split; [intros; now rewrite I1|exact I4].
  - match goal with |- context[flat_map ?f _] => destruct (lrun_loop _ inp f (fun _ => []) (fun d m => (forall r, r <> r_t -> r <> r_u -> fst m r = rg r) /\ (forall a, Ck + Ck + Ck <= a -> snd m a = sh a) /\
      (forall c, c < Ck -> ~ In c d -> snd m c = sh c /\ snd m (Ck + c) = sh (Ck + c) /\ snd m (Ck + Ck + c) = sh (Ck + Ck + c)) /\
      forall c, In c d -> snd m c = (rg r_exp * sh c + rg r_alpha * K x c)%R /\ snd m (Ck + c) = (rg r_exp * sh (Ck + c)%nat + rg r_ag)%R /\ snd m (Ck + Ck + c) = (rg r_exp * sh (Ck + Ck + c)%nat + rg r_ag * K x c)%R) (cin t) (rg, sh)) as [(I1 & I2 & I3 & I4) I5] end.
    + split; [auto|]. split; [auto|]. split; [auto|]. intros c [].
    + intros d y r [rg1 sh1] E0 (I1 & I2 & I3 & I4). cbn [fst snd] in *. assert (Hy : In y (cin t)) by (rewrite E0; apply in_elt). assert (Ly := Hl y Hy). assert (Ny : ~ In y d) by (rewrite E0 in ND; apply NoDup_remove_2 in ND; rewrite in_app_iff in ND; tauto).
      rewrite (get_reads inp N pk (kb x) Ck (K x) r_t y RKx Ly). destruct (RKx y Ly) as (_ & _ & Ef). lr. split; [|reflexivity].
      assert (N1 : rg1 r_exp = rg r_exp) by (apply I1; discriminate). assert (N2 : rg1 r_alpha = rg r_alpha) by (apply I1; discriminate). assert (N3 : rg1 r_ag = rg r_ag) by (apply I1; discriminate). split; [|split; [|split]].
      * intros r1 Hr2 Hr3. pe. auto.
      * intros a Ha. rewrite !(put_ne _ _ a) by lia. auto.
      * intros c Lc Hc. rewrite in_app_iff in Hc. assert (Nc : y <> c) by (intros ->; apply Hc; right; now left). destruct (I3 c Lc) as (? & ? & ?); [tauto|]. repeat split; first [rewrite !(put_ne _ _ c) by lia; assumption|rewrite !(put_ne _ _ (Ck + c)) by lia; assumption|rewrite !(put_ne _ _ (Ck + Ck + c)) by lia; assumption].
      * intros c Hc. destruct (Nat.eq_dec c y) as [->|Nc].
        -- destruct (I3 y Ly Ny) as (J1 & J2 & J3). repeat split; repeat (rewrite put_eq || rewrite put_ne by (first [discriminate|lia])); rewrite ?Ef, ?N1, ?N2, ?N3, ?J1, ?J2, ?J3; reflexivity.
        -- apply in_app_iff in Hc. destruct Hc as [Hc|[?|[]]]; [|congruence]. assert (Lc : c < Ck) by (apply Hl; rewrite E0, in_app_iff; now left). destruct (I4 c Hc) as (? & ? & ?). repeat split; first [rewrite !(put_ne _ _ c) by lia; assumption|rewrite !(put_ne _ _ (Ck + c)) by lia; assumption|rewrite !(put_ne _ _ (Ck + Ck + c)) by lia; assumption].
    + split; [rewrite I5; apply flat_map_nil|]. split; [intros; now apply I1|]. split; [intros a Ha; apply I2; apply Ha; reflexivity|exact I4].
Qed.
Lemma out_lane : forall t m, t < BD -> let m' := lrun inp (f_out t) m in
  snd m' = map (fun c => (fst dq + (qb + c), USet, (fst m r_inv * fst m r_inv * (fst m r_sum * AKW m c - AW m c * AK m c))%R)) (cin t) /\ snd (fst m') = snd m /\ forall r, r <> r_t -> r <> r_u -> r <> r_w -> fst (fst m') r = fst m r.
Proof.
  intros t [rg sh] Ht m'. subst m'. assert (Hl := fun c => cin_lt t c Ht). unfold f_out, AK, AW, AKW. cbn [fst snd]. destruct regs_cases as [Er|Er]; rewrite Er.
  - match goal with |- context[flat_map ?f _] => destruct (lrun_loop _ inp f (fun c => [(fst dq + (qb + c), USet, (rg r_inv * rg r_inv * (rg r_sum * rg (r_lkvw c) - rg (r_lvw c) * rg (r_lk c)))%R)]) (fun d m => m = (rg, sh)) (cin t) (rg, sh)) as [I1 I5] end.
    + reflexivity.
    + intros d y r m E0 ->. assert (Hy : In y (cin t)) by (rewrite E0; apply in_elt). assert (Ly := Hl y Hy). rewrite set_in by auto. lr. auto.
    + rewrite I1, I5. split; [apply flat_one|auto].
  - match goal with |- context[flat_map ?f _] => destruct (lrun_loop _ inp f (fun c => [(fst dq + (qb + c), USet, (rg r_inv * rg r_inv * (rg r_sum * sh (Ck + Ck + c)%nat - sh (Ck + c)%nat * sh c))%R)]) (fun d m => snd m = sh /\ forall r, r <> r_t -> r <> r_u -> r <> r_w -> fst m r = rg r) (cin t) (rg, sh)) as [[I1 I2] I5] end.
    + auto.
    + intros d y r [rg1 sh1] E0 (I1 & I2). cbn [fst snd] in *. subst sh1. assert (Hy : In y (cin t)) by (rewrite E0; apply in_elt). assert (Ly := Hl y Hy). rewrite set_in by auto. lr. split; [split; [reflexivity|]|].
      * intros r1 ? ? ?. pe. auto.
      * pe. rewrite !I2 by discriminate. reflexivity.
    + rewrite I5. split; [apply flat_one|auto].
Qed.

(** ** What the group does *)
Notation fend := (fend inp BD own pub). Notation ftrace := (ftrace inp BD own pub).
Definition sc (x : nat) : R := rsum Ck (fun c => q c * K x c)%R.
Definition gv (x : nat) : R := rsum Cv (fun c => dyf c * Vv x c)%R.
Definition wq (x : nat) : R := quad (hi x).
Definition holds_qd (b : bool) (st : lanes) : Prop := forall t, t < BD -> (forall c, c < Ck -> vis own pub b t (qs + c) -> snd (st t) (qs + c) = q c) /\ (forall c, c < Cv -> vis own pub b t (ds + c) -> snd (st t) (ds + c) = dyf c).
Lemma cin_vis : forall b t c, t < BD -> In c (cin t) -> c < Ck /\ vis own pub b t (qs + c).
Proof. intros b t c Ht Hc. apply (Hcin t Ht) in Hc. destruct Hc as [Hc E0]. split; [exact Hc|]. left. rewrite Hoq by exact Hc. exact E0. Qed.
Lemma cout_vis : forall b t c, t < BD -> In c (cout t) -> c < Cv /\ vis own pub b t (ds + c).
Proof. intros b t c Ht Hc. apply (Hcout t Ht) in Hc. destruct Hc as [Hc E0]. split; [exact Hc|]. left. rewrite Hod by exact Hc. exact E0. Qed.
Lemma dots_run : forall x st, In x row -> holds_qd ph st -> ftrace (f_dots x) st = [] /\ forall t, t < BD ->
  snd (fend (f_dots x) st t) = snd (st t) /\ fst (fend (f_dots x) st t) r_dot = sc x /\ fst (fend (f_dots x) st t) r_gd = gv x /\
  forall r, r <> r_t -> r <> r_u -> r <> r_dot -> r <> r_gd -> fst (fend (f_dots x) st t) r = fst (st t) r.
Proof.
  intros x st Hx Hh. assert (RKx := RK x Hx). assert (RVx := RV x Hx).
  assert (L : forall t, t < BD -> let m := lrun inp (dot_loop r_dot qs pk (kb x) (cin t) ++ dot_loop r_gd ds pv (vb x) (cout t)) (st t) in snd m = [] /\ snd (fst m) = snd (st t) /\
     fst (fst m) r_dot = rlsum (fun c => q c * K x c)%R (cin t) /\ fst (fst m) r_gd = rlsum (fun c => dyf c * Vv x c)%R (cout t) /\ forall r, r <> r_t -> r <> r_u -> r <> r_dot -> r <> r_gd -> fst (fst m) r = fst (st t) r).
  { intros t Ht m. subst m. rewrite lrun_app. cbn [fst snd]. destruct (Hh t Ht) as [H1 H2]. destruct (st t) as [rg sh]. cbn [fst snd] in *.
    destruct (loop_dot inp N r_dot pk (kb x) qs Ck (K x) (cin t) rg sh ltac:(discriminate) ltac:(discriminate) (fun c => cin_lt t c Ht) RKx) as (A1 & A2 & A3 & A4). fold (dot_loop r_dot qs pk (kb x) (cin t)) in *.
    set (m1 := lrun inp (dot_loop r_dot qs pk (kb x) (cin t)) (rg, sh)) in *. rewrite (surjective_pairing (fst m1)).
    destruct (loop_dot inp N r_gd pv (vb x) ds Cv (Vv x) (cout t) (fst (fst m1)) (snd (fst m1)) ltac:(discriminate) ltac:(discriminate) (fun c => cout_lt t c Ht) RVx) as (B1 & B2 & B3 & B4). fold (dot_loop r_gd ds pv (vb x) (cout t)) in *.
    set (m2 := lrun inp (dot_loop r_gd ds pv (vb x) (cout t)) (fst (fst m1), snd (fst m1))) in *. rewrite A1, B1, B2, B3, A2. split; [reflexivity|]. split; [reflexivity|]. split; [rewrite B4 by discriminate; rewrite A3; apply lsum_ext; intros c Hc; destruct (cin_vis ph t c Ht Hc); rewrite H1 by assumption; reflexivity|].
    split; [apply lsum_ext; intros c Hc; destruct (cout_vis ph t c Ht Hc); rewrite H2 by assumption; reflexivity|]. intros r R1 R2 R3 R4. rewrite B4 by auto. now apply A4. }
  split.
  - cbn [ftrace f_dots ftrace1 app]. rewrite !app_nil_r. apply quiet. intros t Ht. apply (L t Ht).
  - intros t Ht. cbn [fend f_dots fold_left fstate]. rewrite after_sum_in by exact Ht. cbn [fst snd]. destruct (L t Ht) as (L1 & L2 & L3 & L4 & L5). rewrite (after_sum_in BD r_dot _ t Ht). cbn [fst snd]. rewrite (after_in inp BD _ st t Ht). split; [exact L2|]. split; [|split].
    + rewrite put_ne by discriminate. rewrite put_eq. unfold sc. rewrite <- (lanes_sum BD Ck oc cin _ Hcin (fun c _ => Hoc c)), (lsum_seq RT). apply bsum_ext. intros t' Ht'. rewrite after_in by exact Ht'. apply (L t' Ht').
    + rewrite put_eq. unfold gv. rewrite <- (lanes_sum BD Cv oc cout _ Hcout (fun c _ => Hoc c)), (lsum_seq RT). apply bsum_ext. intros t' Ht'. rewrite after_sum_in by exact Ht'. cbn [fst]. rewrite put_ne by discriminate. rewrite after_in by exact Ht'. apply (L t' Ht').
    + intros r H1 H2 H3 H4. rewrite !put_ne by auto. now apply L5.
Qed.
(** the first pass *)
Definition inv1 (d : list nat) (st : lanes) : Prop := holds_qd ph st /\ exists m, forall t, t < BD ->
  fst (st t) r_max = m /\ fst (st t) r_sum = E sc wq m (fun _ => 1%R) d /\ fst (st t) r_int = E sc wq m gv d /\
  forall c, In c (cin t) -> AK (st t) c = E sc wq m (fun x => K x c) d /\ AW (st t) c = E sc wq m gv d /\ AKW (st t) c = E sc wq m (fun x => (gv x * K x c)%R) d.
Lemma acc_regs : forall (m m' : lane) c, snd m = snd m' -> (forall r, 14 <= r -> fst m r = fst m' r) -> AK m c = AK m' c /\ AW m c = AW m' c /\ AKW m c = AKW m' c.
Proof. intros m m' c H1 H2. destruct (lk_hi c) as (? & ? & ?). unfold AK, AW, AKW. destruct regs_cases as [Er|Er]; rewrite Er; [rewrite !H2 by assumption|rewrite H1]; auto. Qed.
Lemma stats_lane : forall x t d m0 (m : lane), In x row -> t < BD -> fst m r_dot = sc x -> fst m r_gd = gv x ->
  fst m r_max = m0 -> fst m r_sum = E sc wq m0 (fun _ => 1%R) d -> fst m r_int = E sc wq m0 gv d ->
  (forall c, In c (cin t) -> AK m c = E sc wq m0 (fun x => K x c) d /\ AW m c = E sc wq m0 gv d /\ AKW m c = E sc wq m0 (fun x => (gv x * K x c)%R) d) ->
  let m' := lrun inp (f_stats x t) m in let m1 := Rmax m0 (sc x) in snd m' = [] /\ (forall a, (regs = false -> Ck + Ck + Ck <= a) -> snd (fst m') a = snd m a) /\
  fst (fst m') r_max = m1 /\ fst (fst m') r_sum = E sc wq m1 (fun _ => 1%R) (d ++ [x]) /\ fst (fst m') r_int = E sc wq m1 gv (d ++ [x]) /\
  (forall c, In c (cin t) -> AK (fst m') c = E sc wq m1 (fun x => K x c) (d ++ [x]) /\ AW (fst m') c = E sc wq m1 gv (d ++ [x]) /\ AKW (fst m') c = E sc wq m1 (fun x => (gv x * K x c)%R) (d ++ [x])).
Proof.
  intros x t d m0 m Hx Ht Ed Eg Em Es Ei Ea m' m1. subst m'. unfold f_stats. rewrite !lrun_app. cbn [fst snd].
  assert (H1 : exists rg1, lrun inp (new_stats pw (hi x)) m = ((rg1, snd m), []) /\ rg1 r_new = m1 /\ rg1 r_alpha = (exp (sc x - m1) * wq x)%R /\ rg1 r_exp = exp (m0 - m1) /\ rg1 r_ag = (exp (sc x - m1) * wq x * gv x)%R /\
     rg1 r_sum = E sc wq m1 (fun _ => 1%R) (d ++ [x]) /\ rg1 r_int = E sc wq m1 gv (d ++ [x]) /\ forall r, 14 <= r -> rg1 r = fst m r).
  { destruct m as [rg sh]. cbn [fst snd] in *. unfold new_stats. rewrite (get_0 inp N pw Hi quad r_w (hi x) RW (Hhi x Hx)). assert (Ew := proj2 (proj2 (RW (hi x) (Hhi x Hx)))). cbn [plus] in Ew. fold (wq x) in Ew. eexists. split; [lr; reflexivity|].
    rewrite !E_snoc. rewrite <- (E_shift sc wq m0 m1 (fun _ => 1%R) d), <- (E_shift sc wq m0 m1 gv d), <- Es, <- Ei. unfold m1. rewrite <- Em, <- Ed, <- Eg.
    repeat split; pe; rewrite ?Ew; try reflexivity; try ring. intros r Hr. rewrite !put_ne by (unfold r_ag, r_int, r_sum, r_exp, r_alpha, r_w, r_new; lia). reflexivity. }
  destruct H1 as (rg1 & -> & N1 & N2 & N3 & N4 & N5 & N6 & N7). cbn [fst snd app].
  destruct (acc_lane x t (rg1, snd m) Hx Ht) as (A1 & A2 & A3 & A4). set (m2 := lrun inp (f_acc x t) (rg1, snd m)) in *. rewrite (surjective_pairing (fst m2)). lr. rewrite A1. cbn [fst snd] in *.
  split; [reflexivity|]. split; [exact A3|]. split; [rewrite put_eq; rewrite A2 by (unfold r_new, r_t, r_u; lia); exact N1|]. split; [rewrite put_ne by discriminate; rewrite A2 by (unfold r_sum, r_t, r_u; lia); exact N5|]. split; [rewrite put_ne by discriminate; rewrite A2 by (unfold r_int, r_t, r_u; lia); exact N6|].
  intros c Hc. destruct (A4 c Hc) as (B1 & B2 & B3). destruct (acc_regs (put r_max (fst (fst m2) r_new) (fst (fst m2)), snd (fst m2)) (fst m2) c) as (C1 & C2 & C3); [reflexivity|intros r Hr; cbn [fst]; apply put_ne; unfold r_max; lia|].
  destruct (acc_regs (rg1, snd m) m c) as (D1 & D2 & D3); [reflexivity|exact N7|]. destruct (Ea c Hc) as (F1 & F2 & F3). rewrite C1, C2, C3, B1, B2, B3, D1, D2, D3, F1, F2, F3, N2, N3, N4, !E_snoc.
  rewrite <- (E_shift sc wq m0 m1 (fun x => K x c) d), <- (E_shift sc wq m0 m1 gv d), <- (E_shift sc wq m0 m1 (fun x => (gv x * K x c)%R) d). repeat split; ring.
Qed.
Lemma acc_reg : forall (m m' : lane) c, c < Ck -> snd m = snd m' -> (forall r, 14 <= r -> fst m r = fst m' r) -> AK m c = AK m' c /\ AW m c = AW m' c /\ AKW m c = AKW m' c.
Proof. intros. now apply acc_regs. Qed.
Lemma hold_same : forall b st st', holds_qd b st -> (forall t a, t < BD -> (regs = false -> Ck + Ck + Ck <= a) -> snd (st' t) a = snd (st t) a) -> holds_qd b st'.
Proof.
  intros b st st' H E0 t Ht. destruct (H t Ht) as [H1 H2]. split; intros c Hc Hv; (rewrite E0; [auto|exact Ht|intros Er; specialize (Hds Er); lia]).
Qed.
Lemma first_pass : forall st, inv1 [] st -> let pr := flat_map (fun x => f_dots x ++ [FSeg (f_stats x)]) row in inv1 row (fend pr st) /\ ftrace pr st = [].
Proof.
  intros st H0 pr. subst pr. destruct (floop inp BD own pub _ (fun x => f_dots x ++ [FSeg (f_stats x)]) (fun _ => []) inv1 row st H0) as [F1 F2].
  - intros d x r st' Er (Hh & m & Hm). assert (Hx : In x row) by (rewrite Er; apply in_elt). destruct (dots_run x st' Hx Hh) as [D1 D2]. rewrite fend_app, ftrace_app, D1. set (st1 := fend (f_dots x) st') in *.
    assert (L : forall t, t < BD -> _) by (intros t Ht; destruct (D2 t Ht) as (Q1 & Q2 & Q3 & Q4); destruct (Hm t Ht) as (M1 & M2 & M3 & M4);
      refine (stats_lane x t d m (st1 t) Hx Ht Q2 Q3 _ _ _ _); [rewrite Q4 by discriminate; exact M1|rewrite Q4 by discriminate; exact M2|rewrite Q4 by discriminate; exact M3|];
      intros c Hc; destruct (acc_regs (st1 t) (st' t) c Q1) as (U1 & U2 & U3); [intros r0 Hr0; apply Q4; unfold r_t, r_u, r_dot, r_gd; lia|]; rewrite U1, U2, U3; exact (M4 c Hc)).
    cbv zeta in L. cbn [WarpKernelProofs.fend fold_left fstate WarpKernelProofs.ftrace ftrace1 app]. rewrite app_nil_r. split; [split|].
    + apply (hold_same ph st'); [exact Hh|]. intros t a Ht Ha. rewrite after_in by exact Ht. destruct (L t Ht) as (_ & L2 & _). rewrite L2 by exact Ha. now rewrite (proj1 (D2 t Ht)).
    + exists (Rmax m (sc x)). intros t Ht. rewrite after_in by exact Ht. destruct (L t Ht) as (_ & _ & L3). exact L3.
    + apply quiet. intros t Ht. apply (L t Ht).
  - split; [exact F1|]. rewrite F2. apply flat_map_nil.
Qed.
(** before it *)
Lemma start_lane : forall t m, lrun inp (f_start t) m = ((put r_int 0%R (put r_max fmin (put r_sum 0%R (fst m))), snd m), []).
Proof. intros t [rg sh]. unfold f_start. lr. reflexivity. Qed.
Lemma begin_run : forall st, let pr := [FSeg f_init] ++ (if ph then [FShare] else []) ++ [FSeg f_start] in inv1 [] (fend pr st) /\ ftrace pr st = [].
Proof.
  intros st pr. subst pr. assert (L := fun t Ht => init_lane t (st t) Ht). cbv zeta in L.
  assert (Z : forall st1, holds_qd ph st1 -> (forall t c, t < BD -> In c (cin t) -> AK (st1 t) c = 0%R /\ AW (st1 t) c = 0%R /\ AKW (st1 t) c = 0%R) -> inv1 [] (after inp BD f_start st1)).
  { intros st1 Hh Ha. split.
    - apply (hold_same ph st1); [exact Hh|]. intros t a Ht _. rewrite after_in by exact Ht. rewrite start_lane. reflexivity.
    - exists fmin. intros t Ht. rewrite after_in by exact Ht. rewrite start_lane. cbn [fst snd]. pe. split; [reflexivity|]. split; [reflexivity|]. split; [reflexivity|]. intros c Hc.
      destruct (acc_regs (put r_int 0%R (put r_max fmin (put r_sum 0%R (fst (st1 t)))), snd (st1 t)) (st1 t) c) as (U1 & U2 & U3); [reflexivity|intros r Hr; cbn [fst]; rewrite !put_ne by (unfold r_int, r_max, r_sum; lia); reflexivity|].
      rewrite U1, U2, U3. destruct (Ha t c Ht Hc) as (-> & -> & ->). auto. }
  assert (H0 : holds_qd false (after inp BD f_init st)).
  { intros t Ht. rewrite after_in by exact Ht. destruct (L t Ht) as (_ & L2 & L3). split; intros c Hc [Ho|[? _]]; try discriminate.
    - apply L2. apply (Hcin t Ht). split; [exact Hc|]. now rewrite <- Hoq.
    - apply L3. apply (Hcout t Ht). split; [exact Hc|]. now rewrite <- Hod. }
  assert (A0 : forall t c, t < BD -> In c (cin t) -> AK (after inp BD f_init st t) c = 0%R /\ AW (after inp BD f_init st t) c = 0%R /\ AKW (after inp BD f_init st t) c = 0%R).
  { intros t c Ht Hc. rewrite after_in by exact Ht. destruct (L t Ht) as (_ & L2 & _). now apply L2. }
  assert (T0 : flat_map (fun t => snd (lrun inp (f_init t) (st t))) (seq 0 BD) = []) by (apply quiet; intros t Ht; apply (L t Ht)).
  assert (T1 : forall st1, flat_map (fun t => snd (lrun inp (f_start t) (st1 t))) (seq 0 BD) = []) by (intros; apply quiet; intros t Ht; now rewrite start_lane).
  assert (C : ph = true \/ ph = false) by (destruct ph; auto). destruct C as [Ep|Ep].
  - rewrite Ep. cbn [app WarpKernelProofs.fend fold_left fstate WarpKernelProofs.ftrace ftrace1]. rewrite T0, T1. split; [|reflexivity]. apply Z.
    + rewrite Ep. intros t Ht. unfold shared_out. rewrite (proj2 (Nat.ltb_lt _ _) Ht). cbn [snd]. split; intros c Hc _.
      * assert (P : pub (qs + c) = true) by (unfold pub; apply andb_true_intro; split; [apply Nat.leb_le; lia|apply Nat.ltb_lt; lia]). rewrite P. apply H0; [rewrite Hoq by exact Hc; apply Hoc|exact Hc|]. now left.
      * assert (P : pub (ds + c) = true) by (unfold pub; apply andb_true_intro; split; [apply Nat.leb_le; lia|apply Nat.ltb_lt; lia]). rewrite P. apply H0; [rewrite Hod by exact Hc; apply Hoc|exact Hc|]. now left.
    + intros t c Ht Hc. unfold shared_out. rewrite (proj2 (Nat.ltb_lt _ _) Ht). destruct (A0 t c Ht Hc) as (U1 & U2 & U3). revert U1 U2 U3. unfold AK, AW, AKW. destruct regs_cases as [Er|Er]; rewrite Er; cbn [fst snd]; [auto|]. assert (Hd := Hds Er). assert (Lc := cin_lt t c Ht Hc).
      assert (P : forall a, a < Ck + Ck + Ck -> pub a = false) by (intros a Ha; unfold pub; rewrite (proj2 (Nat.leb_gt _ _)) by lia; reflexivity). rewrite !P by lia. auto.
  - rewrite Ep. cbn [app WarpKernelProofs.fend fold_left fstate WarpKernelProofs.ftrace ftrace1]. rewrite T0, T1. split; [|reflexivity]. apply Z; [|exact A0]. rewrite Ep. exact H0.
Qed.
(** between the passes, and the second pass *)
Hypotheses (Hrow : row <> []) (Hw : forall x, In x row -> (0 < wq x)%R).
Notation prob := (prb sc wq row). Notation mean := (avg sc wq gv row).
Definition DQ (c : nat) : R := rlsum (fun x => prob x * (gv x - mean) * K x c)%R row.
Definition inv2 (st : lanes) : Prop := holds_qd ph st /\ exists m, forall t, t < BD -> fst (st t) r_max = m /\ fst (st t) r_inv = (1 / E sc wq m (fun _ => 1%R) row)%R /\ fst (st t) r_int = mean.
Definition dq_trace : list upd := flat_map (fun t => map (fun c => (fst dq + (qb + c), USet, DQ c)) (cin t)) (seq 0 BD).
Definition kv_trace (x : nat) : list upd := flat_map (fun t => map (fun c => (fst dk + (kb x + c), UAtom AAdd, (prob x * (gv x - mean) * q c)%R)) (kch t) ++ map (fun c => (fst dv + (vb x + c), UAtom AAdd, (prob x * dyf c)%R)) (vch t)) (seq 0 BD).
Lemma mid_run : forall st, inv1 row st -> inv2 (fend [FSeg f_mid] st) /\ ftrace [FSeg f_mid] st = dq_trace.
Proof.
  intros st (Hh & m & Hm).
  assert (L : forall t, t < BD -> let m' := lrun inp (f_mid t) (st t) in snd m' = map (fun c => (fst dq + (qb + c), USet, DQ c)) (cin t) /\ snd (fst m') = snd (st t) /\ fst (fst m') r_max = m /\ fst (fst m') r_inv = (1 / E sc wq m (fun _ => 1%R) row)%R /\ fst (fst m') r_int = mean).
  { intros t Ht. destruct (Hm t Ht) as (M1 & M2 & M3 & M4). unfold f_mid. rewrite lrun_app. rewrite (surjective_pairing (st t)). lr.
    set (rg1 := put r_int _ _). assert (R1 : rg1 r_inv = (1 / E sc wq m (fun _ => 1%R) row)%R) by (unfold rg1; pe; rewrite M2; reflexivity). assert (R2 : rg1 r_int = mean). { unfold rg1. pe. rewrite M2, M3. now apply E_avg. }
    assert (R3 : rg1 r_max = m) by (unfold rg1; pe; exact M1). assert (R4 : rg1 r_sum = E sc wq m (fun _ => 1%R) row) by (unfold rg1; pe; exact M2). assert (R5 : forall r, 14 <= r -> rg1 r = fst (st t) r) by (intros r Hr; unfold rg1; rewrite !put_ne by (unfold r_int, r_inv; lia); reflexivity). clearbody rg1.
    destruct (out_lane t (rg1, snd (st t)) Ht) as (O1 & O2 & O3). cbn [fst snd] in *. rewrite O1, O2, !O3 by discriminate. split; [|auto]. apply map_ext_in. intros c Hc. f_equal.
    destruct (acc_regs (rg1, snd (st t)) (st t) c) as (U1 & U2 & U3); [reflexivity|exact R5|]. rewrite U1, U2, U3. destruct (M4 c Hc) as (-> & -> & ->). rewrite R1, R4. unfold DQ. now apply E_dq. }
  cbv zeta in L. cbn [WarpKernelProofs.fend fold_left fstate WarpKernelProofs.ftrace ftrace1 app]. rewrite app_nil_r. split; [split|].
  - apply (hold_same ph st); [exact Hh|]. intros t a Ht _. rewrite after_in by exact Ht. now rewrite (proj1 (proj2 (L t Ht))).
  - exists m. intros t Ht. rewrite after_in by exact Ht. now apply (L t Ht).
  - unfold dq_trace. apply flat_map_in_ext. intros t Ht. apply in_seq in Ht. apply (L t). lia.
Qed.
Lemma second_pass : forall st, inv2 st -> let pr := flat_map (fun x => f_dots x ++ [FSeg (f_grads x)]) row in ftrace pr st = flat_map kv_trace row.
Proof.
  intros st H0 pr. subst pr. refine (proj2 (floop inp BD own pub _ (fun x => f_dots x ++ [FSeg (f_grads x)]) kv_trace (fun _ => inv2) row st H0 _)).
  intros d x r st' Er (Hh & m & Hm). assert (Hx : In x row) by (rewrite Er; apply in_elt). destruct (dots_run x st' Hx Hh) as [D1 D2]. rewrite fend_app, ftrace_app, D1. set (st1 := fend (f_dots x) st') in *.
  assert (L : forall t, t < BD -> let m' := lrun inp (f_grads x t) (st1 t) in
     snd m' = map (fun c => (fst dk + (kb x + c), UAtom AAdd, (prob x * (gv x - mean) * q c)%R)) (kch t) ++ map (fun c => (fst dv + (vb x + c), UAtom AAdd, (prob x * dyf c)%R)) (vch t) /\ snd (fst m') = snd (st1 t) /\
     forall r, (r = r_max \/ r = r_inv \/ r = r_int) -> fst (fst m') r = fst (st1 t) r).
  { intros t Ht. destruct (D2 t Ht) as (Q1 & Q2 & Q3 & Q4). destruct (Hm t Ht) as (M1 & M2 & M3). destruct (Hh t Ht) as (G1 & G2). unfold f_grads, entry_weight. rewrite !lrun_app. rewrite (surjective_pairing (st1 t)).
    rewrite (get_0 inp N pw Hi quad r_w (hi x) RW (Hhi x Hx)). assert (Ew := proj2 (proj2 (RW (hi x) (Hhi x Hx)))). cbn [plus] in Ew. fold (wq x) in Ew. lr. rewrite Ew.
    set (rg1 := put r_ag _ _). assert (R1 : rg1 r_alpha = prob x). { unfold rg1. pe. rewrite Q2, !Q4 by discriminate. rewrite M1, M2. now apply E_prb. }
    assert (R2 : rg1 r_ag = (prob x * (gv x - mean))%R). { unfold rg1. pe. rewrite Q2, Q3, !Q4 by discriminate. rewrite M1, M2, M3. rewrite <- (E_prb sc wq m row x Hrow Hw). ring. }
    assert (R3 : forall r, r = r_max \/ r = r_inv \/ r = r_int -> rg1 r = fst (st1 t) r) by (intros r0 [ -> |[ -> | -> ]]; unfold rg1; pe; reflexivity). clearbody rg1.
    destruct (loop_atom inp AAdd r_ag dk (kb x) qs Ck (kch t) rg1 (snd (st1 t)) ltac:(discriminate) (fun c Hc => proj1 (proj1 (proj2 (Hkch t Ht) c) Hc)) (fun c => BK x c Hx)) as (A1 & A2 & A3). set (m1 := lrun inp _ (rg1, snd (st1 t))) in *. rewrite (surjective_pairing (fst m1)).
    destruct (loop_atom inp AAdd r_alpha dv (vb x) ds Cv (vch t) (fst (fst m1)) (snd (fst m1)) ltac:(discriminate) (fun c Hc => proj1 (proj1 (proj2 (Hvch t Ht) c) Hc)) (fun c => BV x c Hx)) as (B1 & B2 & B3). set (m2 := lrun inp _ (fst (fst m1), snd (fst m1))) in *. rewrite A1, B1, B2, A2. split; [|split; [reflexivity|]].
    - rewrite A3 by discriminate. rewrite R1, R2, Q1. f_equal; apply map_ext_in; intros c Hc; f_equal; f_equal.
      + apply G1; [apply (Hkch t Ht) in Hc; tauto|now apply Hkv].
      + apply G2; [apply (Hvch t Ht) in Hc; tauto|now apply Hvv].
    - intros r0 Hr0. rewrite B3, A3 by (destruct Hr0 as [ -> |[ -> | -> ]]; discriminate). now apply R3. }
  cbv zeta in L. cbn [WarpKernelProofs.fend fold_left fstate WarpKernelProofs.ftrace ftrace1 app]. rewrite app_nil_r. split; [split|].
  - apply (hold_same ph st'); [exact Hh|]. intros t a Ht _. rewrite after_in by exact Ht. rewrite (proj1 (proj2 (L t Ht))). now rewrite (proj1 (D2 t Ht)).
  - exists m. intros t Ht. rewrite after_in by exact Ht. destruct (L t Ht) as (_ & _ & L3). destruct (D2 t Ht) as (_ & _ & _ & Q4). rewrite !L3 by auto. rewrite !Q4 by discriminate. now apply Hm.
  - unfold kv_trace. apply flat_map_in_ext. intros t Ht. apply in_seq in Ht. apply (L t). lia.
Qed.
Theorem body_trace : forall st, ftrace f_body st = dq_trace ++ flat_map kv_trace row.
Proof.
  intros st. set (p0 := [FSeg f_init] ++ (if ph then [FShare] else []) ++ [FSeg f_start]). set (p1 := flat_map (fun x => f_dots x ++ [FSeg (f_stats x)]) row). set (p2 := flat_map (fun x => f_dots x ++ [FSeg (f_grads x)]) row).
  replace f_body with (p0 ++ p1 ++ [FSeg f_mid] ++ p2) by (unfold f_body, p0, p1, p2; rewrite <- !app_assoc; reflexivity).
  destruct (begin_run st) as [B1 B2]. fold p0 in B1, B2. cbv zeta in B1, B2. rewrite (ftrace_app inp BD own pub p0), B2. cbn [app]. destruct (first_pass _ B1) as [F1 F2]. fold p1 in F1, F2. cbv zeta in F1, F2. rewrite (ftrace_app inp BD own pub p1), F2. cbn [app].
  change (FSeg f_mid :: p2) with ([FSeg f_mid] ++ p2). destruct (mid_run _ F1) as [M1 M2]. rewrite (ftrace_app inp BD own pub [FSeg f_mid]), M2. f_equal. exact (second_pass _ M1).
Qed.

(** ** Who reads and writes what *)
Section Allowed.
Variables (k : kernel) (kind : nat -> option aop) (holds : nat -> nat * nat -> Prop) (g NW : nat).
Hypotheses (HN : N = k_insize k) (HNW : BD = 32 * NW) (Hsh : qs + Ck <= k_shared k).
Hypotheses (OK : forall x c, In x row -> c < Ck -> fst dk + (kb x + c) < k_outsize k /\ kind (fst dk + (kb x + c)) = Some AAdd) (OV : forall x c, In x row -> c < Cv -> fst dv + (vb x + c) < k_outsize k /\ kind (fst dv + (vb x + c)) = Some AAdd).
Hypotheses (OQ : forall c, c < Ck -> fst dq + (qb + c) < k_outsize k /\ kind (fst dq + (qb + c)) = None /\ holds (fst dq + (qb + c)) (g, oc c)).
Notation fok b := (fine k own pub kind holds b g).
Lemma low_pub : regs = false -> forall a, a < Ck + Ck + Ck -> pub a = false.
Proof. intros Er a Ha. specialize (Hds Er). unfold pub. rewrite (proj2 (Nat.leb_gt _ _)) by lia. reflexivity. Qed.
Lemma init_fine : forall t, t < BD -> Forall (fok false t) (f_init t).
Proof.
  intros t Ht. rewrite HN in *. unfold f_init.
  assert (D : Forall (fok false t) (flat_map (fun c => [get pdy r_t (db + c); IStore (ds + c) (fun r => r r_t)]) (cout t))).
  { fi. intros c Hc. apply (Hcout t Ht) in Hc. fi; [eapply fine_get; [exact RD|tauto]|]. apply fine_store; [lia|]. split; [rewrite Hod; tauto|discriminate]. }
  apply Forall_app. split; [|exact D]. destruct regs_cases as [Er|Er]; rewrite Er.
  - fi; intros c Hc; fi. { apply (Hcin t Ht) in Hc. eapply fine_get; [exact RQ|tauto]. } apply (Hcin t Ht) in Hc. apply fine_store; [lia|]. split; [rewrite Hoq; tauto|discriminate].
  - assert (Hd := Hds Er). fi. intros c Hc. apply (Hcin t Ht) in Hc. destruct Hc as [Hc Ec]. destruct (Ho0 Er c Hc) as (U1 & U2 & U3). fi; [apply fine_store; [lia|split; [congruence|discriminate]]|apply fine_store; [lia|split; [congruence|discriminate]]|apply fine_store; [lia|split; [congruence|discriminate]]|eapply fine_get; [exact RQ|exact Hc]|]. apply fine_store; [lia|split; [|discriminate]]. rewrite Hoq; assumption.
Qed.
Lemma dots_fine : forall x t, In x row -> t < BD -> Forall (fok ph t) (dot_loop r_dot qs pk (kb x) (cin t) ++ dot_loop r_gd ds pv (vb x) (cout t)).
Proof.
  intros x t Hx Ht. rewrite HN in *. unfold dot_loop. fi; intros c Hc; fi.
  - destruct (cin_vis ph t c Ht Hc). apply fine_load; [lia|assumption].
  - eapply fine_get; [exact (RK x Hx)|]. now apply (cin_lt t).
  - destruct (cout_vis ph t c Ht Hc). apply fine_load; [lia|assumption].
  - eapply fine_get; [exact (RV x Hx)|]. now apply (cout_lt t).
Qed.
Lemma stats_fine : forall x t, In x row -> t < BD -> Forall (fok ph t) (f_stats x t).
Proof.
  intros x t Hx Ht. rewrite HN in *. unfold f_stats, new_stats, f_acc. apply Forall_app. split; [fi; eapply fine_get0; [exact RW|now apply Hhi]|]. apply Forall_app. split; [|fi].
  destruct regs_cases as [Er|Er]; rewrite Er; fi; intros c Hc; apply (Hcin t Ht) in Hc; fi.
  1: eapply fine_get; [exact (RK x Hx)|tauto].
  all: assert (Hd := Hds Er); assert (P := low_pub Er); destruct Hc as [Hc Ec]; destruct (Ho0 Er c Hc) as (U1 & U2 & U3).
  1: eapply fine_get; [exact (RK x Hx)|tauto].
  all: first [apply fine_load; [lia|left; congruence]|apply fine_store; [lia|split; [congruence|intros _; apply P; lia]]].
Qed.
Lemma mid_fine : forall t, t < BD -> Forall (fok ph t) (f_mid t).
Proof.
  intros t Ht. unfold f_mid, f_out. apply Forall_app. split; [fi|]. destruct regs_cases as [Er|Er]; rewrite Er; fi; intros c Hc; apply (Hcin t Ht) in Hc; destruct Hc as [Hc Eo]; destruct (OQ c Hc) as (L1 & L2 & L3); rewrite Eo in L3; fi.
  1: apply fine_out; auto.
  all: assert (Hd := Hds Er); destruct (Ho0 Er c Hc) as (U1 & U2 & U3); first [apply fine_load; [lia|left; congruence]|apply fine_out; auto].
Qed.
Lemma grads_fine : forall x t, In x row -> t < BD -> Forall (fok ph t) (f_grads x t).
Proof.
  intros x t Hx Ht. rewrite HN in *. unfold f_grads, entry_weight. apply Forall_app. split; [fi; eapply fine_get0; [exact RW|now apply Hhi]|]. fi; intros c Hc; fi.
  - assert (Lc : c < Ck) by (apply (Hkch t Ht) in Hc; tauto). apply fine_load; [lia|now apply Hkv].
  - assert (Lc : c < Ck) by (apply (Hkch t Ht) in Hc; tauto). destruct (OK x c Hx Lc). apply fine_add; auto.
  - assert (Lc : c < Cv) by (apply (Hvch t Ht) in Hc; tauto). apply fine_load; [lia|now apply Hvv].
  - assert (Lc : c < Cv) by (apply (Hvch t Ht) in Hc; tauto). destruct (OV x c Hx Lc). apply fine_add; auto.
Qed.
Theorem body_good : fgood k NW own pub kind holds g false f_body.
Proof.
  assert (R : forall t, t < 32 * NW -> t < BD) by (intros; lia).
  assert (Q : fgood k NW own pub kind holds g ph ([FSeg f_start] ++ flat_map (fun x => f_dots x ++ [FSeg (f_stats x)]) row ++ [FSeg f_mid] ++ flat_map (fun x => f_dots x ++ [FSeg (f_grads x)]) row)).
  { cbn [app fgood]. split; [intros t Ht; unfold f_start; fi|]. apply fgood_app.
    - intros y Hy. apply in_flat_map in Hy. destruct Hy as (x & _ & Hy). destruct Hy as [ <- |[ <- |[ <- |[ <- |[]]]]]; discriminate.
    - apply fgood_flat. intros x Hx. split; [intros y [ <- |[ <- |[ <- |[ <- |[]]]]]; discriminate|]. cbn [f_dots app fgood]. split; [intros t Ht; apply dots_fine; auto|]. split; [intros t Ht; apply stats_fine; auto|exact I].
    - cbn [fgood]. split; [intros t Ht; apply mid_fine; auto|]. apply fgood_flat. intros x Hx. split; [intros y [ <- |[ <- |[ <- |[ <- |[]]]]]; discriminate|]. cbn [f_dots app fgood]. split; [intros t Ht; apply dots_fine; auto|]. split; [intros t Ht; apply grads_fine; auto|exact I]. }
  unfold f_body. cbn [app fgood] in *. split; [intros t Ht; apply init_fine; auto|].
  assert (C : ph = true \/ ph = false) by (destruct ph; auto). destruct C as [Ep|Ep]; rewrite Ep in Q |- *; cbn [app fgood]; exact Q.
Qed.
End Allowed.
End Group.
