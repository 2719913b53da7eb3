(** Groups whose threads share registers at barriers only: every shared cell belongs to one
    thread.  A group then is a family of independent lanes, and the output of a kernel is
    what the updates of its groups, one group after the other, make of it. *)
From Coq Require Import List Arith Lia Bool Reals Lra FunctionalExtensionality.
From Verif Require Import TensorModel TensorProofs BigSum GpuModel GpuSpec GpuProofs GpuProofs2.
Import ListNotations.
Local Open Scope nat_scope.

Inductive uop := USet | UAtom (o : aop).
Notation upd := (nat * uop * R)%type (only parsing).
Definition emit (i : instr) (rg : nat -> R) : list upd :=
  match i with IOut a f => [(a, USet, f rg)] | IAtom o a f => [(a, UAtom o, f rg)] | _ => [] end.
Definition upd1 (out : nat -> R) (u : upd) : nat -> R :=
  let '(a, o, v) := u in put a (match o with USet => v | UAtom o => aop_fun o (out a) v end) out.
Definition upds (tr : list upd) (out : nat -> R) : nat -> R := fold_left upd1 tr out.
Notation lmem := ((nat -> R) * (nat -> R))%type (only parsing).
Definition lrun1 (inp : nat -> R) (m : lmem * list upd) (i : instr) : lmem * list upd :=
  let '((rg, sh), tr) := m in ((reg_of inp i rg sh, sh_of i rg sh), tr ++ emit i rg).
Definition lrun (inp : nat -> R) (p : list instr) (m : lmem) : lmem * list upd := fold_left (lrun1 inp) p (m, []).

Lemma lrun_acc : forall inp p m tr, fold_left (lrun1 inp) p (m, tr) = (fst (lrun inp p m), tr ++ snd (lrun inp p m)).
Proof.
  intros inp. unfold lrun. induction p as [|i p IH]; intros [rg sh] tr; cbn [fold_left lrun1 fst snd]; [now rewrite app_nil_r|].
  rewrite (IH _ (tr ++ emit i rg)), (IH _ ([] ++ emit i rg)). cbn [fst snd app]. now rewrite app_assoc.
Qed.
Lemma lrun_app : forall inp a b m, lrun inp (a ++ b) m = (fst (lrun inp b (fst (lrun inp a m))), snd (lrun inp a m) ++ snd (lrun inp b (fst (lrun inp a m)))).
Proof. intros. unfold lrun at 1. rewrite fold_left_app. change (fold_left (lrun1 inp) a (m, [])) with (lrun inp a m). destruct (lrun inp a m). apply lrun_acc. Qed.
Lemma lrun_cons : forall inp i b rg sh, lrun inp (i :: b) (rg, sh) = (fst (lrun inp b (reg_of inp i rg sh, sh_of i rg sh)), emit i rg ++ snd (lrun inp b (reg_of inp i rg sh, sh_of i rg sh))).
Proof. intros. unfold lrun at 1. cbn [fold_left lrun1 app]. apply lrun_acc. Qed.
Lemma upds_app : forall a b out, upds (a ++ b) out = upds b (upds a out).
Proof. intros. apply fold_left_app. Qed.
Lemma run_lrun : forall inp p rg sh out, run_instrs inp p (rg, sh, out) = (fst (fst (lrun inp p (rg, sh))), snd (fst (lrun inp p (rg, sh))), upds (snd (lrun inp p (rg, sh))) out).
Proof.
  intros inp. induction p as [|i p IH]; intros rg sh out; [reflexivity|]. rewrite lrun_cons. cbn [fst snd]. rewrite upds_app, <- (IH _ _ (upds (emit i rg) out)).
  cbn [run_instrs fold_left run1]. unfold run_instrs. f_equal. f_equal. destruct i; reflexivity.
Qed.

(** Lanes: registers and what the thread knows of the shared array. *)
Notation lanes := (nat -> (nat -> R) * (nat -> R)) (only parsing).
Definition lane_step (inp : nat -> R) (nT : nat) (m : lanes * list upd) (st : gstep) : lanes * list upd :=
  match st with
  | Seg p => (fun t => if t <? nT then fst (lrun inp (p t) (fst m t)) else fst m t, snd m ++ flat_map (fun t => snd (lrun inp (p t) (fst m t))) (seq 0 nT))
  | Bar f => (fun t => if t <? nT then (f t (fun t' => fst (fst m t')), snd (fst m t)) else fst m t, snd m)
  | Shf who f => (fun t => if (t <? nT) && who (t / warp_size) then (f t (warp_regs nT (t / warp_size) (fun t' => fst (fst m t'))), snd (fst m t)) else fst m t, snd m)
  end.
Definition lane_prog (inp : nat -> R) (nT : nat) (prog : list gstep) (m : lanes * list upd) : lanes * list upd := fold_left (lane_step inp nT) prog m.
Lemma lane_prog_acc : forall inp nT prog st tr, lane_prog inp nT prog (st, tr) = (fst (lane_prog inp nT prog (st, [])), tr ++ snd (lane_prog inp nT prog (st, []))).
Proof.
  intros inp nT. unfold lane_prog. induction prog as [|x prog IH]; intros st tr; cbn [fold_left]; [cbn; now rewrite app_nil_r|].
  destruct x as [p|f|who f]; cbn [lane_step fst snd app].
  - rewrite (IH _ (tr ++ _)), (IH _ (flat_map _ _)). cbn [fst snd]. now rewrite app_assoc.
  - apply IH.
  - apply IH.
Qed.
Lemma lane_prog_app : forall inp nT a b st, lane_prog inp nT (a ++ b) (st, []) =
  (fst (lane_prog inp nT b (fst (lane_prog inp nT a (st, [])), [])), snd (lane_prog inp nT a (st, [])) ++ snd (lane_prog inp nT b (fst (lane_prog inp nT a (st, [])), []))).
Proof. intros. unfold lane_prog at 1. rewrite fold_left_app. change (fold_left (lane_step inp nT) a (st, [])) with (lane_prog inp nT a (st, [])). destruct (lane_prog inp nT a (st, [])). apply lane_prog_acc. Qed.

Section Own.
Variables (inp : nat -> R) (nT : nat) (own : nat -> nat).
Definition mine (t a : nat) : Prop := own a = t.
Definition sees (rg : nat -> nat -> R) (sh : nat -> R) (st : lanes) : Prop := forall t, fst (st t) = rg t /\ (t < nT -> forall a, own a = t -> snd (st t) a = sh a).

Lemma lane_frame : forall t p rg sh sh', Forall (conforms mine mine t) p -> (forall a, own a = t -> sh a = sh' a) ->
  fst (fst (lrun inp p (rg, sh))) = fst (fst (lrun inp p (rg, sh'))) /\ snd (lrun inp p (rg, sh)) = snd (lrun inp p (rg, sh')) /\
  (forall a, own a = t -> snd (fst (lrun inp p (rg, sh))) a = snd (fst (lrun inp p (rg, sh'))) a) /\ (forall a, own a <> t -> snd (fst (lrun inp p (rg, sh))) a = sh a).
Proof.
  intros t. induction p as [|i p IH]; intros rg sh sh' C H.
  { cbn. auto. }
  inversion C as [|? ? [Hs Hi] C']; subst. rewrite !lrun_cons. cbn [fst snd].
  assert (E1 : reg_of inp i rg sh = reg_of inp i rg sh'). { destruct i; try reflexivity. cbn in *. rewrite H; [reflexivity|]. apply (proj2 (Hi _)). now cbn. }
  assert (E2 : forall a, own a = t -> sh_of i rg sh a = sh_of i rg sh' a). { intros a Ha. destruct i; cbn; auto. unfold put. destruct (a =? a0); auto. }
  assert (E3 : forall a, own a <> t -> sh_of i rg sh a = sh a). { intros a Ha. destruct i; cbn; auto. apply put_ne. intros ->. apply Ha. apply (proj1 (Hi _)). now cbn. }
  destruct (IH (reg_of inp i rg sh) _ _ C' E2) as (A1 & A2 & A3 & A4). rewrite <- E1. split; [exact A1|]. split; [now rewrite A2|]. split; [exact A3|].
  intros a Ha. rewrite A4 by auto. auto.
Qed.
Lemma seg_lanes : forall p rg sh out st, (forall t, t < nT -> Forall (conforms mine mine t) (p t)) -> sees rg sh st ->
  let '(rg', sh', out') := run_step inp nT (rg, sh, out) (Seg p) in
  sees rg' sh' (fst (lane_step inp nT (st, []) (Seg p))) /\ out' = upds (snd (lane_step inp nT (st, []) (Seg p))) out.
Proof.
  intros p rg sh out st C V. cbn [run_step lane_step fst snd app].
  assert (G : forall n, n <= nT -> let '(rg', sh', out') := fold_left (turn1 inp p) (seq 0 n) (rg, sh, out) in
     (forall t, rg' t = fst (if t <? n then fst (lrun inp (p t) (st t)) else st t)) /\
     (forall t, t < nT -> forall a, own a = t -> snd (if t <? n then fst (lrun inp (p t) (st t)) else st t) a = sh' a) /\ out' = upds (flat_map (fun t => snd (lrun inp (p t) (st t))) (seq 0 n)) out).
  { induction n as [|n IH]; intros Hn.
    - cbn. split; [intros t; symmetry; apply V|]. split; [intros t Ht a Ha; now apply V|reflexivity].
    - rewrite seq_S, fold_left_app, flat_map_app, upds_app. cbn [fold_left plus flat_map]. rewrite app_nil_r. specialize (IH ltac:(lia)).
      destruct (fold_left _ _ _) as [[r1 s1] o1]. destruct IH as (I1 & I2 & I3). unfold turn1. rewrite run_lrun.
      assert (Er : r1 n = fst (st n)) by (rewrite I1; now rewrite Nat.ltb_irrefl).
      assert (Es : forall a, own a = n -> s1 a = snd (st n) a). { intros a Ha. rewrite <- (I2 n) by (auto; lia). now rewrite Nat.ltb_irrefl. }
      destruct (lane_frame n (p n) (r1 n) s1 (snd (st n)) (C n ltac:(lia)) Es) as (A1 & A2 & A3 & A4). rewrite Er in A1, A2, A3, A4 |- *. rewrite <- surjective_pairing in A1, A2, A3.
      split; [|split].
      + intros t. unfold put. destruct (Nat.eqb_spec t n) as [->|Ne].
        * rewrite (proj2 (Nat.ltb_lt n (Datatypes.S n))) by lia. exact A1.
        * rewrite I1. destruct (Nat.ltb_spec t n), (Nat.ltb_spec t (Datatypes.S n)); auto; lia.
      + intros t Ht a Ha. destruct (Nat.eq_dec t n) as [->|Ne].
        * rewrite (proj2 (Nat.ltb_lt n (Datatypes.S n))) by lia. rewrite A3 by auto. reflexivity.
        * rewrite A4 by congruence. rewrite <- (I2 t) by auto. destruct (Nat.ltb_spec t n), (Nat.ltb_spec t (Datatypes.S n)); auto; lia.
      + now rewrite A2, I3. }
  specialize (G nT (Nat.le_refl _)). destruct (fold_left _ _ _) as [[r1 s1] o1]. destruct G as (G1 & G2 & G3). split; [|exact G3]. intros t. cbn [fst]. split; [now rewrite G1|].
  intros Ht a Ha. rewrite <- (G2 t Ht a Ha). reflexivity.
Qed.
(** A program does to the memory what another one does to the lanes. *)
Definition refines (prog lprog : list gstep) : Prop := forall rg sh out st, sees rg sh st ->
  let '(rg', sh', out') := run_prog inp nT prog (rg, sh, out) in sees rg' sh' (fst (lane_prog inp nT lprog (st, []))) /\ out' = upds (snd (lane_prog inp nT lprog (st, []))) out.
Lemma refines_nil : refines [] [].
Proof. intros rg sh out st V. cbn. auto. Qed.
Lemma refines_app : forall a la b lb, refines a la -> refines b lb -> refines (a ++ b) (la ++ lb).
Proof.
  intros a la b lb Ra Rb rg sh out st V. unfold run_prog. rewrite fold_left_app. specialize (Ra rg sh out st V). unfold run_prog in Ra. destruct (fold_left _ a _) as [[r1 s1] o1]. destruct Ra as [V1 E1].
  specialize (Rb r1 s1 o1 _ V1). unfold run_prog in Rb. destruct (fold_left _ b _) as [[r2 s2] o2]. rewrite lane_prog_app. cbn [fst snd]. rewrite upds_app, <- E1. exact Rb.
Qed.
Lemma refines_cons : forall a la b lb, refines [a] [la] -> refines b lb -> refines (a :: b) (la :: lb).
Proof. intros. now apply (refines_app [a] [la] b lb). Qed.
Lemma refines_flat : forall X (l : list X) f lf, (forall x, In x l -> refines (f x) (lf x)) -> refines (flat_map f l) (flat_map lf l).
Proof. induction l; intros f lf H; [apply refines_nil|]. cbn [flat_map]. apply refines_app; [apply H; now left|]. apply IHl. intros. apply H. now right. Qed.
Lemma refines_seg : forall p, (forall t, t < nT -> Forall (conforms mine mine t) (p t)) -> refines [Seg p] [Seg p].
Proof. intros p C rg sh out st V. exact (seg_lanes p rg sh out st C V). Qed.
Lemma refines_regs : forall prog f, (forall rg sh out, exists sh' rg', run_prog inp nT prog (rg, sh, out) = (rg', sh', out) /\ (forall a, own a < nT -> sh' a = sh a) /\
    forall t, rg' t = if t <? nT then f t rg else rg t) -> refines prog [Bar f].
Proof.
  intros prog f H rg sh out st V. destruct (H rg sh out) as (sh' & rg' & -> & Hs & Hr). cbn [lane_prog fold_left lane_step fst snd]. split; [|reflexivity].
  assert (E : (fun t' => fst (st t')) = rg) by (apply functional_extensionality; intros; apply V). intros t. rewrite Hr, E. destruct (t <? nT) eqn:Et; cbn [fst snd].
  - split; [reflexivity|]. intros _ a Ha. rewrite Hs by (apply Nat.ltb_lt in Et; lia). apply V; [now apply Nat.ltb_lt|exact Ha].
  - split; [apply V|]. intros Ht. apply Nat.ltb_ge in Et. lia.
Qed.
End Own.

(** Addresses of the output are either written by one thread or updated with one atomic
    operation. *)
Definition tidy (kind : nat -> option aop) (holds : nat -> nat * nat -> Prop) (gt : nat * nat) (i : instr) : Prop :=
  match i with IOut a _ => kind a = None /\ holds a gt | IAtom o a _ => kind a = Some o | _ => True end.
Lemma tidy_compat : forall kind (holds : nat -> nat * nat -> Prop) gt gt' c c', (forall a, holds a gt -> holds a gt' -> False) -> Forall (tidy kind holds gt) c -> Forall (tidy kind holds gt') c' -> compat c c'.
Proof.
  intros kind holds gt gt' c c' D H H' i j a Hi Hj Ti Tj. assert (A := proj1 (Forall_forall _ _) H i Hi). assert (A' := proj1 (Forall_forall _ _) H' j Hj).
  destruct i; try contradiction; destruct j; try contradiction; cbn in *; subst.
  - exfalso. eapply D; [apply A|apply A'].
  - exfalso. destruct A as [A _]. congruence.
  - exfalso. destruct A' as [A' _]. congruence.
  - assert (o = o0) by congruence. subst. eauto.
Qed.

Theorem lanes_settle : forall k (prog lprog : nat -> list gstep) (own : nat -> nat) W Rd kind (holds : nat -> nat * nat -> Prop) (T : nat -> list upd) rg sh out, 1 <= k_threads k ->
  (forall g t, g < k_groups k -> t < k_threads k -> k_code k g t = code_of (prog g) t) -> (forall g, g < k_groups k -> Forall (step_bounds k) (prog g)) ->
  disciplined k W Rd -> (forall g, g < k_groups k -> safe k W Rd (prog g)) ->
  (forall g, g < k_groups k -> refines (k_in k) (k_threads k) own (prog g) (lprog g)) ->
  (forall g t x, g < k_groups k -> t < k_threads k -> In x (prog g) -> match x with Seg p => Forall (tidy kind holds (g, t)) (p t) | _ => True end) ->
  (forall a gt gt', gt <> gt' -> holds a gt -> holds a gt' -> False) ->
  (forall g st, g < k_groups k -> snd (lane_prog (k_in k) (k_threads k) (lprog g) (st, [])) = T g) ->
  settles k (start k rg sh out) (fun o => o = upds (flat_map T (seq 0 (k_groups k))) out).
Proof.
  intros k prog lprog own W Rd kind holds T rg sh out Ht E B Di Sa C Ti D Tr.
  apply (program_settles k prog (fun n o => o = upds (flat_map T (seq 0 n)) out) _ rg sh out W Rd); auto.
  - intros g t g' t' Hg H Hg' H' Ne. rewrite !E by auto. apply (tidy_compat kind holds (g, t) (g', t')); [intros a; apply D; auto| |].
    + apply Forall_forall. intros i Hi. apply in_flat_map in Hi. destruct Hi as (x & Hx & Hi). destruct x as [p|f|who f]; cbn [code1] in Hi; [|destruct Hi as [<-|[]]; exact I|destruct (who _); [destruct Hi as [<-|[]]; exact I|destruct Hi]].
      exact (proj1 (Forall_forall _ _) (Ti g t (Seg p) Hg H Hx) i Hi).
    + apply Forall_forall. intros i Hi. apply in_flat_map in Hi. destruct Hi as (x & Hx & Hi). destruct x as [p|f|who f]; cbn [code1] in Hi; [|destruct Hi as [<-|[]]; exact I|destruct (who _); [destruct Hi as [<-|[]]; exact I|destruct Hi]].
      exact (proj1 (Forall_forall _ _) (Ti g' t' (Seg p) Hg' H' Hx) i Hi).
  - intros g rg' sh' out' Hg ->. rewrite seq_S, flat_map_app, upds_app. cbn [flat_map plus]. rewrite app_nil_r.
    assert (Q := C g Hg rg' sh' (upds (flat_map T (seq 0 g)) out) (fun t => (rg' t, sh'))).
    destruct (run_prog _ _ _ _) as [[r2 s2] o2]. destruct Q as [_ Q]; [intros t; split; [reflexivity|auto]|]. cbn [snd]. rewrite Q. now rewrite Tr.
Qed.

(** ** The updates of a launch *)
Lemma upds_out : forall tr out a, (forall u, In u tr -> fst (fst u) <> a) -> upds tr out a = out a.
Proof.
  induction tr as [|[[b o] v] tr IH]; intros out a H; [reflexivity|]. cbn [upds fold_left]. change (upds tr (upd1 out (b, o, v)) a = out a). rewrite IH by (intros u Hu; apply H; now right). cbn. apply put_ne. intros ->. apply (H (b, o, v)); [now left|reflexivity].
Qed.
Lemma upds_set : forall (F : nat -> R) a tr out, (forall u, In u tr -> fst (fst u) = a -> u = (a, USet, F a)) -> (exists u, In u tr /\ fst (fst u) = a) -> upds tr out a = F a.
Proof.
  intros F a. induction tr as [|u tr IH]; intros out H (u0 & Hu & Ea); [destruct Hu|].
  change (upds tr (upd1 out u) a = F a).
  destruct (in_dec Nat.eq_dec a (map (fun u => fst (fst u)) tr)) as [Hi|Hi].
  - apply in_map_iff in Hi. destruct Hi as (u1 & E1 & H1). apply IH; [intros; apply H; [now right|auto]|eauto].
  - rewrite upds_out by (intros u2 H2 E2; apply Hi; apply in_map_iff; eauto). destruct Hu as [<-|Hu]; [|exfalso; apply Hi; apply in_map_iff; eauto].
    rewrite (H u (or_introl eq_refl) Ea). cbn. apply put_eq.
Qed.
Lemma upds_add : forall a tr out, (forall u, In u tr -> fst (fst u) = a -> snd (fst u) = UAtom AAdd) ->
  upds tr out a = (out a + rlsum (fun u => if (fst (fst u) =? a)%nat then snd u else 0) tr)%R.
Proof.
  intros a. induction tr as [|[[b o] v] tr IH]; intros out H; [cbn; unfold rlsum; cbn; ring|].
  change (upds tr (upd1 out (b, o, v)) a = (out a + rlsum (fun u => if (fst (fst u) =? a)%nat then snd u else 0) ((b, o, v) :: tr))%R).
  rewrite IH by (intros; apply H; [now right|auto]). unfold rlsum. cbn [lsum_ fold_right fst snd upd1]. specialize (H (b, o, v) (or_introl eq_refl)). cbn [fst snd] in H. destruct (Nat.eqb_spec b a) as [->|Ne].
  - rewrite put_eq, H by auto. cbn [aop_fun]. fold (@lsum_ R (nat * uop * R) 0%R Rplus (fun u => if (fst (fst u) =? a)%nat then snd u else 0%R) tr). ring.
  - rewrite put_ne by auto. ring.
Qed.
Lemma upds_max : forall a tr out, (forall u, In u tr -> fst (fst u) = a -> snd (fst u) = UAtom AMax) ->
  upds tr out a = fold_left Rmax (map snd (filter (fun u => fst (fst u) =? a) tr)) (out a).
Proof.
  intros a. induction tr as [|[[b o] v] tr IH]; intros out H; [reflexivity|].
  change (upds tr (upd1 out (b, o, v)) a = fold_left Rmax (map snd (filter (fun u => fst (fst u) =? a) ((b, o, v) :: tr))) (out a)).
  rewrite IH by (intros; apply H; [now right|auto]). cbn [filter fst snd upd1]. specialize (H (b, o, v) (or_introl eq_refl)). cbn [fst snd] in H. destruct (Nat.eqb_spec b a) as [->|Ne].
  - rewrite put_eq, H by auto. reflexivity.
  - rewrite put_ne by auto. reflexivity.
Qed.
