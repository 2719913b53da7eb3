(** Kernels that read arrays they also write, with synchronisation: when every read of an
    output address is separated from its writes by program order, by a barrier of the group or
    by an exchange of the warp, reads see the output as it was before the launch, whatever the
    order in which threads run. *)
From Coq Require Import List Arith Lia Bool Reals Lra.
From Verif Require Import TensorModel TensorProofs GpuModel GpuSpec GpuProofs GpuRwModel GpuRwSpec.
Import ListNotations.
Local Open Scope nat_scope.

Definition writes (i : instr) (a : nat) : Prop := match i with IOut b _ | IAtom _ b _ => b = a | _ => False end.
Definition is_sync (i : instr) : bool := match i with ISync _ => true | _ => false end.
Definition is_shfl (i : instr) : bool := match i with IShfl _ => true | _ => false end.
Definition syncs (p : list instr) : nat := length (filter is_sync p).
Definition shfls (p : list instr) : nat := length (filter is_shfl p).
Definition sync_first (base : nat) (k : kernel) : Prop := forall g t p i c g' t' p' r c' a, g < k_groups k -> t < k_threads k -> g' < k_groups k -> t' < k_threads k ->
  k_code k g t = p ++ i :: c -> writes i a -> k_code k g' t' = p' ++ IGet r (base + a) :: c' ->
  g = g' /\ (t = t' /\ length p' < length p \/ syncs p' < syncs p \/ t / warp_size = t' / warp_size /\ shfls p' < shfls p).

Lemma syncs_app : forall a b, syncs (a ++ b) = syncs a + syncs b.
Proof. intros. unfold syncs. now rewrite filter_app, app_length. Qed.
Lemma shfls_app : forall a b, shfls (a ++ b) = shfls a + shfls b.
Proof. intros. unfold shfls. now rewrite filter_app, app_length. Qed.

Section Sync.
Variables (base : nat) (k : kernel) (out0 : nat -> R).
Notation G := (k_groups k).
Notation nT := (k_threads k).
Hypothesis SF : sync_first base k.

(** [h]: what every thread has executed *)
Record ran (h : nat -> nat -> list instr) (s : state) : Prop := mkRan {
  rn_code : forall g t, g < G -> t < nT -> k_code k g t = h g t ++ s_code s g t;
  rn_sync : forall g t t', g < G -> t < nT -> t' < nT -> syncs (h g t) = syncs (h g t');
  rn_shfl : forall g t t', g < G -> t < nT -> t' < nT -> t / warp_size = t' / warp_size -> shfls (h g t) = shfls (h g t');
  rn_kept : forall a, s_out s a = out0 a \/ exists g t p i c, g < G /\ t < nT /\ writes i a /\ h g t = p ++ i :: c }.

Lemma same_success : forall o o' l s, exec (alias base k o) l s = None -> exec (alias base k o') l s = None.
Proof.
  intros o o' [g t|g|g w] s; unfold exec; cbn [alias k_groups k_threads]; auto.
  destruct (guard _); [|auto]. destruct (s_code s g t) as [|i c]; [auto|]. replace (in_bounds (alias base k o') i) with (in_bounds (alias base k o) i) by (destruct i; reflexivity). destruct (guard _); [discriminate|auto].
Qed.
Lemma sync_step : forall l s s' h, ran h s -> rexec base k l s = Some s' -> exec (alias base k out0) l s = Some s' /\ exists h', ran h' s'.
Proof using SF.
  intros l s s' h RN H. destruct RN as [Rc Rs Rf Rk]. unfold rexec in H. destruct l as [g t|g|g w].
  - apply exec_thread in H. cbn [alias k_groups k_threads k_in] in H. destruct H as (Hg & Ht & i & c & E & B & ->). split.
    + rewrite (exec_thread_intro (alias base k out0) g t s i c) by auto. f_equal. f_equal. f_equal. f_equal. destruct i as [r a| | | | | | | |]; try reflexivity. cbn [reg_of alias k_in].
      destruct (Nat.ltb_spec a base) as [L|L]; [reflexivity|]. f_equal. destruct (Rk (a - base)) as [Q|(gw & tw & p & iw & cw & Hgw & Htw & Wr & Ew)]; [now symmetry|]. exfalso.
      assert (Er := Rc g t Hg Ht). rewrite E in Er. replace a with (base + (a - base)) in Er by lia.
      assert (Ek := Rc gw tw Hgw Htw). rewrite Ew, <- app_assoc in Ek. cbn [app] in Ek.
      destruct (SF gw tw p iw _ g t (h g t) r c (a - base) Hgw Htw Hg Ht Ek Wr Er) as (-> & [[-> Q]|[Q|[W Q]]]).
      * rewrite Ew, app_length in Q. cbn [length] in Q. lia.
      * rewrite (Rs g t tw Hg Ht Htw), Ew, syncs_app in Q. lia.
      * rewrite (Rf g t tw Hg Ht Htw (eq_sym W)), Ew, shfls_app in Q. lia.
    + assert (Ni : is_sync i = false /\ is_shfl i = false) by (destruct i; cbn in B; try discriminate B; auto). destruct Ni as [N1 N2].
      assert (Z1 : syncs [i] = 0) by (unfold syncs; cbn; now rewrite N1). assert (Z2 : shfls [i] = 0) by (unfold shfls; cbn; now rewrite N2).
      exists (put g (put t (h g t ++ [i]) (h g)) h).
      assert (S1 : forall g' t', syncs (put g (put t (h g t ++ [i]) (h g)) h g' t') = syncs (h g' t')). { intros g' t'. unfold put. destruct (Nat.eqb_spec g' g) as [->|]; [|auto]. destruct (Nat.eqb_spec t' t) as [->|]; [|auto]. rewrite syncs_app. lia. }
      assert (S2 : forall g' t', shfls (put g (put t (h g t ++ [i]) (h g)) h g' t') = shfls (h g' t')). { intros g' t'. unfold put. destruct (Nat.eqb_spec g' g) as [->|]; [|auto]. destruct (Nat.eqb_spec t' t) as [->|]; [|auto]. rewrite shfls_app. lia. }
      split.
      * intros g' t' Hg' Ht'. cbn [s_code]. unfold put. destruct (Nat.eqb_spec g' g) as [->|]; [|auto]. destruct (Nat.eqb_spec t' t) as [->|]; [|auto]. rewrite (Rc g t Hg Ht), E, <- app_assoc. reflexivity.
      * intros. rewrite !S1. auto.
      * intros. rewrite !S2. auto.
      * intros a. cbn [s_out].
        assert (Old : s_out s a = out0 a \/ exists g0 t0 p i0 c0, g0 < G /\ t0 < nT /\ writes i0 a /\ put g (put t (h g t ++ [i]) (h g)) h g0 t0 = p ++ i0 :: c0).
        { destruct (Rk a) as [Q|(gw & tw & p & iw & cw & Hgw & Htw & Wr & Ew)]; [now left|]. right. exists gw, tw, p, iw. unfold put. destruct (Nat.eqb_spec gw g) as [->|]; [|exists cw; auto]. destruct (Nat.eqb_spec tw t) as [->|]; [|exists cw; auto].
          exists (cw ++ [i]). repeat (split; [now auto|]). rewrite Ew, <- app_assoc. reflexivity. }
        assert (New : forall b, writes i b -> exists g0 t0 p i0 c0, g0 < G /\ t0 < nT /\ writes i0 b /\ put g (put t (h g t ++ [i]) (h g)) h g0 t0 = p ++ i0 :: c0).
        { intros b Wb. exists g, t, (h g t), i, []. repeat (split; [now auto|]). now rewrite !put_eq. }
        destruct i as [| | | |b f|o b f| | |]; try exact Old; cbn [out_of writes] in *; (destruct (Nat.eq_dec a b) as [->|N]; [right; now apply New|rewrite put_ne by auto; exact Old]).
  - split; [exact H|]. apply exec_sync in H. cbn [alias k_groups k_threads k_in] in H. destruct H as (Hg & Ht & Hs & ->).
    exists (put g (fun t => h g t ++ firstn 1 (s_code s g t)) h).
    assert (One : forall t, t < nT -> exists f c, s_code s g t = ISync f :: c) by (intros t Lt; apply Hs; lia).
    split.
    + intros g' t' Hg' Ht'. cbn [s_code]. unfold put. destruct (Nat.eqb_spec g' g) as [->|]; [|auto]. rewrite (proj2 (Nat.ltb_lt _ _) Ht'), <- app_assoc. destruct (One t' Ht') as (f & c & E). rewrite E. cbn. rewrite <- E. auto.
    + intros g' t1 t2 Hg' H1 H2. unfold put. destruct (Nat.eqb_spec g' g) as [->|]; [|auto]. destruct (One t1 H1) as (f1 & c1 & E1), (One t2 H2) as (f2 & c2 & E2). rewrite !syncs_app, E1, E2. cbn [firstn]. unfold syncs at 2 4. cbn. rewrite (Rs g t1 t2 Hg' H1 H2). reflexivity.
    + intros g' t1 t2 Hg' H1 H2 W. unfold put. destruct (Nat.eqb_spec g' g) as [->|]; [|auto]. destruct (One t1 H1) as (f1 & c1 & E1), (One t2 H2) as (f2 & c2 & E2). rewrite !shfls_app, E1, E2. cbn [firstn]. unfold shfls at 2 4. cbn. rewrite (Rf g t1 t2 Hg' H1 H2 W). reflexivity.
    + intros a. cbn [s_out]. destruct (Rk a) as [Q|(gw & tw & p & iw & cw & Hgw & Htw & Wr & Ew)]; [now left|]. right. exists gw, tw, p, iw. unfold put. destruct (Nat.eqb_spec gw g) as [->|]; [|exists cw; auto]. eexists. repeat (split; [now auto|]). rewrite Ew, <- app_assoc. reflexivity.
  - split; [exact H|]. apply exec_shfl in H. cbn [alias k_groups k_threads k_in] in H. destruct H as (Hg & Ht & Hs & ->).
    exists (put g (fun t => if in_warp k w t then h g t ++ firstn 1 (s_code s g t) else h g t) h).
    assert (One : forall t, in_warp k w t = true -> exists f c, s_code s g t = IShfl f :: c) by (intros t Lt; apply Hs; exact Lt).
    split.
    + intros g' t' Hg' Ht'. unfold shfl_state. cbn [s_code]. unfold put. destruct (Nat.eqb_spec g' g) as [->|]; [|auto]. change (in_warp (alias base k (s_out s)) w t') with (in_warp k w t'). destruct (in_warp k w t') eqn:Iw; [|auto].
      rewrite <- app_assoc. destruct (One t' Iw) as (f & c & E). rewrite E. cbn. rewrite <- E. auto.
    + intros g' t1 t2 Hg' H1 H2. unfold put. destruct (Nat.eqb_spec g' g) as [->|]; [|auto].
      assert (Q : forall t, syncs (if in_warp k w t then h g t ++ firstn 1 (s_code s g t) else h g t) = syncs (h g t)). { intros t. destruct (in_warp k w t) eqn:Iw; [|auto]. destruct (One t Iw) as (f & c & E). rewrite E, syncs_app. cbn. lia. }
      rewrite !Q. auto.
    + intros g' t1 t2 Hg' H1 H2 W. unfold put. destruct (Nat.eqb_spec g' g) as [->|]; [|auto].
      assert (Q : in_warp k w t1 = in_warp k w t2) by (unfold in_warp; rewrite W, !(proj2 (Nat.ltb_lt _ _)); auto). rewrite Q. destruct (in_warp k w t2) eqn:Iw; [|auto].
      destruct (One t1 Q) as (f1 & c1 & E1), (One t2 Iw) as (f2 & c2 & E2). rewrite !shfls_app, E1, E2. cbn [firstn]. unfold shfls at 2 4. cbn. rewrite (Rf g t1 t2 Hg' H1 H2 W). reflexivity.
    + intros a. unfold shfl_state. cbn [s_out]. destruct (Rk a) as [Q|(gw & tw & p & iw & cw & Hgw & Htw & Wr & Ew)]; [now left|]. right. exists gw, tw, p, iw. unfold put. destruct (Nat.eqb_spec gw g) as [->|]; [|exists cw; auto].
      destruct (in_warp k w tw); [|exists cw; auto]. eexists. repeat (split; [now auto|]). rewrite Ew, <- app_assoc. reflexivity.
Qed.
Lemma sync_path : forall ws n s u h, ran h s -> lpath ws base k n s u -> path (alias base k out0) n s u.
Proof using SF.
  intros ws. induction n as [|n IH]; intros s u h RN P; inversion P; subst; [constructor|]. destruct (sync_step _ _ _ h RN H1) as [A [h' R']]. econstructor; [exact A|]. eapply IH; eauto.
Qed.
End Sync.

Theorem sync_settles : forall base k rg sh out P, sync_first base k -> settles (alias base k out) (start k rg sh out) P -> lsettles 1 base k (start k rg sh out) P.
Proof.
  intros base k rg sh out P SF [n S]. exists n. intros j u Pu.
  assert (R0 : ran k out (fun _ _ => []) (start k rg sh out)). { split; auto. }
  assert (Pa := sync_path base k out SF 1 j _ u _ R0 Pu). destruct (S j u Pa) as [Lj Q]. split; [exact Lj|]. intros St.
  apply Q. intros l. apply (same_success base k (s_out u)). apply (St l). destruct l as [g t|g|g w]; cbn [in_step]; auto. intros t' _ Et. rewrite !Nat.div_1_r in Et. subst. right. lia.
Qed.
