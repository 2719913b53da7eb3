(** Kernels as in WarpKernelProofs whose groups divide the shared array each in its own way; and
    kernels that read their own output only before their first barrier and write it only after. *)
From Coq Require Import List Arith Lia Bool Reals Lra Permutation FunctionalExtensionality.
From Verif Require Import TensorModel TensorProofs BigSum GpuModel GpuSpec GpuProofs GpuProofs2 WarpProofs CudaWarpModel WarpSumProofs CudaFwdProofs CudaAttnModel CudaAttnProofs CudaAttnLaneProofs WarpKernelProofs GpuRwModel GpuRwSpec GpuRwSyncProofs.
Import ListNotations.
Local Open Scope nat_scope.
Notation upd := (nat * uop * R)%type (only parsing).

Theorem program_settles_g : forall k (prog : nat -> list gstep) (P : nat -> (nat -> R) -> Prop) (Q : (nat -> R) -> Prop) rg sh out (W Rd : nat -> nat -> nat -> Prop), 1 <= k_threads k ->
  (forall g t, g < k_groups k -> t < k_threads k -> k_code k g t = code_of (prog g) t) -> (forall g, g < k_groups k -> Forall (step_bounds k) (prog g)) ->
  (forall g, g < k_groups k -> disciplined k (W g) (Rd g)) -> (forall g, g < k_groups k -> safe k (W g) (Rd g) (prog g)) ->
  (forall g t g' t', g < k_groups k -> t < k_threads k -> g' < k_groups k -> t' < k_threads k -> (g, t) <> (g', t') -> compat (k_code k g t) (k_code k g' t')) ->
  P 0 out -> (forall g rg sh out, g < k_groups k -> P g out -> P (Datatypes.S g) (snd (run_prog (k_in k) (k_threads k) (prog g) (rg, sh, out)))) ->
  (forall o, P (k_groups k) o -> Q o) -> settles k (start k rg sh out) Q.
Proof.
  intros k prog P Q rg sh out W Rd Ht E B D Sa Co P0 PS HQ.
  destruct (groups_turn k prog P (start k rg sh out) Ht E B P0 PS) as (u & [n R] & F & Pu). eapply one_settles; eauto. split.
  - intros g t t' m Hg H1 H2 Ne. cbn [start s_code]. rewrite !E by auto. exact (safe_phase k (prog g) (W g) (Rd g) m t t' (D g Hg) (Sa g Hg) H1 H2 Ne).
  - intros. cbn [start s_code]. auto.
Qed.

Section Kernel.
Variables (k : kernel) (NW sc : nat) (own : nat -> nat -> nat) (pub : nat -> nat -> bool) (kind : nat -> option aop) (holds : nat -> nat * nat -> Prop).
Notation nT := (32 * NW).
Hypotheses (HNW : 1 <= NW <= 32) (Et : k_threads k = nT) (Hsh : 1 < NW -> sc + NW <= k_shared k).
Hypotheses (Hown : forall g a, sc <= a -> nT <= own g a) (Hpub : forall g a, pub g a = true -> own g a < nT).
Theorem fsteps_settle_g : forall (prog : nat -> list fstep) (T : nat -> list upd) rg sh out,
  (forall g t, g < k_groups k -> t < k_threads k -> k_code k g t = code_of (expand nT sc (prog g)) t) -> (forall g, g < k_groups k -> fgood k NW (own g) (pub g) kind holds g false (prog g)) ->
  (forall a gt gt', gt <> gt' -> holds a gt -> holds a gt' -> False) -> (forall g st, g < k_groups k -> ftrace (k_in k) nT (own g) (pub g) (prog g) st = T g) ->
  settles k (start k rg sh out) (fun o => o = upds (flat_map T (seq 0 (k_groups k))) out).
Proof using HNW Et Hsh Hown Hpub.
  intros prog T rg sh out E G D Tr. set (pr := fun g => expand nT sc (prog g)).
  apply (program_settles_g k pr (fun n o => o = upds (flat_map T (seq 0 n)) out) _ rg sh out (fun g => Wf sc (own g) (pub g) false) (fun g => vis (own g) (pub g) false)); auto.
  - lia.
  - intros g Hg. unfold pr. apply (fgood_bounds k NW sc (own g) (pub g) kind holds HNW Et Hsh (Hown g) (Hpub g) g _ false), G; exact Hg.
  - intros g Hg. apply (Wf_disciplined k NW sc (own g) (pub g) HNW Et Hsh (Hown g) (Hpub g)).
  - intros g Hg. unfold pr. apply (fgood_safe k NW sc (own g) (pub g) kind holds HNW Et Hsh (Hown g) (Hpub g) g), G; exact Hg.
  - intros g t g' t' Hg H Hg' H' Ne. rewrite !E by auto. rewrite Et in H, H'. apply (tidy_compat kind holds (g, t) (g', t')); [intros a; apply D; auto| |].
    + apply Forall_forall. intros i Hi. apply in_flat_map in Hi. destruct Hi as (x & Hx & Hi). assert (Q := fgood_tidy k NW sc (own g) (pub g) kind holds HNW Et Hsh (Hown g) (Hpub g) g (prog g) false t x (G g Hg) H Hx).
      destruct x as [p|f|who f]; cbn [code1] in Hi; [|destruct Hi as [<-|[]]; exact I|destruct (who _); [destruct Hi as [<-|[]]; exact I|destruct Hi]]. exact (proj1 (Forall_forall _ _) Q i Hi).
    + apply Forall_forall. intros i Hi. apply in_flat_map in Hi. destruct Hi as (x & Hx & Hi). assert (Q := fgood_tidy k NW sc (own g') (pub g') kind holds HNW Et Hsh (Hown g') (Hpub g') g' (prog g') false t' x (G g' Hg') H' Hx).
      destruct x as [p|f|who f]; cbn [code1] in Hi; [|destruct Hi as [<-|[]]; exact I|destruct (who _); [destruct Hi as [<-|[]]; exact I|destruct Hi]]. exact (proj1 (Forall_forall _ _) Q i Hi).
  - intros g rg' sh' out' Hg ->. rewrite seq_S, flat_map_app, upds_app. cbn [flat_map plus]. rewrite app_nil_r. unfold pr. rewrite Et.
    rewrite (fgood_run k NW sc (own g) (pub g) kind holds HNW Et Hsh (Hown g) (Hpub g) (k_in k) g (prog g) false rg' sh' _ (fun t => (rg' t, sh')) (G g Hg)); [now rewrite Tr|]. intros t. split; [reflexivity|auto].
Qed.
End Kernel.

(** ** Reads before, writes after a barrier *)
Lemma split_pos : forall X (a b p c : list X) i, a ++ b = p ++ i :: c -> (exists c1, a = p ++ i :: c1) \/ exists p1, p = a ++ p1 /\ b = p1 ++ i :: c.
Proof.
  intros X. induction a as [|x a IH]; intros b p c i E; cbn [app] in E.
  - right. exists p. auto.
  - destruct p as [|y p]; cbn [app] in E; injection E as -> E.
    + left. now exists a.
    + destruct (IH b p c i E) as [[c1 ->]|(p1 & -> & ->)]; [left; now exists c1|right; now exists p1].
Qed.
Lemma syncs_cons : forall i p, syncs (i :: p) = (if is_sync i then 1 else 0) + syncs p.
Proof. intros i p. unfold syncs. cbn [filter]. destruct (is_sync i); reflexivity. Qed.
Lemma syncs_none : forall p, (forall i, In i p -> is_sync i = false) -> syncs p = 0.
Proof. induction p as [|i p IH]; intros H; [reflexivity|]. rewrite syncs_cons, H by now left. apply IH. intros. apply H. now right. Qed.
Lemma sync_by_bar : forall base k (A : nat -> nat -> list instr) (B : nat -> nat -> list instr),
  (forall g t, g < k_groups k -> t < k_threads k -> exists f, k_code k g t = A g t ++ ISync f :: B g t \/ (A g t = [] /\ k_code k g t = [])) ->
  (forall g t i, g < k_groups k -> t < k_threads k -> In i (A g t) -> is_sync i = false /\ forall a, ~ writes i a) ->
  (forall g t r a, g < k_groups k -> t < k_threads k -> ~ In (IGet r (base + a)) (B g t)) ->
  (forall g t i g' t' r a, g < k_groups k -> t < k_threads k -> g' < k_groups k -> t' < k_threads k -> In i (B g t) -> writes i a -> In (IGet r (base + a)) (A g' t') -> g = g') -> sync_first base k.
Proof.
  intros base k A B HC HA HB HS g t p i c g' t' p' r c' a Hg Ht Hg' Ht' Ei Wi Er.
  destruct (HC g t Hg Ht) as [f [Ec|[_ Ec]]]; [|rewrite Ec in Ei; destruct p; discriminate]. destruct (HC g' t' Hg' Ht') as [f' [Ec'|[_ Ec']]]; [|rewrite Ec' in Er; destruct p'; discriminate].
  rewrite Ec in Ei. rewrite Ec' in Er. apply split_pos in Ei. apply split_pos in Er.
  destruct Ei as [[c1 Ei]|(p1 & -> & Ei)]. { exfalso. apply (proj2 (HA g t i Hg Ht ltac:(rewrite Ei; apply in_elt)) a Wi). }
  destruct p1 as [|j p1]; cbn [app] in Ei; injection Ei as Ej Ei; [rewrite <- Ej in Wi; destruct Wi|].
  destruct Er as [[c2 Er]|(p2 & -> & Er)].
  2:{ exfalso. destruct p2 as [|j2 p2]; cbn [app] in Er; injection Er as Ej2 Er; [discriminate|]. apply (HB g' t' r a Hg' Ht'). rewrite Er. apply in_elt. }
  split. { apply (HS g t i g' t' r a Hg Ht Hg' Ht'); [rewrite Ei; apply in_elt|exact Wi|rewrite Er; apply in_elt]. }
  right. left. rewrite (syncs_none p'). 2:{ intros j0 Hj. apply (HA g' t' j0 Hg' Ht'). rewrite Er, in_app_iff. now left. }
  rewrite syncs_app, syncs_cons, <- Ej. cbn [is_sync]. lia.
Qed.
