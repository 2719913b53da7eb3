(** When every read of an output address comes before its write in the program order of
    threads that proceed together, reads see the output as it was before the launch. *)
From Coq Require Import List Arith Lia Bool Reals Lra FunctionalExtensionality.
From Verif Require Import TensorModel TensorProofs GpuModel GpuSpec GpuProofs GpuRwModel GpuRwSpec.
Import ListNotations.
Local Open Scope nat_scope.

(** loads, arithmetic and stores to the output *)
Definition plain (i : instr) : Prop := match i with IGet _ _ | ISet _ _ | IOut _ _ => True | _ => False end.
Definition plain_in (k : kernel) (i : instr) : Prop := plain i /\ in_bounds k i = true.
Definition all_plain (k : kernel) : Prop := forall g t, g < k_groups k -> t < k_threads k -> Forall (plain_in k) (k_code k g t).
Definition reads_first (ws base : nat) (k : kernel) : Prop := forall g t p a f c g' t' p' r c', g < k_groups k -> t < k_threads k -> g' < k_groups k -> t' < k_threads k ->
  k_code k g t = p ++ IOut a f :: c -> k_code k g' t' = p' ++ IGet r (base + a) :: c' -> g = g' /\ t / ws = t' / ws /\ length p' < length p.

Section Rw.
Variables (ws base : nat) (k : kernel).
Notation G := (k_groups k).
Notation nT := (k_threads k).
Hypothesis PL : all_plain k.

Definition follows (s : state) : Prop := forall g t, g < G -> t < nT -> exists p, k_code k g t = p ++ s_code s g t.
Lemma follows_done : forall s g t p, follows s -> k_code k g t = p ++ s_code s g t -> done k s g t = length p.
Proof. intros s g t p _ E. unfold done. rewrite E, app_length. lia. Qed.

(** ** Progress *)
Lemma follows_plain : forall s g t, follows s -> g < G -> t < nT -> Forall (plain_in k) (s_code s g t).
Proof using PL. intros s g t F Hg Ht. destruct (F g t Hg Ht) as [p E]. assert (A := PL g t Hg Ht). rewrite E in A. now apply Forall_app in A. Qed.
Lemma behind_dec : forall s g t m, (exists t', t' < m /\ t' / ws = t / ws /\ s_code s g t' <> [] /\ done k s g t' < done k s g t) \/
  (forall t', t' < m -> t' / ws = t / ws -> s_code s g t' = [] \/ done k s g t <= done k s g t').
Proof.
  intros s g t. induction m as [|m IH]; [right; intros; lia|]. destruct IH as [(t' & A & B)|H]; [left; exists t'; split; [lia|exact B]|].
  destruct (Nat.eq_dec (m / ws) (t / ws)) as [E|E]; [|right; intros t' Ht' E'; destruct (Nat.eq_dec t' m); [subst; contradiction|apply H; auto; lia]].
  destruct (s_code s g m) as [|i c] eqn:Ec; [right; intros t' Ht' E'; destruct (Nat.eq_dec t' m); [subst; now left|apply H; auto; lia]|].
  destruct (Nat.lt_ge_cases (done k s g m) (done k s g t)) as [L|L].
  - left. exists m. repeat split; auto. rewrite Ec. discriminate.
  - right. intros t' Ht' E'. destruct (Nat.eq_dec t' m); [subst; now right|apply H; auto; lia].
Qed.
Lemma pick : forall s g d t, t < nT -> s_code s g t <> [] -> done k s g t <= d -> exists t', t' < nT /\ s_code s g t' <> [] /\ in_step ws k s (LThread g t').
Proof.
  intros s g. induction d as [|d IH]; intros t Ht E D.
  - exists t. repeat split; auto. intros t' _ _. right. lia.
  - destruct (behind_dec s g t nT) as [(t' & A & B & C & L)|H]; [apply (IH t' A C); lia|]. exists t. auto.
Qed.
Lemma unfinished_dec : forall s, finished k s \/ exists g t, g < G /\ t < nT /\ s_code s g t <> [].
Proof.
  intros s. assert (Q : forall n, (forall g t, g < n -> t < nT -> s_code s g t = []) \/ exists g t, g < n /\ t < nT /\ s_code s g t <> []).
  { induction n as [|n IH]; [left; intros; lia|]. destruct IH as [H|(g & t & A & B)]; [|right; exists g, t; split; [lia|exact B]].
    assert (Q : forall m, (forall t, t < m -> s_code s n t = []) \/ exists t, t < m /\ s_code s n t <> []).
    { induction m as [|m IH]; [left; intros; lia|]. destruct IH as [H'|(t & A & B)]; [|right; exists t; split; [lia|exact B]]. destruct (s_code s n m) eqn:E; [left|right; exists m; split; [lia|rewrite E; discriminate]].
      intros t Ht. destruct (Nat.eq_dec t m); [now subst|apply H'; lia]. }
    destruct (Q nT) as [H'|(t & A & B)]; [|right; exists n, t; split; [lia|split; auto]]. left. intros g t Hg Ht. destruct (Nat.eq_dec g n); [subst; auto|apply H; auto; lia]. }
  exact (Q G).
Qed.
Lemma progress : forall s, follows s -> ~ finished k s -> exists l s', in_step ws k s l /\ rexec base k l s = Some s'.
Proof using PL.
  intros s F NF. destruct (unfinished_dec s) as [H|(g & t & Hg & Ht & E)]; [contradiction|]. destruct (pick s g _ t Ht E (le_n _)) as (t' & Ht' & E' & I).
  assert (A := follows_plain s g t' F Hg Ht'). destruct (s_code s g t') as [|i c] eqn:Ec; [congruence|]. inversion A as [|? ? [_ B] _]; subst.
  eexists. eexists. split; [exact I|]. unfold rexec. apply (exec_thread_intro (alias base k (s_out s)) g t' s i c); auto.
Qed.

(** ** The invariant *)
Variable out0 : nat -> R.
Hypothesis RF : reads_first ws base k.
Definition kept (s : state) : Prop := forall a, s_out s a = out0 a \/ exists g t p f c, g < G /\ t < nT /\ k_code k g t = p ++ IOut a f :: c /\
  forall t', t' < nT -> t' / ws = t / ws -> s_code s g t' = [] \/ length p <= done k s g t'.
Lemma follows_step : forall kk l s s', k_groups kk = G -> k_threads kk = nT -> follows s -> exec kk l s = Some s' -> exists g t i c, l = LThread g t /\ g < G /\ t < nT /\ s_code s g t = i :: c /\ plain_in k i /\ follows s' /\
  (forall g' t', g' < G -> t' < nT -> s_code s g' t' = [] -> s_code s' g' t' = []) /\ (forall g' t', g' < G -> t' < nT -> done k s g' t' <= done k s' g' t').
Proof using PL.
  intros kk l s s' EG ET F H. destruct l as [g t|g|g w].
  - apply exec_thread in H. rewrite EG, ET in H. destruct H as (Hg & Ht & i & c & E & B & ->). exists g, t, i, c. repeat (split; [now auto|]).
    assert (A := follows_plain s g t F Hg Ht). rewrite E in A. inversion A; subst. split; [auto|]. split; [|split].
    + intros g' t' Hg' Ht'. cbn [s_code]. destruct (F g' t' Hg' Ht') as [p Ep]. destruct (Nat.eq_dec g' g) as [->|N]; [|rewrite put_ne by auto; eauto]. rewrite put_eq. destruct (Nat.eq_dec t' t) as [->|N]; [|rewrite put_ne by auto; eauto].
      rewrite put_eq. exists (p ++ [i]). rewrite Ep, E, <- app_assoc. reflexivity.
    + intros g' t' Hg' Ht' Q. cbn [s_code]. destruct (Nat.eq_dec g' g) as [->|N]; [|rewrite put_ne by auto; auto]. rewrite put_eq. destruct (Nat.eq_dec t' t) as [->|N]; [congruence|rewrite put_ne by auto; auto].
    + intros g' t' Hg' Ht'. unfold done. cbn [s_code]. destruct (Nat.eq_dec g' g) as [->|N]; [|rewrite put_ne by auto; auto]. rewrite put_eq. destruct (Nat.eq_dec t' t) as [->|N]; [|rewrite put_ne by auto; auto]. rewrite put_eq, E. cbn [length]. lia.
  - exfalso. apply exec_sync in H. rewrite EG, ET in H. destruct H as (Hg & Ht & Hs & _). destruct (Hs 0 ltac:(lia)) as (f & c & E). assert (A := follows_plain s g 0 F Hg ltac:(lia)). rewrite E in A. inversion A as [|? ? Q0 _]; subst. destruct Q0 as [[] _].
  - exfalso. apply exec_shfl in H. rewrite EG, ET in H. destruct H as (Hg & Hw & Hs & _). assert (Q := warp_start kk w ltac:(lia)). destruct (Hs _ Q) as (f & c & E). assert (A := follows_plain s g (w * warp_size) F Hg ltac:(lia)). rewrite E in A. inversion A as [|? ? Q0 _]; subst. destruct Q0 as [[] _].
Qed.
Lemma snapshot_step : forall l s s', follows s -> kept s -> in_step ws k s l -> rexec base k l s = Some s' -> exec (alias base k out0) l s = Some s' /\ follows s' /\ kept s'.
Proof using PL RF.
  intros l s s' F K I H. destruct (follows_step (alias base k (s_out s)) l s s' eq_refl eq_refl F H) as (g & t & i & c & -> & Hg & Ht & E & [Pi Bi] & F' & C0 & C1).
  assert (H0 := H). apply exec_thread in H0. destruct H0 as (_ & _ & i' & c' & E' & B' & ->). rewrite E in E'. injection E' as <- <-. split; [|split; [exact F'|]].
  - rewrite (exec_thread_intro (alias base k out0) g t s i c) by auto. f_equal. f_equal. f_equal. f_equal. destruct i as [r a| | | | | | | |]; try contradiction Pi; auto. cbn [reg_of alias k_in].
    destruct (Nat.ltb_spec a base) as [L|L]; [reflexivity|]. f_equal. destruct (K (a - base)) as [Q|(gw & tw & p & f & cw & Hgw & Htw & Ew & St)]; [now symmetry|]. exfalso.
    destruct (F g t Hg Ht) as [p' Ep]. rewrite E in Ep. replace a with (base + (a - base)) in Ep by lia. destruct (RF gw tw p (a - base) f cw g t p' r c Hgw Htw Hg Ht Ew Ep) as (-> & Ews & Lp).
    destruct (St t Ht (eq_sym Ews)) as [Q|Q]; [congruence|]. unfold done in Q. rewrite Ep, E, app_length in Q. cbn [length] in Q. lia.
  - intros a. cbn [s_out]. assert (Old : s_out s a = out0 a \/ exists gw tw p f cw, gw < G /\ tw < nT /\ k_code k gw tw = p ++ IOut a f :: cw /\
        forall t', t' < nT -> t' / ws = tw / ws -> s_code (mkSt (put g (put t c (s_code s g)) (s_code s)) (put g (put t (reg_of (k_in (alias base k (s_out s))) i (s_reg s g t) (s_sh s g)) (s_reg s g)) (s_reg s)) (put g (sh_of i (s_reg s g t) (s_sh s g)) (s_sh s)) (out_of i (s_reg s g t) (s_out s))) gw t' = [] \/
          length p <= done k (mkSt (put g (put t c (s_code s g)) (s_code s)) (put g (put t (reg_of (k_in (alias base k (s_out s))) i (s_reg s g t) (s_sh s g)) (s_reg s g)) (s_reg s)) (put g (sh_of i (s_reg s g t) (s_sh s g)) (s_sh s)) (out_of i (s_reg s g t) (s_out s))) gw t').
    { destruct (K a) as [Q|(gw & tw & p & f & cw & Hgw & Htw & Ew & St)]; [now left|]. right. exists gw, tw, p, f, cw. repeat (split; [now auto|]). intros t' Ht' Et'. destruct (St t' Ht' Et') as [Q|Q]; [left; now apply C0|right].
      specialize (C1 gw t' Hgw Ht'). lia. }
    destruct i as [| | | |b f| | | |]; try contradiction Pi; try exact Old. cbn [out_of] in *. destruct (Nat.eq_dec a b) as [->|N]; [|rewrite put_ne by auto; exact Old]. right.
    destruct (F g t Hg Ht) as [p Ep]. rewrite E in Ep. exists g, t, p, f, c. repeat (split; [now auto|]). intros t' Ht' Et'. destruct (I t' Ht' Et') as [Q|Q]; [left; now apply C0|right].
    specialize (C1 g t' Hg Ht'). unfold done in Q at 1. rewrite Ep, E, app_length in Q. cbn [length] in Q. lia.
Qed.
Lemma snapshot_path : forall n s u, follows s -> kept s -> lpath ws base k n s u -> path (alias base k out0) n s u /\ follows u.
Proof using PL RF.
  induction n as [|n IH]; intros s u F K P; inversion P; subst; [split; [constructor|exact F]|].
  destruct (snapshot_step _ _ _ F K H0 H1) as (A & F' & K'). destruct (IH _ _ F' K' H2). split; [econstructor; eauto|auto].
Qed.
End Rw.

Lemma start_follows : forall k rg sh out, follows k (start k rg sh out).
Proof. intros k rg sh out g t _ _. now exists []. Qed.
Lemma start_kept : forall ws k rg sh out, kept ws k out (start k rg sh out).
Proof. intros ws k rg sh out a. now left. Qed.

Theorem snapshot_settles : forall ws base k rg sh out P, all_plain k -> reads_first ws base k -> settles (alias base k out) (start k rg sh out) P -> lsettles ws base k (start k rg sh out) P.
Proof.
  intros ws base k rg sh out P PL RF [n S]. exists n. intros j u Pu. destruct (snapshot_path ws base k PL out RF j _ u (start_follows _ _ _ _) (start_kept _ _ _ _ _) Pu) as [Pa F].
  destruct (S j u Pa) as [Lj Q]. split; [exact Lj|]. intros St.
  assert (Fin : finished k u). { destruct (unfinished_dec k u) as [H|H]; [exact H|]. exfalso. destruct (progress ws base k PL u F) as (l & s' & I & E); [|now rewrite (St l I) in E]. intros Fi. destruct H as (g & t & Hg & Ht & N). apply N. now apply Fi. }
  apply Q. intros l. destruct (exec (alias base k out) l u) as [s'|] eqn:E; [|reflexivity]. exfalso.
  destruct (follows_step k PL (alias base k out) l u s' eq_refl eq_refl F E) as (g & t & i & c & _ & Hg & Ht & Ec & _). rewrite (Fin g t Hg Ht) in Ec. discriminate.
Qed.
Lemma may_from : forall ws base k rg sh out P, all_plain k -> reads_first ws base k -> settles (alias base k out) (start k rg sh out) P -> may_end ws base k (start k rg sh out) P.
Proof.
  intros ws base k rg sh out P PL RF ST. destruct (snapshot_settles ws base k rg sh out P PL RF ST) as [n L].
  assert (Q : forall m j s, j + m = S n -> lpath ws base k j (start k rg sh out) s -> follows k s -> exists j' u, lpath ws base k j' (start k rg sh out) u /\ follows k u /\ finished k u).
  { induction m as [|m IH]; intros j s E Pj F; [destruct (L j s Pj); lia|]. destruct (unfinished_dec k s) as [H|H]; [eauto|].
    destruct (progress ws base k PL s F) as (l & s' & I & Es); [intros Fi; destruct H as (g & t & Hg & Ht & N); apply N; now apply Fi|].
    apply (IH (Datatypes.S j) s'); [lia| |].
    - clear - Pj I Es. revert Pj. generalize (start k rg sh out) at 1 2. induction j as [|j IHj]; intros s0 Pj; inversion Pj; subst; [econstructor; eauto; constructor|]. econstructor; eauto.
    - destruct (follows_step k PL (alias base k (s_out s)) l s s' eq_refl eq_refl F Es) as (g & t & i & c & _ & _ & _ & _ & _ & F' & _). exact F'. }
  destruct (Q (S n) 0 _ eq_refl (lpath_refl _ _ _ _) (start_follows _ _ _ _)) as (j & u & Pj & F & Fin). exists j, u. split; [exact Pj|]. apply (L j u Pj). intros l _. destruct (rexec base k l u) as [s'|] eqn:E; [|reflexivity]. exfalso.
  destruct (follows_step k PL (alias base k (s_out u)) l u s' eq_refl eq_refl F E) as (g & t & i & c & _ & Hg & Ht & Ec & _). rewrite (Fin g t Hg Ht) in Ec. discriminate.
Qed.

(** ** Some threads first, the others after them *)
Definition only (act : nat -> bool) (k : kernel) : kernel :=
  mkKernel (k_groups k) (k_threads k) (k_shared k) (k_insize k) (k_in k) (k_outsize k) (fun g t => if act t then k_code k g t else []).
Definition whole (act : nat -> bool) (ws : nat) : Prop := forall t t', t' / ws = t / ws -> act t' = act t.
Section Only.
Variables (ws base : nat) (k : kernel) (act : nat -> bool).
Hypothesis W : whole act ws.
Definition idle (s : state) : Prop := forall g t, g < k_groups k -> t < k_threads k -> act t = false -> s_code s g t = [].
Definition lift (s : state) : state := mkSt (fun g t => if act t then s_code s g t else k_code k g t) (s_reg s) (s_sh s) (s_out s).
Lemma idle_of : forall s, follows (only act k) s -> idle s.
Proof. intros s F g t Hg Ht A. destruct (F g t Hg Ht) as [p E]. cbn [only k_code] in E. rewrite A in E. symmetry in E. now apply app_eq_nil in E. Qed.
Lemma lift_path : all_plain k -> forall n s u, follows (only act k) s -> lpath ws base (only act k) n s u -> lpath ws base k n (lift s) (lift u) /\ follows (only act k) u.
Proof using W.
  intros PL. assert (PL' : all_plain (only act k)). { intros g t Hg Ht. cbn [only k_code]. destruct (act t); [apply (PL g t Hg Ht)|constructor]. }
  induction n as [|n IH]; intros s u F P; inversion P as [|? l ? s' ? H H0 H1]; subst; [split; [constructor|auto]|].
  destruct (follows_step (only act k) PL' (alias base (only act k) (s_out s)) l s s' eq_refl eq_refl F H0) as (g & t & i & c & -> & Hg & Ht & E & _ & F' & _). cbn [only k_groups k_threads] in Hg, Ht.
  assert (A : act t = true). { destruct (act t) eqn:A; [auto|]. rewrite (idle_of s F g t Hg Ht A) in E. discriminate. }
  destruct (IH s' u F' H1) as [Q Fu]. split; [|exact Fu]. apply (lpath_step ws base k n (LThread g t) (lift s) (lift s')); [| |exact Q].
  - intros t' Ht' Et'. specialize (H t' Ht' Et'). unfold done in H. cbn [only k_code] in H. rewrite (W t t' Et'), A in H. unfold done. cbn [lift s_code]. rewrite (W t t' Et'), A. exact H.
  - apply exec_thread in H0. destruct H0 as (_ & _ & i' & c' & E' & B & ->). unfold rexec. rewrite (exec_thread_intro (alias base k (s_out (lift s))) g t (lift s) i' c'); auto; [|cbn [lift s_code]; rewrite A; exact E'].
    unfold lift. cbn [s_code s_reg s_sh s_out alias k_in only]. f_equal. f_equal. apply functional_extensionality. intros g'. apply functional_extensionality. intros t'. unfold put.
    destruct (Nat.eqb_spec g' g) as [->|]; [|reflexivity]. destruct (Nat.eqb_spec t' t) as [->|]; [now rewrite A|reflexivity].
Qed.
Lemma rest_path : all_plain k -> forall n s u, follows (only act k) s -> lpath ws base (only act k) n s u -> lpath ws base k n s u.
Proof using W.
  intros PL. assert (PL' : all_plain (only act k)). { intros g t Hg Ht. cbn [only k_code]. destruct (act t); [apply (PL g t Hg Ht)|constructor]. }
  induction n as [|n IH]; intros s u F P; inversion P as [|? l ? s' ? H H0 H1]; subst; [constructor|].
  destruct (follows_step (only act k) PL' (alias base (only act k) (s_out s)) l s s' eq_refl eq_refl F H0) as (g & t & i & c & -> & Hg & Ht & E & _ & F' & _). cbn [only k_groups k_threads] in Hg, Ht.
  assert (A : act t = true). { destruct (act t) eqn:A; [auto|]. rewrite (idle_of s F g t Hg Ht A) in E. discriminate. }
  apply (lpath_step ws base k n (LThread g t) s s'); [| |now apply IH].
  - intros t' Ht' Et'. specialize (H t' Ht' Et'). unfold done in H. cbn [only k_code] in H. rewrite (W t t' Et'), A in H. exact H.
  - apply exec_thread in H0. destruct H0 as (_ & _ & i' & c' & E' & B & ->). unfold rexec. now rewrite (exec_thread_intro (alias base k (s_out s)) g t s i' c') by auto.
Qed.
End Only.
Lemma lpath_app : forall ws base k n s u, lpath ws base k n s u -> forall m v, lpath ws base k m u v -> lpath ws base k (n + m) s v.
Proof. intros ws base k n s u H. induction H; intros m v Q; [exact Q|]. cbn [plus]. econstructor; eauto. Qed.
(** codes of threads outside of the grid do not matter *)
Definition agree (k : kernel) (s s' : state) : Prop := (forall g t, g < k_groups k -> t < k_threads k -> s_code s' g t = s_code s g t) /\ s_reg s' = s_reg s /\ s_sh s' = s_sh s /\ s_out s' = s_out s.
Lemma agree_path : forall ws base k n s u, lpath ws base k n s u -> (forall g t, g < k_groups k -> t < k_threads k -> Forall plain (s_code s g t)) -> forall s', agree k s s' -> exists u', lpath ws base k n s' u' /\ agree k u u'.
Proof.
  intros ws base k n s u H. induction H as [s|n l s s1 u I E H IH]; intros PL s' A; [exists s'; split; [constructor|auto]|]. destruct A as (A1 & A2 & A3 & A4).
  destruct l as [g t|g|g w].
  - apply exec_thread in E. cbn [alias k_groups k_threads] in E. destruct E as (Hg & Ht & i & c & Ec & B & ->). cbn [alias k_in] in *.
    edestruct IH as (u' & P' & A').
    + intros g' t' Hg' Ht'. specialize (PL g' t' Hg' Ht'). cbn [s_code]. unfold put. destruct (Nat.eqb_spec g' g) as [->|]; [|exact PL]. destruct (Nat.eqb_spec t' t) as [->|]; [|exact PL]. rewrite Ec in PL. now inversion PL.
    + instantiate (1 := mkSt (put g (put t c (s_code s' g)) (s_code s')) (put g (put t (reg_of (k_in (alias base k (s_out s'))) i (s_reg s' g t) (s_sh s' g)) (s_reg s' g)) (s_reg s')) (put g (sh_of i (s_reg s' g t) (s_sh s' g)) (s_sh s')) (out_of i (s_reg s' g t) (s_out s'))).
      unfold agree. cbn [s_code s_reg s_sh s_out alias k_in]. rewrite A2, A3, A4. repeat split; auto. intros g' t' Hg' Ht'. unfold put. destruct (Nat.eqb_spec g' g) as [->|]; [|auto]. destruct (Nat.eqb_spec t' t) as [->|]; auto.
    + exists u'. split; [|exact A']. econstructor; [| |exact P'].
      * instantiate (1 := LThread g t). intros t' Ht' Et'. specialize (I t' Ht' Et'). unfold done in *. rewrite !A1 by auto. exact I.
      * unfold rexec. rewrite (exec_thread_intro (alias base k (s_out s')) g t s' i c); auto. now rewrite A1.
  - exfalso. apply exec_sync in E. cbn [alias k_groups k_threads] in E. destruct E as (Hg & Ht & Hs & _). destruct (Hs 0 ltac:(lia)) as (f & c & Ec). specialize (PL g 0 Hg ltac:(lia)). rewrite Ec in PL. inversion PL as [|? ? Q0 _]; subst. destruct Q0.
  - exfalso. apply exec_shfl in E. cbn [alias k_groups k_threads] in E. destruct E as (Hg & Hw & Hs & _). assert (Q := warp_start (alias base k (s_out s)) w Hw). destruct (Hs _ Q) as (f & c & Ec). specialize (PL g (w * warp_size) Hg Hw). rewrite Ec in PL. inversion PL as [|? ? Q0 _]; subst. destruct Q0.
Qed.
(** first the threads of [act], then the others, each part in lockstep *)
Theorem may_split : forall ws base k act rg sh out (P Q : (nat -> R) -> Prop), all_plain k -> whole act ws ->
  may_end ws base (only act k) (start (only act k) rg sh out) P ->
  (forall rg' sh' out', P out' -> may_end ws base (only (fun t => negb (act t)) k) (start (only (fun t => negb (act t)) k) rg' sh' out') Q) ->
  may_end ws base k (start k rg sh out) Q.
Proof.
  intros ws base k act rg sh out P Q PL W (n & u & Pn & Fin & Pu) H.
  assert (W' : whole (fun t => negb (act t)) ws) by (intros t t' E; now rewrite (W t t' E)).
  destruct (lift_path ws base k act W PL n _ u (start_follows _ _ _ _) Pn) as [L1 F1].
  destruct (H (s_reg u) (s_sh u) (s_out u) Pu) as (m & v & Pm & Finv & Qv).
  assert (E1 : lift k act (start (only act k) rg sh out) = start k rg sh out). { unfold lift, start. cbn [s_code s_reg s_sh s_out only k_code]. f_equal. apply functional_extensionality. intros g. apply functional_extensionality. intros t. now destruct (act t). }
  rewrite E1 in L1. apply (rest_path ws base k _ W' PL) in Pm; [|apply start_follows].
  destruct (agree_path ws base k _ _ _ Pm) with (s' := lift k act u) as (v' & Pv & Av).
  - intros g t Hg Ht. cbn [start s_code only k_code]. destruct (act t); cbn [negb]; [constructor|]. eapply Forall_impl; [|apply (PL g t Hg Ht)]. now intros i [? _].
  - split; [|repeat split]. intros g t Hg Ht. cbn [lift start s_code only k_code]. destruct (act t); cbn [negb]; [now apply Fin|reflexivity].
  - exists (n + m), v'. split; [eapply lpath_app; eauto|]. destruct Av as (A1 & A2 & A3 & A4). split; [intros g t Hg Ht; rewrite A1 by auto; now apply Finv|]. now rewrite A4.
Qed.
