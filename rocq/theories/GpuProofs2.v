(** Group programs: what a group computes when its threads take turns, and sufficient
    conditions for race freedom. *)
From Coq Require Import List Arith Lia Bool Reals Lra FunctionalExtensionality.
From Verif Require Import TensorModel TensorProofs GpuModel GpuSpec GpuProofs.
Import ListNotations.
Local Open Scope nat_scope.

Notation tmem := ((nat -> R) * (nat -> R) * (nat -> R))%type (only parsing).
Notation gmem := ((nat -> nat -> R) * (nat -> R) * (nat -> R))%type (only parsing).
Definition run1 (inp : nat -> R) (m : tmem) (i : instr) : tmem := let '(rg, sh, out) := m in (reg_of inp i rg sh, sh_of i rg sh, out_of i rg out).
Definition run_instrs (inp : nat -> R) (p : list instr) (m : tmem) : tmem := fold_left (run1 inp) p m.
Definition turn1 (inp : nat -> R) (p : nat -> list instr) (m : gmem) (t : nat) : gmem :=
  let '(rg, sh, out) := m in let '(r, sh', out') := run_instrs inp (p t) (rg t, sh, out) in (put t r rg, sh', out').
Definition run_step (inp : nat -> R) (nT : nat) (m : gmem) (st : gstep) : gmem :=
  match st with
  | Seg p => fold_left (turn1 inp p) (seq 0 nT) m
  | Bar f => let '(rg, sh, out) := m in (fun t => if t <? nT then f t rg else rg t, sh, out)
  | Shf who f => let '(rg, sh, out) := m in (fun t => if (t <? nT) && who (t / warp_size) then f t (warp_regs nT (t / warp_size) rg) else rg t, sh, out)
  end.
Definition run_prog (inp : nat -> R) (nT : nat) (prog : list gstep) (m : gmem) : gmem := fold_left (run_step inp nT) prog m.

Definition mem_of (s : state) (g : nat) : gmem := (s_reg s g, s_sh s g, s_out s).
(** the state after group g has changed its code and memory *)
Definition with_group (s : state) (g : nat) (code : nat -> list instr) (m : gmem) : state :=
  let '(rg, sh, out) := m in mkSt (put g code (s_code s)) (put g rg (s_reg s)) (put g sh (s_sh s)) out.
Lemma with_group_id : forall s g, with_group s g (s_code s g) (mem_of s g) = s.
Proof. intros [] g. unfold with_group, mem_of. cbn. now rewrite !put_same. Qed.
Lemma with_group_twice : forall s g c m c' m', with_group (with_group s g c m) g c' m' = with_group s g c' m'.
Proof. intros s g c [[? ?] ?] c' [[? ?] ?]. unfold with_group. cbn. now rewrite !put_put. Qed.
Lemma with_group_code : forall s g c m, s_code (with_group s g c m) g = c.
Proof. intros s g c [[? ?] ?]. cbn. apply put_eq. Qed.
Lemma with_group_mem : forall s g c m, mem_of (with_group s g c m) g = m.
Proof. intros s g c [[? ?] ?]. unfold mem_of. cbn. now rewrite !put_eq. Qed.

Section Run.
Variable k : kernel.
Notation nT := (k_threads k).

Lemma thread_turn : forall g t p c s, g < k_groups k -> t < nT -> s_code s g t = p ++ c -> Forall (fun i => in_bounds k i = true) p ->
  reaches k s (with_group s g (put t c (s_code s g)) (let '(rg, sh, out) := mem_of s g in let '(r, sh', out') := run_instrs (k_in k) p (rg t, sh, out) in (put t r rg, sh', out'))).
Proof.
  intros g t. induction p as [|i p IH]; intros c s Hg Ht E B.
  - cbn in E. subst c. unfold run_instrs. cbn [fold_left mem_of]. rewrite !put_same. change (s_reg s g, s_sh s g, s_out s) with (mem_of s g). rewrite with_group_id. apply reaches_refl.
  - inversion B as [|? ? Bi Bp]; subst. eapply reaches_trans.
    + eapply reaches_step. apply (exec_thread_intro k g t s i (p ++ c)); auto.
    + eapply reaches_trans; [apply (IH c); auto; cbn [s_code]; now rewrite !put_eq|]. unfold mem_of. cbn [s_reg s_sh s_out s_code]. rewrite !put_eq.
      unfold run_instrs. cbn [fold_left run1]. destruct (fold_left _ p _) as [[r sh'] out']. unfold with_group. cbn [s_code s_reg s_sh]. rewrite !put_put. apply reaches_refl.
Qed.
Lemma seg_turns : forall g p c s, g < k_groups k -> (forall t, t < nT -> s_code s g t = p t ++ c t) -> (forall t, t < nT -> Forall (fun i => in_bounds k i = true) (p t)) ->
  reaches k s (with_group s g (fun t => if t <? nT then c t else s_code s g t) (run_step (k_in k) nT (mem_of s g) (Seg p))).
Proof.
  intros g p c s Hg E B. cbn [run_step].
  assert (Q : forall n, n <= nT -> reaches k s (with_group s g (fun t => if t <? n then c t else s_code s g t) (fold_left (turn1 (k_in k) p) (seq 0 n) (mem_of s g)))).
  { induction n as [|n IH]; intros Hn.
    - cbn [seq fold_left]. replace (fun t => if t <? 0 then c t else s_code s g t) with (s_code s g) by reflexivity. rewrite with_group_id. apply reaches_refl.
    - eapply reaches_trans; [apply IH; lia|]. rewrite seq_S, fold_left_app. cbn [fold_left]. set (m := fold_left _ (seq 0 n) _). cbn [plus].
      eapply reaches_trans; [apply (thread_turn g n (p n) (c n) _ Hg Hn); [|apply B; lia]|].
      { rewrite with_group_code. destruct (Nat.ltb_spec n n); [lia|]. apply E. lia. }
      rewrite with_group_code, with_group_mem, with_group_twice. unfold turn1. destruct m as [[rg sh] out]. destruct (run_instrs _ _ _) as [[r sh'] out'].
      replace (put n (c n) (fun t => if t <? n then c t else s_code s g t)) with (fun t => if t <? Datatypes.S n then c t else s_code s g t); [apply reaches_refl|].
      apply functional_extensionality. intros t. unfold put. destruct (Nat.eqb_spec t n); [subst; destruct (Nat.ltb_spec n (Datatypes.S n)); [reflexivity|lia]|].
      destruct (Nat.ltb_spec t n), (Nat.ltb_spec t (Datatypes.S n)); auto; lia. }
  apply Q. lia.
Qed.
Lemma bar_turn : forall g f c s, g < k_groups k -> 1 <= nT -> (forall t, t < nT -> s_code s g t = ISync (f t) :: c t) ->
  reaches k s (with_group s g (fun t => if t <? nT then c t else s_code s g t) (run_step (k_in k) nT (mem_of s g) (Bar f))).
Proof.
  intros g f c s Hg Ht E. eapply reaches_step. instantiate (1 := LSync g). rewrite exec_sync_intro; eauto. f_equal. unfold with_group, mem_of, run_step. f_equal.
  - f_equal. apply functional_extensionality. intros t. destruct (Nat.ltb_spec t nT); [|reflexivity]. now rewrite E.
  - f_equal. apply functional_extensionality. intros t. destruct (Nat.ltb_spec t nT); [|reflexivity]. now rewrite E.
  - now rewrite put_same.
Qed.
Lemma shf_turn : forall g who f c s, g < k_groups k -> (forall t, t < nT -> s_code s g t = code1 (Shf who f) t ++ c t) ->
  reaches k s (with_group s g (fun t => if t <? nT then c t else s_code s g t) (run_step (k_in k) nT (mem_of s g) (Shf who f))).
Proof.
  intros g who f c s Hg E.
  assert (Q : forall n, reaches k s (with_group s g (fun t => if (t <? nT) && (t / warp_size <? n) then c t else s_code s g t)
     (fun t => if (t <? nT) && (t / warp_size <? n) && who (t / warp_size) then f t (warp_regs nT (t / warp_size) (s_reg s g)) else s_reg s g t, s_sh s g, s_out s))).
  { induction n as [|n IH].
    - match goal with |- reaches k s (with_group s g ?a (?b, _, _)) => replace a with (s_code s g); [replace b with (s_reg s g); [|apply functional_extensionality; intros t; now rewrite andb_false_r]|apply functional_extensionality; intros t; now rewrite andb_false_r] end.
      change (s_reg s g, s_sh s g, s_out s) with (mem_of s g). rewrite with_group_id. apply reaches_refl.
    - eapply reaches_trans; [exact IH|]. set (s1 := with_group s g _ _).
      assert (C1 : s_code s1 g = fun t => if (t <? nT) && (t / warp_size <? n) then c t else s_code s g t) by apply with_group_code.
      assert (R1 : s_reg s1 g = fun t => if (t <? nT) && (t / warp_size <? n) && who (t / warp_size) then f t (warp_regs nT (t / warp_size) (s_reg s g)) else s_reg s g t) by (unfold s1; cbn; apply put_eq).
      destruct (who n) eqn:Wn; [destruct (Nat.ltb_spec (n * warp_size) nT) as [Hn|Hn]|].
      + eapply reaches_step. instantiate (1 := LShfl g n). rewrite exec_shfl_intro; auto.
        2: { intros t Ht. apply in_warp_iff in Ht. destruct Ht as [Ht Hw]. rewrite C1. apply Nat.ltb_lt in Ht as Lt. rewrite Lt, Hw, Nat.ltb_irrefl, E by auto. cbn [code1 andb]. rewrite Hw, Wn. cbn. eauto. }
        f_equal. unfold shfl_state. rewrite C1, R1. unfold s1. cbn [with_group s_code s_reg s_sh s_out]. rewrite !put_put. f_equal.
        * f_equal. apply functional_extensionality. intros t. unfold in_warp. destruct (Nat.ltb_spec t nT); [|reflexivity]. cbn [andb].
          destruct (Nat.eqb_spec (t / warp_size) n) as [Hw|]; [|destruct (Nat.ltb_spec (t / warp_size) n), (Nat.ltb_spec (t / warp_size) (Datatypes.S n)); auto; lia].
          rewrite E by auto. cbn [code1]. rewrite Hw, Wn, Nat.ltb_irrefl, (proj2 (Nat.ltb_lt n (Datatypes.S n))) by lia. reflexivity.
        * f_equal. apply functional_extensionality. intros t. unfold in_warp. destruct (Nat.ltb_spec t nT); [|reflexivity]. cbn [andb].
          destruct (Nat.eqb_spec (t / warp_size) n) as [Hw|]; [|destruct (Nat.ltb_spec (t / warp_size) n), (Nat.ltb_spec (t / warp_size) (Datatypes.S n)); auto; lia].
          rewrite E by auto. cbn [code1]. rewrite Hw, Wn, Nat.ltb_irrefl, (proj2 (Nat.ltb_lt n (Datatypes.S n))) by lia. cbn [app shfl_of andb]. f_equal.
          apply functional_extensionality. intros t'. unfold warp_regs. destruct (Nat.ltb_spec t' nT); [|reflexivity]. cbn [andb]. destruct (Nat.eqb_spec (t' / warp_size) n) as [->|]; [|reflexivity]. now rewrite Nat.ltb_irrefl.
      + assert (X : forall t, t < nT -> (t / warp_size <? Datatypes.S n) = (t / warp_size <? n)).
        { intros t Ht. assert (t / warp_size < n) by (apply Nat.div_lt_upper_bound; [discriminate|]; unfold warp_size in *; lia). rewrite !(proj2 (Nat.ltb_lt _ _)) by lia. reflexivity. }
        match goal with |- reaches k s1 ?u => replace u with s1; [apply reaches_refl|] end. unfold s1. f_equal; [|f_equal; f_equal]; apply functional_extensionality; intros t; destruct (Nat.ltb_spec t nT); cbn [andb]; auto; now rewrite X.
      + match goal with |- reaches k s1 ?u => replace u with s1; [apply reaches_refl|] end. unfold s1. f_equal; [|f_equal; f_equal]; apply functional_extensionality; intros t; destruct (Nat.ltb_spec t nT); cbn [andb]; auto.
        * destruct (Nat.ltb_spec (t / warp_size) n), (Nat.ltb_spec (t / warp_size) (Datatypes.S n)); auto; [lia|]. assert (Hw : t / warp_size = n) by lia. rewrite E by auto. cbn [code1]. now rewrite Hw, Wn.
        * destruct (Nat.ltb_spec (t / warp_size) n), (Nat.ltb_spec (t / warp_size) (Datatypes.S n)); auto; [lia|]. assert (Hw : t / warp_size = n) by lia. now rewrite Hw, Wn. }
  specialize (Q nT). cbn [run_step mem_of]. match type of Q with reaches k s ?u => match goal with |- reaches k s ?v => replace v with u; [exact Q|] end end.
  assert (X : forall t, t < nT -> (t / warp_size <? nT) = true). { intros t Ht. apply Nat.ltb_lt. eapply Nat.le_lt_trans; [apply Nat.div_le_upper_bound with (q := t); [discriminate|unfold warp_size; lia]|exact Ht]. }
  f_equal; [|f_equal; f_equal]; apply functional_extensionality; intros t; destruct (Nat.ltb_spec t nT); cbn [andb]; auto; now rewrite X.
Qed.
Definition step_bounds (st : gstep) : Prop := match st with Seg p => forall t, t < nT -> Forall (fun i => in_bounds k i = true) (p t) | _ => True end.
Lemma prog_turns : forall g prog c s, g < k_groups k -> 1 <= nT -> (forall t, t < nT -> s_code s g t = code_of prog t ++ c t) -> Forall step_bounds prog ->
  reaches k s (with_group s g (fun t => if t <? nT then c t else s_code s g t) (run_prog (k_in k) nT prog (mem_of s g))).
Proof.
  intros g prog c. induction prog as [|st prog IH]; intros s Hg Ht E B.
  - unfold run_prog. cbn [fold_left]. replace (fun t => if t <? nT then c t else s_code s g t) with (s_code s g); [rewrite with_group_id; apply reaches_refl|].
    apply functional_extensionality. intros t. destruct (Nat.ltb_spec t nT); [|reflexivity]. now rewrite E.
  - inversion B as [|? ? B1 B2]; subst. unfold run_prog. cbn [fold_left]. fold (run_prog (k_in k) nT prog (run_step (k_in k) nT (mem_of s g) st)).
    set (c1 := fun t => code_of prog t ++ c t).
    assert (R : reaches k s (with_group s g (fun t => if t <? nT then c1 t else s_code s g t) (run_step (k_in k) nT (mem_of s g) st))).
    { destruct st as [p|f|who f].
      - apply seg_turns; auto. intros t Hl. rewrite E by auto. unfold c1, code_of. cbn [flat_map code1]. now rewrite app_assoc.
      - apply (bar_turn g f c1 s Hg Ht). intros t Hl. rewrite E by auto. reflexivity.
      - apply shf_turn; auto. intros t Hl. rewrite E by auto. unfold c1, code_of. cbn [flat_map]. now rewrite app_assoc. }
    eapply reaches_trans; [exact R|]. eapply reaches_trans; [apply (IH _ Hg Ht); [|exact B2]|].
    { intros t Hl. rewrite with_group_code. destruct (Nat.ltb_spec t nT); [reflexivity|lia]. }
    rewrite with_group_code, with_group_mem, with_group_twice.
    match goal with |- reaches k (with_group s g ?a _) (with_group s g ?b _) => replace a with b; [apply reaches_refl|] end.
    apply functional_extensionality. intros t. destruct (Nat.ltb_spec t nT); reflexivity.
Qed.

(** All groups one after the other. *)
Lemma groups_turn : forall (prog : nat -> list gstep) (P : nat -> (nat -> R) -> Prop) s, 1 <= nT ->
  (forall g t, g < k_groups k -> t < nT -> s_code s g t = code_of (prog g) t) -> (forall g, g < k_groups k -> Forall step_bounds (prog g)) ->
  P 0 (s_out s) -> (forall g rg sh out, g < k_groups k -> P g out -> P (Datatypes.S g) (snd (run_prog (k_in k) nT (prog g) (rg, sh, out)))) ->
  exists u, reaches k s u /\ finished k u /\ P (k_groups k) (s_out u).
Proof.
  intros prog P s Ht E B P0 PS.
  assert (Q : forall n, n <= k_groups k -> exists u, reaches k s u /\ P n (s_out u) /\ (forall g t, g < n -> t < nT -> s_code u g t = []) /\ (forall g t, n <= g < k_groups k -> t < nT -> s_code u g t = code_of (prog g) t)).
  { induction n as [|n IH]; intros Hn.
    - exists s. split; [apply reaches_refl|]. repeat split; auto; [intros; lia|intros; apply E; lia].
    - destruct (IH ltac:(lia)) as (u & R & Pu & F & C).
      assert (R1 := prog_turns n (prog n) (fun _ => []) u ltac:(lia) Ht (fun t Hl => eq_trans (C n t ltac:(lia) Hl) (eq_sym (app_nil_r _))) (B n ltac:(lia))).
      eexists. split; [eapply reaches_trans; eauto|]. unfold mem_of. specialize (PS n (s_reg u n) (s_sh u n) (s_out u) ltac:(lia) Pu).
      destruct (run_prog _ _ _ _) as [[rg sh] out]. cbn [with_group s_out s_code snd] in *. split; [exact PS|]. split.
      + intros g t Hg Hl. unfold put. destruct (Nat.eqb_spec g n); [destruct (Nat.ltb_spec t nT); [reflexivity|lia]|]. apply F; lia.
      + intros g t Hg Hl. unfold put. destruct (Nat.eqb_spec g n); [lia|]. apply C; lia. }
  destruct (Q (k_groups k) (le_n _)) as (u & R & Pu & F & _). exists u. split; [exact R|]. split; [|exact Pu]. intros g t Hg Hl. now apply F.
Qed.

(** ** Race freedom of programs *)
(** W t a: thread t may write shared address a; Rd t a: may read it. *)
Definition disciplined (W Rd : nat -> nat -> Prop) : Prop := forall t t' a, t < nT -> t' < nT -> t <> t' -> W t a -> ~ W t' a /\ ~ Rd t' a.
Definition conforms (W Rd : nat -> nat -> Prop) (t : nat) (i : instr) : Prop := is_sync i = false /\ forall a, (writes i a -> W t a) /\ (reads i a -> Rd t a).
Fixpoint safe (W Rd : nat -> nat -> Prop) (prog : list gstep) : Prop :=
  match prog with
  | [] => True
  | Seg p :: r => (forall t, t < nT -> Forall (conforms W Rd t) (p t)) /\ safe W Rd r
  | Bar _ :: r => exists W' Rd', disciplined W' Rd' /\ safe W' Rd' r
  | Shf _ _ :: r => safe W Rd r
  end.
Lemma head_app : forall p c, Forall (fun i => is_sync i = false) p -> head (p ++ c) = p ++ head c.
Proof. induction p; intros c H; [reflexivity|]. inversion H; subst. cbn. rewrite H2. f_equal. auto. Qed.
Lemma rest_app : forall p c, Forall (fun i => is_sync i = false) p -> rest (p ++ c) = rest c.
Proof. induction p; intros c H; [reflexivity|]. inversion H; subst. cbn. rewrite H2. auto. Qed.
Lemma conforms_plain : forall W Rd t p, Forall (conforms W Rd t) p -> Forall (fun i => is_sync i = false) p.
Proof. intros. eapply Forall_impl; [|exact H]. now intros i [? _]. Qed.
Lemma shf_plain : forall W Rd who f t, Forall (conforms W Rd t) (code1 (Shf who f) t).
Proof. intros. cbn [code1]. destruct (who _); repeat constructor; cbn in *; contradiction. Qed.
Lemma safe_head : forall prog W Rd t, t < nT -> safe W Rd prog -> Forall (conforms W Rd t) (head (code_of prog t)).
Proof.
  induction prog as [|[p|f|who f] prog IH]; intros W Rd t Ht H; [constructor| |constructor|].
  - destruct H as [H1 H2]. unfold code_of. cbn [flat_map code1]. rewrite head_app by (eapply conforms_plain; eauto). apply Forall_app. split; [auto|]. now apply IH.
  - unfold code_of. cbn [flat_map]. assert (Q := shf_plain W Rd who f t). rewrite head_app by (eapply conforms_plain; eauto). apply Forall_app. split; [exact Q|]. now apply IH.
Qed.
Lemma safe_phase : forall prog W Rd n t t', disciplined W Rd -> safe W Rd prog -> t < nT -> t' < nT -> t <> t' -> apart (phase n (code_of prog t)) (phase n (code_of prog t')).
Proof.
  induction prog as [|st prog IH]; intros W Rd n t t' D H Ht Ht' Ne.
  - intros i j a Hi. exfalso. revert Hi. clear. induction n; cbn; auto.
  - destruct n as [|n].
    + cbn [phase]. assert (A := safe_head (st :: prog) W Rd t Ht H). assert (A' := safe_head (st :: prog) W Rd t' Ht' H). intros i j a Hi Hj Hw.
      destruct (proj1 (Forall_forall _ _) A i Hi) as [_ Q]. destruct (proj1 (Forall_forall _ _) A' j Hj) as [_ Q']. destruct (Q a) as [Q1 _]. destruct (Q' a) as [Q1' Q2']. destruct (D t t' a Ht Ht' Ne (Q1 Hw)). split; auto.
    + destruct st as [p|f|who f].
      * destruct H as [H1 H2]. cbn [phase]. unfold code_of. cbn [flat_map code1]. rewrite !rest_app by (eapply conforms_plain; eauto). apply (IH W Rd (Datatypes.S n)); auto.
      * destruct H as (W' & Rd' & D' & H). cbn [phase]. now apply (IH W' Rd' n).
      * cbn [phase]. unfold code_of. cbn [flat_map]. rewrite (rest_app (code1 (Shf who f) t)), (rest_app (code1 (Shf who f) t')) by (eapply conforms_plain, (shf_plain W Rd)). apply (IH W Rd (Datatypes.S n)); auto.
Qed.
End Run.

(** The condition on the output: all updates are atomic additions, or every address belongs
    to one thread. *)
Definition only_add (i : instr) : Prop := match i with IOut _ _ => False | IAtom AMax _ _ => False | _ => True end.
Lemma only_add_compat : forall c c', Forall only_add c -> Forall only_add c' -> compat c c'.
Proof.
  intros c c' H H' i j a Hi Hj Ti Tj. assert (A := proj1 (Forall_forall _ _) H i Hi). assert (A' := proj1 (Forall_forall _ _) H' j Hj).
  destruct i as [| | | | |[]| | |]; try contradiction; destruct j as [| | | | |[]| | |]; try contradiction. cbn in Ti, Tj. subst. eauto.
Qed.
Definition owned (own : nat -> nat * nat) (gt : nat * nat) (i : instr) : Prop := forall a, touches i a -> own a = gt.
Lemma owned_compat : forall own gt gt' c c', gt <> gt' -> Forall (owned own gt) c -> Forall (owned own gt') c' -> compat c c'.
Proof.
  intros own gt gt' c c' Ne H H' i j a Hi Hj Ti Tj. exfalso. apply Ne. rewrite <- (proj1 (Forall_forall _ _) H i Hi a Ti). exact (proj1 (Forall_forall _ _) H' j Hj a Tj).
Qed.

(** The combination used for the kernels. *)
Theorem program_settles : forall k (prog : nat -> list gstep) (P : nat -> (nat -> R) -> Prop) (Q : (nat -> R) -> Prop) rg sh out W Rd, 1 <= k_threads k ->
  (forall g t, g < k_groups k -> t < k_threads k -> k_code k g t = code_of (prog g) t) -> (forall g, g < k_groups k -> Forall (step_bounds k) (prog g)) ->
  disciplined k W Rd -> (forall g, g < k_groups k -> safe k W Rd (prog g)) ->
  (forall g t g' t', g < k_groups k -> t < k_threads k -> g' < k_groups k -> t' < k_threads k -> (g, t) <> (g', t') -> compat (k_code k g t) (k_code k g' t')) ->
  P 0 out -> (forall g rg sh out, g < k_groups k -> P g out -> P (Datatypes.S g) (snd (run_prog (k_in k) (k_threads k) (prog g) (rg, sh, out)))) ->
  (forall o, P (k_groups k) o -> Q o) -> settles k (start k rg sh out) Q.
Proof.
  intros k prog P Q rg sh out W Rd Ht E B D Sa Co P0 PS HQ.
  destruct (groups_turn k prog P (start k rg sh out) Ht E B P0 PS) as (u & [n R] & F & Pu). eapply one_settles; eauto. split.
  - intros g t t' m Hg H1 H2 Ne. cbn [start s_code]. rewrite !E by auto. eapply safe_phase; eauto.
  - intros. cbn [start s_code]. auto.
Qed.
