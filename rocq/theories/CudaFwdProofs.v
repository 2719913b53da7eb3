(** The forward CUDA kernel computes the DISCO contraction under every schedule. *)
From Coq Require Import List Arith Lia Bool Reals Lra Permutation Sorted FunctionalExtensionality.
From Verif Require Import TensorModel TensorProofs BigSum DiscoModel DiscoSpec DiscoSortProofs DiscoRunProofs DiscoKernelProofs DiscoTensorProofs DiscoPackProofs
  GpuModel GpuSpec GpuProofs GpuProofs2 CudaDiscoModel.
Import ListNotations.
Local Open Scope nat_scope.

(** ** Runs of instruction lists *)
Lemma run_app : forall inp a b m, run_instrs inp (a ++ b) m = run_instrs inp b (run_instrs inp a m).
Proof. intros. apply fold_left_app. Qed.
Lemma run_inv : forall X inp (body : X -> list instr) (I : list X -> tmem -> Prop) L m, I [] m ->
  (forall l x m, In x L -> I l m -> I (l ++ [x]) (run_instrs inp (body x) m)) -> I L (run_instrs inp (flat_map body L) m).
Proof.
  intros X inp body I L. induction L as [|x L IH] using rev_ind; intros m H0 HS; [exact H0|].
  rewrite flat_map_app, run_app. cbn [flat_map]. rewrite app_nil_r. apply HS; [apply in_or_app; right; now left|]. apply IH; auto.
  intros. apply HS; auto. apply in_or_app. now left.
Qed.
Lemma run_seq : forall inp (body : nat -> list instr) (I : nat -> tmem -> Prop) E m, I 0 m ->
  (forall n m, n < E -> I n m -> I (Datatypes.S n) (run_instrs inp (body n) m)) -> I E (run_instrs inp (flat_map body (seq 0 E)) m).
Proof.
  intros inp body I E m H0 HS. induction E; [exact H0|]. rewrite seq_S, flat_map_app, run_app. cbn [flat_map plus]. rewrite app_nil_r. apply HS; auto.
Qed.
Lemma seg_inv : forall inp nT p (I : nat -> gmem -> Prop) m, I 0 m -> (forall t m, t < nT -> I t m -> I (Datatypes.S t) (turn1 inp p m t)) -> I nT (run_step inp nT m (Seg p)).
Proof.
  intros inp nT p I m H0 HS. cbn [run_step]. induction nT; [exact H0|]. rewrite seq_S, fold_left_app. cbn [fold_left plus]. apply HS; auto.
Qed.
Lemma map_flat : forall X Y (f : X -> Y) l, map f l = flat_map (fun x => [f x]) l.
Proof. induction l; cbn; congruence. Qed.
Lemma code_of_app : forall a b t, code_of (a ++ b) t = code_of a t ++ code_of b t.
Proof. intros. apply flat_map_app. Qed.
Lemma strided_in : forall d n f a j, 1 <= d -> n <= f + a -> (In j (strided f a n d) <-> j < n /\ exists m, j = a + m * d).
Proof.
  intros d n. induction f as [|f IH]; intros a j Hd Hf; cbn [strided].
  - split; [intros []|]. intros [H (m & ->)]. lia.
  - destruct (Nat.ltb_spec a n).
    + cbn [In]. rewrite IH by lia. split.
      * intros [<-|[H1 (m & ->)]]; [split; [auto|exists 0; lia]|]. split; [auto|exists (Datatypes.S m); lia].
      * intros [H1 ([|m] & ->)]; [left; lia|right]. split; [auto|exists m; lia].
    + split; [intros []|]. intros [H1 (m & ->)]. lia.
Qed.
Lemma strided_lt : forall d n f a j, In j (strided f a n d) -> j < n.
Proof. intros d n. induction f as [|f IH]; intros a j; cbn [strided]; [intros []|]. destruct (Nat.ltb_spec a n); [|intros []]. intros [<-|H1]; auto. eauto. Qed.
Lemma strided_mod : forall d n t j, t < d -> (In j (strided n t n d) <-> j < n /\ j mod d = t).
Proof.
  intros d n t j Ht. rewrite strided_in by lia. split; intros [H1 H2]; split; auto.
  - destruct H2 as (m & ->). rewrite Nat.mod_add by lia. apply Nat.mod_small. auto.
  - exists (j / d). pose proof (Nat.div_mod j d ltac:(lia)). lia.
Qed.
Lemma row_div : forall d i t, t < d -> (i * d + t) / d = i /\ (i * d + t) mod d = t.
Proof. intros. split; symmetry; [apply Nat.div_unique with (r := t)|apply Nat.mod_unique with (q := i)]; lia. Qed.

Definition bar : gstep := Bar (fun t all => all t).
Lemma run_bar : forall inp nT rg sh out, run_step inp nT (rg, sh, out) bar = (rg, sh, out).
Proof. intros. unfold bar, run_step. f_equal. f_equal. apply functional_extensionality. intros t. destruct (t <? nT); reflexivity. Qed.

(** Both outputs of an address belong to one thread. *)
Lemma own_compat : forall (Own : nat -> Prop) (Own' : nat -> Prop) c c', (forall a, Own a -> Own' a -> False) ->
  Forall (fun i => forall a, touches i a -> Own a) c -> Forall (fun i => forall a, touches i a -> Own' a) c' -> compat c c'.
Proof.
  intros Own Own' c c' D H H' i j a Hi Hj Ti Tj. exfalso. eapply D; [exact (proj1 (Forall_forall _ _) H i Hi a Ti)|exact (proj1 (Forall_forall _ _) H' j Hj a Tj)].
Qed.
Lemma Forall_flat : forall X Y (P : Y -> Prop) (f : X -> list Y) l, (forall x, In x l -> Forall P (f x)) -> Forall P (flat_map f l).
Proof. intros. apply Forall_forall. intros y Hy. apply in_flat_map in Hy. destruct Hy as (x & Hx & Hy). exact (proj1 (Forall_forall _ _) (H x Hx) y Hy). Qed.

(** The entries of a run address image rows in nondecreasing order. *)
Fixpoint asc (w h : nat) (l : list entry) : Prop := match l with [] => True | e :: l => h <= col e / w /\ asc w (col e / w) l end.

Ltac fl := repeat first [apply Forall_cons|apply Forall_nil].
Ltac cf := fl; (split; [reflexivity|]; intros; cbn; split; intros; try contradiction; try exact I).

Section Group.
Variables (BD E Hi Wi K Ho Wo ps : nat).
Hypotheses (HBD : 1 <= BD) (HWo : 1 <= Wo) (HWi : 1 <= Wi) (HW : Wi = ps * Wo) (HE : Wo <= BD * E).
Variables (inp : nat -> R) (ibase : nat).

Definition prev_at (p : cprev) (e : entry) : Prop := p = at_col Wi (p_col p) /\ p_h p = col e / Wi.
Lemma div_facts : forall c, c = Wi * (c / Wi) + c mod Wi /\ c mod Wi < Wi.
Proof. intros. split; [apply Nat.div_mod; lia|apply Nat.mod_upper_bound; lia]. Qed.
Lemma new_row_spec : forall p e, p = at_col Wi (p_col p) -> p_h p <= col e / Wi -> new_row Wi p e = negb (p_h p =? col e / Wi).
Proof.
  intros p e Ep Hh. unfold new_row. destruct (div_facts (col e)) as [A B]. destruct (div_facts (p_col p)) as [A' B'].
  assert (H1 : p_h p = p_col p / Wi) by (rewrite Ep; reflexivity). assert (H2 : p_w p = p_col p mod Wi) by (rewrite Ep; reflexivity).
  destruct (Nat.eqb_spec (p_h p) (col e / Wi)); cbn [negb]; [apply Nat.leb_gt|apply Nat.leb_le]; rewrite H2; nia.
Qed.
Lemma next_prev_at : forall p e, p = at_col Wi (p_col p) -> p_h p <= col e / Wi -> prev_at (next_prev Wi p e) e.
Proof.
  intros p e Ep Hh. unfold next_prev. rewrite new_row_spec by auto. destruct (Nat.eqb_spec (p_h p) (col e / Wi)); cbn [negb]; split; auto.
Qed.
Lemma prev_w : forall p e, prev_at p e -> p_w p + col e = p_col p + col e mod Wi.
Proof.
  intros p e [Ep Hh]. destruct (div_facts (col e)) as [A B]. destruct (div_facts (p_col p)) as [A' B'].
  assert (H1 : p_h p = p_col p / Wi) by (rewrite Ep; reflexivity). assert (H2 : p_w p = p_col p mod Wi) by (rewrite Ep; reflexivity). rewrite H2. nia.
Qed.

(** *** Loading a row *)
Definition doubled (h : nat) (sh : nat -> R) (j : nat) : Prop := sh j = inp (ibase + h * Wi + j) /\ sh (Wi + j) = inp (ibase + h * Wi + j).
Lemma load_turn : forall h t r sh out, let '(r', sh', out') := run_instrs inp (load_row BD E Wi ibase h t) (r, sh, out) in
  out' = out /\ (forall i, i < E -> r' i = r i) /\ (forall j, j < Wi -> In j (strided Wi t Wi BD) \/ doubled h sh j -> doubled h sh' j).
Proof.
  intros h t r sh out. unfold load_row.
  apply (run_inv _ inp _ (fun l m => let '(r', sh', out') := m in out' = out /\ (forall i, i < E -> r' i = r i) /\ (forall j, j < Wi -> In j l \/ doubled h sh j -> doubled h sh' j))).
  - split; [auto|]. split; [auto|]. intros j _ [[]|H]. exact H.
  - intros l x [[r1 sh1] out1] Hx (Eo & Er & Es). apply strided_lt in Hx. cbn. split; [exact Eo|]. split.
    + intros i Hy. rewrite put_ne by lia. auto.
    + intros j Hj D. destruct (Nat.eq_dec j x) as [->|Ne].
      * split; [rewrite put_ne by lia|]; now rewrite !put_eq.
      * assert (D' : In j l \/ doubled h sh j). { destruct D as [D|D]; auto. apply in_app_or in D. destruct D as [D|[D|[]]]; auto. congruence. }
        destruct (Es j Hj D') as [D1 D2]. unfold put. split.
        { destruct (Nat.eqb_spec j (Wi + x)) as [->|]; [lia|]. destruct (Nat.eqb_spec j x); [congruence|exact D1]. }
        { destruct (Nat.eqb_spec (Wi + j) (Wi + x)); [lia|]. destruct (Nat.eqb_spec (Wi + j) x); [lia|exact D2]. }
Qed.
Lemma load_seg : forall h rg sh out, let '(rg', sh', out') := run_step inp BD (rg, sh, out) (Seg (load_row BD E Wi ibase h)) in
  out' = out /\ (forall t i, i < E -> rg' t i = rg t i) /\ (forall j, j < Wi -> doubled h sh' j).
Proof.
  intros h rg sh out.
  assert (Q := seg_inv inp BD (load_row BD E Wi ibase h) (fun n m => let '(rg', sh', out') := m in out' = out /\ (forall t i, i < E -> rg' t i = rg t i) /\ (forall j, j < Wi -> j mod BD < n -> doubled h sh' j)) (rg, sh, out)).
  cbv beta in Q. destruct (run_step _ _ _ _) as [[rg' sh'] out'] eqn:ER. destruct Q as (Q1 & Q2 & Q3).
  - split; [auto|]. split; [auto|]. lia.
  - intros t [[r1 s1] o1] Ht (A1 & A2 & A3). unfold turn1. assert (L := load_turn h t (r1 t) s1 o1). destruct (run_instrs _ _ _) as [[r2 s2] o2].
    destruct L as (L1 & L2 & L3). split; [congruence|]. split.
    + intros t' i Hy. unfold put. destruct (Nat.eqb_spec t' t) as [->|]; [rewrite L2|]; auto.
    + intros j Hj Hm. apply L3; auto. destruct (Nat.eq_dec (j mod BD) t); [left; apply strided_mod; auto|right; apply A3; auto; lia].
  - split; [auto|]. split; [auto|]. intros j Hj. apply Q3; auto. apply Nat.mod_upper_bound. lia.
Qed.

(** *** Accumulating an entry *)
Lemma acc_turn : forall p e t r sh out, prev_at p e -> t < BD ->
  let '(r', sh', out') := run_instrs inp (fwd_acc BD E ps p e t) (r, sh, out) in
  sh' = sh /\ out' = out /\ (forall i, i < E -> r' i = (r i + pv e * sh (col e mod Wi + ps * (i * BD + t))%nat)%R).
Proof.
  intros p e t r sh out Hp Ht. unfold fwd_acc. pose proof (prev_w p e Hp) as HP.
  assert (Q := run_seq inp (fun i => let pp := i * BD + t in if p_w p + col e + ps * pp <? p_col p then [IFault]
      else [ILoad E (p_w p + col e + ps * pp - p_col p); ISet i (fun r => r i + pv e * r E)%R])
    (fun n m => let '(r', sh', out') := m in sh' = sh /\ out' = out /\ (forall i, i < E -> r' i = if i <? n then (r i + pv e * sh (col e mod Wi + ps * (i * BD + t))%nat)%R else r i)) E (r, sh, out)).
  cbv beta in Q. destruct (run_instrs _ _ _) as [[r' sh'] out']. destruct Q as (Q1 & Q2 & Q3).
  - repeat split; auto.
  - intros n [[r1 s1] o1] Hn (A1 & A2 & A3). subst s1 o1. cbv zeta. destruct (Nat.ltb_spec (p_w p + col e + ps * (n * BD + t)) (p_col p)); [lia|].
    replace (p_w p + col e + ps * (n * BD + t) - p_col p) with (col e mod Wi + ps * (n * BD + t)) by lia. cbn [run_instrs fold_left run1 reg_of sh_of out_of]. split; [reflexivity|]. split; [reflexivity|].
    intros i Hy. unfold put at 1. destruct (Nat.eqb_spec i n) as [->|].
    + destruct (Nat.ltb_spec n (Datatypes.S n)); [|lia]. rewrite put_eq, put_ne by lia. rewrite A3 by auto. destruct (Nat.ltb_spec n n); [lia|reflexivity].
    + rewrite put_ne by lia. rewrite A3 by auto. destruct (Nat.ltb_spec i n), (Nat.ltb_spec i (Datatypes.S n)); auto; lia.
  - split; [auto|]. split; [auto|]. intros i Hy. rewrite Q3 by auto. destruct (Nat.ltb_spec i E); [reflexivity|lia].
Qed.
Lemma acc_seg : forall p e rg sh out, prev_at p e -> let '(rg', sh', out') := run_step inp BD (rg, sh, out) (Seg (fwd_acc BD E ps p e)) in
  sh' = sh /\ out' = out /\ (forall t i, t < BD -> i < E -> rg' t i = (rg t i + pv e * sh (col e mod Wi + ps * (i * BD + t))%nat)%R).
Proof.
  intros p e rg sh out Hp.
  assert (Q := seg_inv inp BD (fwd_acc BD E ps p e) (fun n m => let '(rg', sh', out') := m in sh' = sh /\ out' = out /\ (forall t i, i < E -> rg' t i = if t <? n then (rg t i + pv e * sh (col e mod Wi + ps * (i * BD + t))%nat)%R else rg t i)) (rg, sh, out)).
  cbv beta in Q. destruct (run_step _ _ _ _) as [[rg' sh'] out'] eqn:ER. destruct Q as (Q1 & Q2 & Q3).
  - repeat split; auto.
  - intros t [[r1 s1] o1] Ht (A1 & A2 & A3). subst s1 o1. unfold turn1. assert (L := acc_turn p e t (r1 t) sh out Hp Ht). destruct (run_instrs _ _ _) as [[r2 s2] o2].
    destruct L as (-> & -> & L3). split; [reflexivity|]. split; [reflexivity|].
    intros t' i Hy. unfold put. destruct (Nat.eqb_spec t' t) as [->|].
    + rewrite L3, A3 by auto. destruct (Nat.ltb_spec t t); [lia|]. destruct (Nat.ltb_spec t (Datatypes.S t)); [reflexivity|lia].
    + rewrite A3 by auto. destruct (Nat.ltb_spec t' t), (Nat.ltb_spec t' (Datatypes.S t)); auto; lia.
  - split; [auto|]. split; [auto|]. intros t i Ht Hy. rewrite Q3 by auto. destruct (Nat.ltb_spec t BD); [reflexivity|lia].
Qed.

(** *** The loop *)
Fixpoint floop (p : cprev) (l : list entry) : list gstep :=
  match l with
  | [] => []
  | e :: l => let p' := next_prev Wi p e in
      (if new_row Wi p e then [bar; Seg (load_row BD E Wi ibase (p_h p')); bar] else []) ++ Seg (fwd_acc BD E ps p' e) :: floop p' l
  end.
Lemma floop_code : forall l p t, fwd_loop BD E Wi ps ibase p l t = code_of (floop p l) t.
Proof.
  induction l as [|e l IH]; intros p t; [reflexivity|]. cbn [fwd_loop floop]. cbv zeta. rewrite code_of_app. f_equal.
  - destruct (new_row Wi p e); [|reflexivity]. cbn. now rewrite ?app_nil_r.
  - unfold code_of. cbn [flat_map code1]. f_equal. apply IH.
Qed.
Definition plane (h w : nat) : R := inp (ibase + h * Wi + w).
Definition tsum (l : list entry) (w : nat) : R := rlsum (fterm Wi ps plane w) l.
Definition ready (h : nat) (sh : nat -> R) : Prop := forall j, j < Wi -> doubled h sh j.
Lemma ready_at : forall h sh x, ready h sh -> x < 2 * Wi -> sh x = plane h (x mod Wi).
Proof.
  intros h sh x Hr Hx. rewrite <- (dbl_mod Wi Wo ps HWo HW HWi x Hx). unfold plane. destruct (Nat.ltb_spec x Wi); [apply Hr; auto|].
  replace x with (Wi + (x - Wi)) at 1 by lia. apply Hr. lia.
Qed.
Lemma run_cons : forall nT st prog m, run_prog inp nT (st :: prog) m = run_prog inp nT prog (run_step inp nT m st).
Proof. reflexivity. Qed.
Lemma run_papp : forall nT a b m, run_prog inp nT (a ++ b) m = run_prog inp nT b (run_prog inp nT a m).
Proof. intros. apply fold_left_app. Qed.
Lemma floop_run : forall l p rg sh out, p = at_col Wi (p_col p) -> asc Wi (p_h p) l -> ready (p_h p) sh ->
  let '(rg', sh', out') := run_prog inp BD (floop p l) (rg, sh, out) in
  out' = out /\ (forall t i, t < BD -> i < E -> i * BD + t < Wo -> rg' t i = (rg t i + tsum l (i * BD + t))%R).
Proof.
  induction l as [|e l IH]; intros p rg sh out Ep Ha Hr.
  - cbn. split; auto. intros. unfold tsum. cbn. lra.
  - destruct Ha as [Hh Ha]. cbn [floop]. cbv zeta. set (p' := next_prev Wi p e). assert (Hp' := next_prev_at p e Ep Hh : prev_at p' e).
    rewrite run_papp, run_cons.
    assert (X : exists rg1 sh1, run_prog inp BD (if new_row Wi p e then [bar; Seg (load_row BD E Wi ibase (p_h p')); bar] else []) (rg, sh, out) = (rg1, sh1, out) /\ (forall t i, i < E -> rg1 t i = rg t i) /\ ready (p_h p') sh1).
    { unfold p', next_prev. rewrite new_row_spec by auto. destruct (Nat.eqb_spec (p_h p) (col e / Wi)); cbn [negb].
      - exists rg, sh. repeat split; auto; apply Hr; auto.
      - rewrite run_cons, run_bar, run_cons. assert (L := load_seg (p_h (at_col Wi (col e))) rg sh out). destruct (run_step _ _ _ _) as [[rg1 sh1] out1]. destruct L as (-> & L2 & L3).
        rewrite run_cons, run_bar. exists rg1, sh1. split; [reflexivity|]. split; auto. }
    destruct X as (rg1 & sh1 & -> & Hrg & Hr1). assert (L := acc_seg p' e rg1 sh1 out Hp'). destruct (run_step _ _ _ _) as [[rg2 sh2] out2]. destruct L as (-> & -> & L3).
    assert (Q := IH p' rg2 sh1 out (proj1 Hp')). rewrite (proj2 Hp') in Q. specialize (Q Ha). rewrite <- (proj2 Hp') in Q. specialize (Q Hr1).
    destruct (run_prog _ _ _ _) as [[rg3 sh3] out3]. destruct Q as (Q1 & Q2). split; [exact Q1|]. intros t i Ht Hy Hpp. rewrite Q2, L3, Hrg by auto.
    unfold tsum, fterm. cbn [rlsum lsum_ fold_right]. rewrite (ready_at (p_h p') sh1); [|auto|destruct (div_facts (col e)); nia]. rewrite (proj2 Hp'). unfold rlsum, lsum_. ring.
Qed.

(** *** The store *)
Lemma store_turn : forall obase t r sh out, t < BD -> let '(r', sh', out') := run_instrs inp (fwd_store BD E Wo obase t) (r, sh, out) in
  r' = r /\ sh' = sh /\ (forall a, out' a = if (obase <=? a) && (a <? obase + Wo) && ((a - obase) mod BD =? t) then r ((a - obase) / BD) else out a).
Proof.
  intros obase t r sh out Ht. unfold fwd_store.
  assert (Q := run_seq inp (fun i => let pp := i * BD + t in if Wo <=? pp then [] else [IOut (obase + pp) (fun r => r i)])
    (fun n m => let '(r', sh', out') := m in r' = r /\ sh' = sh /\ (forall a, out' a = if (obase <=? a) && (a <? obase + Wo) && ((a - obase) mod BD =? t) && ((a - obase) / BD <? n) then r ((a - obase) / BD) else out a)) E (r, sh, out)).
  cbv beta in Q. destruct (run_instrs _ _ _) as [[r' sh'] out']. destruct Q as (Q1 & Q2 & Q3).
  - split; [auto|]. split; [auto|]. intros a. now rewrite andb_false_r.
  - intros n [[r1 s1] o1] Hn (A1 & A2 & A3). subst r1 s1. cbv zeta. destruct (row_div BD n t Ht) as [D1 D2].
    assert (X : forall a, (obase <=? a) && (a <? obase + Wo) && ((a - obase) mod BD =? t) && ((a - obase) / BD <? Datatypes.S n) =
       ((obase <=? a) && (a <? obase + Wo) && ((a - obase) mod BD =? t) && ((a - obase) / BD <? n)) || ((a =? obase + (n * BD + t)) && (n * BD + t <? Wo))).
    { intros a. destruct (Nat.leb_spec obase a); cbn [andb]; [|destruct (Nat.eqb_spec a (obase + (n * BD + t))); [lia|reflexivity]].
      assert (F : a - obase = BD * ((a - obase) / BD) + (a - obase) mod BD) by (apply Nat.div_mod; lia). set (q := (a - obase) / BD) in *. set (m := (a - obase) mod BD) in *.
      destruct (Nat.ltb_spec a (obase + Wo)); cbn [andb].
      - destruct (Nat.eqb_spec m t); cbn [andb].
        + destruct (Nat.eqb_spec a (obase + (n * BD + t))).
          * assert (q = n) by nia. destruct (Nat.ltb_spec q (Datatypes.S n)), (Nat.ltb_spec (n * BD + t) Wo); lia.
          * cbn [andb]. rewrite orb_false_r. assert (q <> n) by (intros ->; nia). destruct (Nat.ltb_spec q (Datatypes.S n)), (Nat.ltb_spec q n); auto; lia.
        + destruct (Nat.eqb_spec a (obase + (n * BD + t))); [|reflexivity]. exfalso. apply n0. unfold m. rewrite e. replace (obase + (n * BD + t) - obase) with (n * BD + t) by lia. exact D2.
      - destruct (Nat.eqb_spec a (obase + (n * BD + t))); [|reflexivity]. destruct (Nat.ltb_spec (n * BD + t) Wo); [lia|reflexivity]. }
    destruct (Nat.leb_spec Wo (n * BD + t)).
    + cbn [run_instrs fold_left]. split; [reflexivity|]. split; [reflexivity|]. intros a. rewrite A3, X. destruct (Nat.ltb_spec (n * BD + t) Wo); [lia|]. now rewrite andb_false_r, orb_false_r.
    + cbn [run_instrs fold_left run1 reg_of sh_of out_of]. split; [reflexivity|]. split; [reflexivity|]. intros a. rewrite X. unfold put. destruct (Nat.eqb_spec a (obase + (n * BD + t))).
      * destruct (Nat.ltb_spec (n * BD + t) Wo); [|lia]. rewrite orb_true_r. replace (a - obase) with (n * BD + t) by lia. now rewrite D1.
      * cbn [andb]. now rewrite orb_false_r.
  - split; [auto|]. split; [auto|]. intros a. rewrite Q3. destruct (Nat.leb_spec obase a); cbn [andb]; [|reflexivity]. destruct (Nat.ltb_spec a (obase + Wo)); cbn [andb]; [|reflexivity].
    destruct (_ =? t); cbn [andb]; [|reflexivity]. destruct (Nat.ltb_spec ((a - obase) / BD) E); [reflexivity|]. exfalso. assert (BD * E <= a - obase); [|lia].
    transitivity (BD * ((a - obase) / BD)); [nia|]. apply Nat.mul_div_le. lia.
Qed.
Lemma store_seg : forall obase rg sh out, let '(rg', sh', out') := run_step inp BD (rg, sh, out) (Seg (fwd_store BD E Wo obase)) in
  forall a, out' a = if (obase <=? a) && (a <? obase + Wo) then rg ((a - obase) mod BD) ((a - obase) / BD) else out a.
Proof.
  intros obase rg sh out.
  assert (Q := seg_inv inp BD (fwd_store BD E Wo obase) (fun n m => let '(rg', sh', out') := m in rg' = rg /\ (forall a, out' a = if (obase <=? a) && (a <? obase + Wo) && ((a - obase) mod BD <? n) then rg ((a - obase) mod BD) ((a - obase) / BD) else out a)) (rg, sh, out)).
  cbv beta in Q. destruct (run_step _ _ _ _) as [[rg' sh'] out'] eqn:ER. destruct Q as (Q1 & Q2).
  - split; [auto|]. intros a. now rewrite andb_false_r.
  - intros t [[r1 s1] o1] Ht (A1 & A2). subst r1. unfold turn1. assert (L := store_turn obase t (rg t) s1 o1 Ht). destruct (run_instrs _ _ _) as [[r2 s2] o2].
    destruct L as (-> & -> & L3). split; [apply put_same|]. intros a. rewrite L3, A2. destruct ((obase <=? a) && (a <? obase + Wo)); cbn [andb]; [|reflexivity].
    destruct (Nat.eqb_spec ((a - obase) mod BD) t), (Nat.ltb_spec ((a - obase) mod BD) t), (Nat.ltb_spec ((a - obase) mod BD) (Datatypes.S t)); subst; auto; lia.
  - intros a. rewrite Q2. pose proof (Nat.mod_upper_bound (a - obase) BD ltac:(lia)). destruct (Nat.ltb_spec ((a - obase) mod BD) BD); [|lia]. now rewrite andb_true_r.
Qed.
Lemma zero_seg : forall rg sh out, let '(rg', sh', out') := run_step inp BD (rg, sh, out) (Seg (fun _ => map (fun i => ISet i (fun _ => 0%R)) (seq 0 E))) in
  out' = out /\ (forall t i, t < BD -> i < E -> rg' t i = 0%R).
Proof.
  intros rg sh out.
  assert (Q := seg_inv inp BD (fun _ => map (fun i => ISet i (fun _ => 0%R)) (seq 0 E)) (fun n m => let '(rg', sh', out') := m in out' = out /\ (forall t i, t < n -> i < E -> rg' t i = 0%R)) (rg, sh, out)).
  cbv beta in Q. destruct (run_step _ _ _ _) as [[rg' sh'] out'] eqn:ER. apply Q.
  - split; auto. lia.
  - intros t [[r1 s1] o1] Ht (A1 & A2). subst o1. unfold turn1. rewrite map_flat.
    assert (L := run_seq inp (fun i => [ISet i (fun _ => 0%R)]) (fun n m => let '(r', sh', out') := m in out' = out /\ (forall i, i < n -> r' i = 0%R)) E (r1 t, s1, out)).
    cbv beta in L. destruct (run_instrs _ _ _) as [[r2 s2] o2]. destruct L as (-> & L).
    { split; auto. lia. }
    { intros n [[r3 s3] o3] Hn (B1 & B2). cbn. split; [auto|]. intros i Hy. unfold put. destruct (Nat.eqb_spec i n); [reflexivity|]. apply B2. lia. }
    split; [reflexivity|]. intros t' i Hl Hy. unfold put. destruct (Nat.eqb_spec t' t); [apply L; auto|apply A2; auto; lia].
Qed.

(** *** A whole block *)
Definition fprog (obase : nat) (e0 : entry) (l : list entry) : list gstep :=
  [Seg (fun _ => map (fun i => ISet i (fun _ => 0%R)) (seq 0 E)); Seg (load_row BD E Wi ibase (col e0 / Wi)); bar] ++
  floop (at_col Wi (col e0)) l ++ [Seg (fwd_store BD E Wo obase)].
Lemma fprog_run : forall obase e0 l m, asc Wi (col e0 / Wi) l -> forall a,
  snd (run_prog inp BD (fprog obase e0 l) m) a = if (obase <=? a) && (a <? obase + Wo) then tsum l (a - obase) else snd m a.
Proof.
  intros obase e0 l [[rg sh] out] Ha a. unfold fprog. rewrite run_papp, run_cons.
  assert (Z := zero_seg rg sh out). destruct (run_step _ _ _ _) as [[rg1 sh1] out1]. destruct Z as (-> & Z).
  rewrite run_cons. assert (L := load_seg (col e0 / Wi) rg1 sh1 out). destruct (run_step _ _ _ _) as [[rg2 sh2] out2]. destruct L as (-> & L2 & L3).
  rewrite run_cons, run_bar. change (run_prog inp BD [] (rg2, sh2, out)) with (rg2, sh2, out). rewrite run_papp.
  assert (Q := floop_run l (at_col Wi (col e0)) rg2 sh2 out eq_refl Ha L3). destruct (run_prog inp BD (floop _ l) _) as [[rg3 sh3] out3]. destruct Q as (-> & Q).
  rewrite run_cons. assert (Sg := store_seg obase rg3 sh3 out). destruct (run_step _ _ _ _) as [[rg4 sh4] out4]. unfold run_prog. cbn [fold_left snd]. rewrite Sg.
  destruct (Nat.leb_spec obase a); cbn [andb]; [|reflexivity]. destruct (Nat.ltb_spec a (obase + Wo)); [|reflexivity].
  assert (F : a - obase = BD * ((a - obase) / BD) + (a - obase) mod BD) by (apply Nat.div_mod; lia). assert (G : (a - obase) mod BD < BD) by (apply Nat.mod_upper_bound; lia).
  assert (G' : (a - obase) / BD < E) by (apply Nat.div_lt_upper_bound; lia). rewrite Q, L2, Z by (auto; lia). rewrite Rplus_0_l. f_equal. lia.
Qed.
Lemma fprog_code : forall obase e0 l t, map (fun i => ISet i (fun _ => 0%R)) (seq 0 E) ++ load_row BD E Wi ibase (p_h (at_col Wi (col e0))) t ++ [barrier t] ++
    fwd_loop BD E Wi ps ibase (at_col Wi (col e0)) l t ++ fwd_store BD E Wo obase t = code_of (fprog obase e0 l) t.
Proof.
  intros. unfold fprog. rewrite !code_of_app. rewrite floop_code. replace (code_of [Seg (fwd_store BD E Wo obase)] t) with (fwd_store BD E Wo obase t) by (unfold code_of; cbn [flat_map code1]; now rewrite app_nil_r).
  unfold code_of at 2. cbn [flat_map code1]. rewrite !app_nil_r, <- !app_assoc. reflexivity.
Qed.

(** *** Accesses *)
Definition Wl (t a : nat) : Prop := exists j, j < Wi /\ j mod BD = t /\ (a = j \/ a = Wi + j).
Definition none (t a : nat) : Prop := False.
Definition any (t a : nat) : Prop := True.
Lemma load_conforms : forall h t, t < BD -> Forall (conforms Wl none t) (load_row BD E Wi ibase h t).
Proof.
  intros h t Ht. apply Forall_flat. intros j Hj. apply strided_mod in Hj; auto. destruct Hj as [H1 H2].
  cf; exists j; (split; [auto|split; [auto|lia]]).
Qed.
Lemma acc_conforms : forall p e t, prev_at p e -> Forall (conforms none any t) (fwd_acc BD E ps p e t).
Proof.
  intros p e t Hp. apply Forall_flat. intros i _. cbv zeta. pose proof (prev_w p e Hp). destruct (Nat.ltb_spec (p_w p + col e + ps * (i * BD + t)) (p_col p)); [lia|].
  cf.
Qed.
Variable k : kernel.
Hypotheses (Kt : k_threads k = BD) (Ksh : k_shared k = Wi * 2 + ps * (BD * E - Wo)).
Lemma disc_load : disciplined k Wl none.
Proof.
  intros t t' a _ _ Ne (j & Hj & Hm & Ha). split; [|intros []]. intros (j' & Hj' & Hm' & Ha'). apply Ne. rewrite <- Hm, <- Hm'. f_equal. lia.
Qed.
Lemma disc_acc : disciplined k none any.
Proof. intros t t' a _ _ _ []. Qed.
Lemma floop_safe : forall l p tail, p = at_col Wi (p_col p) -> asc Wi (p_h p) l -> safe k none any tail -> safe k none any (floop p l ++ tail).
Proof.
  induction l as [|e l IH]; intros p tail Ep Ha Ht; [exact Ht|]. destruct Ha as [Hh Ha]. cbn [floop]. cbv zeta. set (p' := next_prev Wi p e). assert (Hp' := next_prev_at p e Ep Hh : prev_at p' e).
  assert (X : safe k none any (Seg (fwd_acc BD E ps p' e) :: floop p' l ++ tail)).
  { split; [intros; apply acc_conforms; auto|]. apply IH; [apply Hp'| |exact Ht]. now rewrite (proj2 Hp'). }
  destruct (new_row Wi p e); cbn [app]; [|exact X]. exists Wl, none. split; [apply disc_load|]. split; [intros t Hl; apply load_conforms; lia|]. exists none, any. split; [apply disc_acc|exact X].
Qed.
Lemma fprog_safe : forall obase e0 l, asc Wi (col e0 / Wi) l -> safe k Wl none (fprog obase e0 l).
Proof.
  intros obase e0 l Ha. unfold fprog. cbn [app]. split; [|split; [intros t Hl; apply load_conforms; lia|]].
  - intros t _. rewrite map_flat. apply Forall_flat. intros i _. cf.
  - exists none, any. split; [apply disc_acc|]. apply floop_safe; auto. split; [|exact I]. intros t _. apply Forall_flat. intros i _. cbv zeta. destruct (Wo <=? _); [constructor|cf].
Qed.

(** *** Bounds *)
Hypothesis Kin : ibase + Hi * Wi <= k_insize k.
Lemma load_bounds : forall h t, h < Hi -> Forall (fun i => in_bounds k i = true) (load_row BD E Wi ibase h t).
Proof.
  intros h t Hh. apply Forall_flat. intros j Hj. apply strided_lt in Hj. fl; cbn [in_bounds]; apply Nat.ltb_lt; [nia| |]; rewrite Ksh; generalize (ps * (BD * E - Wo)); intros; lia.
Qed.
Lemma floop_bounds : forall l p, p = at_col Wi (p_col p) -> asc Wi (p_h p) l -> (forall e, In e l -> col e < Hi * Wi) -> Forall (step_bounds k) (floop p l).
Proof.
  induction l as [|e l IH]; intros p Ep Ha Hc; [constructor|]. destruct Ha as [Hh Ha]. cbn [floop]. cbv zeta. set (p' := next_prev Wi p e). assert (Hp' := next_prev_at p e Ep Hh : prev_at p' e).
  assert (Hce : col e < Hi * Wi) by (apply Hc; now left). apply Forall_app. split; [|constructor].
  - destruct (new_row Wi p e); [|constructor]. repeat constructor. intros t _. apply load_bounds. rewrite (proj2 Hp'). apply Nat.div_lt_upper_bound; lia.
  - intros t Hl. rewrite Kt in Hl. apply Forall_flat. intros i Hi'. apply in_seq in Hi'. cbv zeta. pose proof (prev_w p' e Hp'). destruct (Nat.ltb_spec (p_w p' + col e + ps * (i * BD + t)) (p_col p')); [lia|].
    fl; cbn [in_bounds]; [|reflexivity]. apply Nat.ltb_lt. rewrite Ksh. destruct (div_facts (col e)).
    replace (p_w p' + col e + ps * (i * BD + t) - p_col p') with (col e mod Wi + ps * (i * BD + t)) by lia. assert (i * BD + t < BD * E) by nia. nia.
  - apply IH; [apply Hp'| |intros; apply Hc; now right]. now rewrite (proj2 Hp').
Qed.
Lemma fprog_bounds : forall obase e0 l, asc Wi (col e0 / Wi) l -> (forall e, In e (e0 :: l) -> col e < Hi * Wi) -> obase + Wo <= k_outsize k -> Forall (step_bounds k) (fprog obase e0 l).
Proof.
  intros obase e0 l Ha Hc Ho'. unfold fprog. repeat (apply Forall_app; split).
  - repeat constructor.
    + intros t _. rewrite map_flat. apply Forall_flat. intros i _. repeat constructor.
    + intros t _. apply load_bounds. apply Nat.div_lt_upper_bound; [lia|]. rewrite Nat.mul_comm. apply Hc. now left.
  - apply floop_bounds; auto. intros; apply Hc; now right.
  - repeat constructor. intros t _. apply Forall_flat. intros i _. cbv zeta. destruct (Nat.leb_spec Wo (i * BD + t)); fl. cbn [in_bounds]. apply Nat.ltb_lt. lia.
Qed.
Lemma fprog_owned : forall obase e0 l t, t < BD -> asc Wi (col e0 / Wi) l -> Forall (fun i => forall a, touches i a -> obase <= a < obase + Wo /\ (a - obase) mod BD = t) (code_of (fprog obase e0 l) t).
Proof.
  intros obase e0 l t Ht Ha. unfold fprog. rewrite !code_of_app, !Forall_app. split; [|split].
  - unfold code_of. cbn [flat_map code1 bar]. rewrite !Forall_app. split; [rewrite map_flat; apply Forall_flat; intros; fl; cbn; contradiction|]. split; [apply Forall_flat; intros; fl; cbn; contradiction|]. split; fl; cbn; contradiction.
  - assert (Q : forall l p, p = at_col Wi (p_col p) -> asc Wi (p_h p) l -> Forall (fun i => forall a, touches i a -> obase <= a < obase + Wo /\ (a - obase) mod BD = t) (code_of (floop p l) t)); [|apply Q; auto].
    clear Ha l. induction l as [|e l IH]; intros p Ep Ha; [constructor|]. destruct Ha as [Hh Ha]. cbn [floop]. cbv zeta. set (p' := next_prev Wi p e). assert (Hp' := next_prev_at p e Ep Hh : prev_at p' e).
    rewrite code_of_app. apply Forall_app. split.
    + destruct (new_row Wi p e); [|constructor]. unfold code_of. cbn [flat_map code1 bar]. rewrite !Forall_app. split; [fl; cbn; contradiction|]. split; [apply Forall_flat; intros; fl; cbn; contradiction|]. split; fl; cbn; contradiction.
    + unfold code_of. cbn [flat_map code1]. apply Forall_app. split; [|apply IH; [apply Hp'|now rewrite (proj2 Hp')]]. apply Forall_flat. intros. cbv zeta. destruct (_ <? _); fl; cbn; contradiction.
  - unfold code_of. cbn [flat_map code1]. rewrite app_nil_r. apply Forall_flat. intros i _. cbv zeta. destruct (Nat.leb_spec Wo (i * BD + t)); fl. cbn. intros a <-. split; [lia|].
    replace (obase + (i * BD + t) - obase) with (i * BD + t) by lia. apply row_div. auto.
Qed.
End Group.
