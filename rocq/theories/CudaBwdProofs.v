(** The backward CUDA kernel computes the transposed DISCO contraction under every schedule. *)
From Coq Require Import List Arith Lia Bool Reals Lra Permutation Sorted FunctionalExtensionality.
From Verif Require Import TensorModel TensorProofs BigSum DistSpectralProofs DiscoModel DiscoSpec DiscoSortProofs DiscoRunProofs DiscoKernelProofs DiscoTensorProofs DiscoPackProofs
  GpuModel GpuSpec GpuProofs GpuProofs2 CudaDiscoModel CudaDiscoSpec CudaFwdProofs CudaFwdProofs2.
Import ListNotations.
Local Open Scope nat_scope.

Lemma run_inv' : forall X inp (body : X -> list instr) (I : list X -> tmem -> Prop) L m, I [] m ->
  (forall l x l2 m, L = l ++ x :: l2 -> I l m -> I (l ++ [x]) (run_instrs inp (body x) m)) -> I L (run_instrs inp (flat_map body L) m).
Proof.
  intros X inp body I L m H0 HS.
  assert (Q : forall l2 l m, L = l ++ l2 -> I l m -> I L (run_instrs inp (flat_map body l2) m)).
  { induction l2 as [|x l2 IH]; intros l m' EL Hm; [rewrite app_nil_r in EL; subst; exact Hm|]. cbn [flat_map]. rewrite run_app. apply (IH (l ++ [x])); [rewrite <- app_assoc; exact EL|]. eapply HS; eauto. }
  apply (Q L []); auto.
Qed.
Lemma flat_map_prod : forall X Y Z (f : X -> Y -> list Z) A L, flat_map (fun i => flat_map (f i) L) A = flat_map (fun ij => f (fst ij) (snd ij)) (list_prod A L).
Proof.
  intros. induction A as [|a A IH]; [reflexivity|]. cbn [flat_map list_prod]. rewrite flat_map_app, <- IH. f_equal.
  clear IH. induction L; [reflexivity|]. cbn. now f_equal.
Qed.
Lemma NoDup_prod : forall X Y (A : list X) (L : list Y), NoDup A -> NoDup L -> NoDup (list_prod A L).
Proof.
  intros X Y A L HA HL. induction HA as [|a A Hn HA IH]; [constructor|]. cbn [list_prod].
  assert (Q : forall B : list Y, NoDup B -> NoDup (map (fun y => (a, y)) B ++ list_prod A L)).
  { intros B HB. induction HB as [|b B Hb HB IHB]; [exact IH|]. cbn. constructor; [|exact IHB]. intros H. apply in_app_or in H. destruct H as [H|H].
    - apply in_map_iff in H. destruct H as (y & Ey & Hy). injection Ey as ->. contradiction.
    - apply in_prod_iff in H. destruct H. contradiction. }
  now apply Q.
Qed.
Lemma strided_NoDup : forall d n f a, 1 <= d -> NoDup (strided f a n d).
Proof.
  intros d n. assert (G : forall f a j, 1 <= d -> In j (strided f a n d) -> a <= j).
  { induction f as [|f IH]; intros a j Hd; cbn [strided]; [intros []|]. destruct (a <? n); [|intros []]. intros [<-|H]; [lia|]. apply IH in H; lia. }
  induction f as [|f IH]; intros a Hd; cbn [strided]; [constructor|]. destruct (a <? n); constructor; auto. intros H. apply G in H; lia.
Qed.
Lemma prevw : forall w p e, 1 <= w -> prev_at w p e -> p_w p + col e = p_col p + col e mod w.
Proof. intros. apply (prev_w w 1 w w 1); auto; lia. Qed.
Lemma newrow : forall w p e, 1 <= w -> p = at_col w (p_col p) -> p_h p <= col e / w -> new_row w p e = negb (p_h p =? col e / w).
Proof. intros. apply (new_row_spec w 1 w w 1); auto; lia. Qed.
Lemma nextprev : forall w p e, 1 <= w -> p = at_col w (p_col p) -> p_h p <= col e / w -> prev_at w (next_prev w p e) e.
Proof. intros. apply (next_prev_at w 1 w w 1); auto; lia. Qed.

(** The columns base + i * d + t, i < n, below base + N. *)
Definition sel (d base N t n a : nat) : bool := (base <=? a) && (a <? base + N) && ((a - base) mod d =? t) && ((a - base) / d <? n).
Lemma sel_0 : forall d base N t a, sel d base N t 0 a = false.
Proof. intros. unfold sel. apply andb_false_r. Qed.
Lemma sel_S : forall d base N t n a, t < d -> sel d base N t (Datatypes.S n) a = sel d base N t n a || ((a =? base + (n * d + t)) && (n * d + t <? N)).
Proof.
  intros d base N t n a Ht. unfold sel. destruct (row_div d n t Ht) as [D1 D2].
  destruct (Nat.leb_spec base a); cbn [andb]; [|destruct (Nat.eqb_spec a (base + (n * d + t))); [lia|reflexivity]].
  assert (F : a - base = d * ((a - base) / d) + (a - base) mod d) by (apply Nat.div_mod; lia). set (q := (a - base) / d) in *. set (m := (a - base) mod d) in *.
  destruct (Nat.ltb_spec a (base + N)); cbn [andb].
  - destruct (Nat.eqb_spec m t); cbn [andb].
    + destruct (Nat.eqb_spec a (base + (n * d + t))).
      * assert (q = n) by nia. destruct (Nat.ltb_spec q (Datatypes.S n)), (Nat.ltb_spec (n * d + t) N); lia.
      * cbn [andb]. rewrite orb_false_r. assert (q <> n) by (intros ->; nia). destruct (Nat.ltb_spec q (Datatypes.S n)), (Nat.ltb_spec q n); auto; lia.
    + destruct (Nat.eqb_spec a (base + (n * d + t))); [|reflexivity]. exfalso. apply n0. unfold m. rewrite e. replace (base + (n * d + t) - base) with (n * d + t) by lia. exact D2.
  - destruct (Nat.eqb_spec a (base + (n * d + t))); [|reflexivity]. destruct (Nat.ltb_spec (n * d + t) N); [lia|reflexivity].
Qed.
Lemma sel_here : forall d base N t n, t < d -> sel d base N t n (base + (n * d + t)) = false.
Proof.
  intros. unfold sel. destruct (row_div d n t H) as [D1 D2]. replace (base + (n * d + t) - base) with (n * d + t) by lia. rewrite D1, Nat.ltb_irrefl. apply andb_false_r.
Qed.

Section Group.
Variables (BD E Hi Wi K Ho Wo ps : nat).
Hypotheses (HBD : 1 <= BD) (HWi : 1 <= Wi) (Hps : 1 <= ps) (HW : Wo = ps * Wi) (HE : Wi <= BD * E).
Variables (inp : nat -> R) (ibase obase : nat).
Notation L := (BD * E * 2).
Notation cel := (cell BD E).

Lemma cell_inj : forall i j i' j', j < L -> j' < L -> cel i j = cel i' j' -> i = i' /\ j = j'.
Proof.
  intros i j i' j' H H' X. unfold cell in X. destruct (row_div L i j H) as [A1 A2]. destruct (row_div L i' j' H') as [B1 B2]. rewrite X in A1, A2. rewrite B1 in A1. rewrite B2 in A2. auto.
Qed.
Definition rowv (pp : nat) : R := if pp <? Wi then inp (ibase + pp) else 0%R.
Definition regs_ok (rg : nat -> nat -> R) : Prop := forall t i, t < BD -> i < E -> rg t i = rowv (i * BD + t).

Lemma regs_seg : forall rg sh out, let '(rg', sh', out') := run_step inp BD (rg, sh, out) (Seg (bwd_regs BD E Wi ibase)) in out' = out /\ regs_ok rg'.
Proof.
  intros rg sh out.
  assert (Q := seg_inv inp BD (bwd_regs BD E Wi ibase) (fun n m => let '(rg', sh', out') := m in out' = out /\ (forall t i, t < n -> i < E -> rg' t i = rowv (i * BD + t))) (rg, sh, out)).
  cbv beta in Q. destruct (run_step _ _ _ _) as [[rg' sh'] out']. apply Q.
  - split; auto. lia.
  - intros t [[r1 s1] o1] Ht (A1 & A2). subst o1. unfold turn1, bwd_regs. rewrite map_flat.
    assert (X := run_seq inp (fun i => [if i * BD + t <? Wi then IGet i (ibase + (i * BD + t)) else ISet i (fun _ => 0%R)])
      (fun n m => let '(r', sh', out') := m in out' = out /\ (forall i, i < n -> r' i = rowv (i * BD + t))) E (r1 t, s1, out)).
    cbv beta in X. destruct (run_instrs _ _ _) as [[r2 s2] o2]. destruct X as (-> & X).
    { split; auto. lia. }
    { intros n [[r3 s3] o3] Hn (B1 & B2). unfold run_instrs. cbn [fold_left]. destruct (n * BD + t <? Wi) eqn:Ed; cbn; (split; [auto|]); intros i Hy; unfold put; (destruct (Nat.eqb_spec i n) as [->|]; [|apply B2; lia]); unfold rowv; now rewrite Ed. }
    split; [reflexivity|]. intros t' i Hl Hy. unfold put. destruct (Nat.eqb_spec t' t) as [->|]; [apply X; auto|apply A2; auto; lia].
Qed.
Lemma zero_turn : forall t r sh out, t < BD -> let '(r', sh', out') := run_instrs inp (bwd_zero BD E ps t) (r, sh, out) in
  r' = r /\ out' = out /\ (forall a, (a < ps * L /\ a mod BD = t) \/ sh a = 0%R -> sh' a = 0%R).
Proof.
  intros t r sh out Ht. unfold bwd_zero.
  apply (run_seq inp _ (fun n m => let '(r', sh', out') := m in r' = r /\ out' = out /\ (forall a, (a < n * L /\ a mod BD = t) \/ sh a = 0%R -> sh' a = 0%R))).
  - split; [auto|]. split; [auto|]. intros a [H|H]; [lia|exact H].
  - intros n [[r1 s1] o1] Hn (A1 & A2 & A3). subst r1 o1. cbn [fst snd].
    assert (X := run_inv' _ inp (fun j => [IStore (cel n (j + t)) (fun _ => 0%R)]) (fun l m => let '(r', sh', out') := m in r' = r /\ out' = out /\ (forall a, s1 a = 0%R \/ (exists j, In j l /\ a = cel n (j + t)) -> sh' a = 0%R)) (strided (2 * BD * E) 0 (2 * BD * E) BD) (r, s1, out)).
    cbv beta in X. rewrite map_flat. destruct (run_instrs _ _ _) as [[r2 s2] o2]. destruct X as (X1 & X2 & X3).
    + split; [auto|]. split; [auto|]. intros a [H|(j & [] & _)]. exact H.
    + intros l j l2 [[r2' s2'] o2'] _ (B1 & B2 & B3). cbn. split; [auto|]. split; [auto|]. intros a Ha. unfold put. destruct (Nat.eqb_spec a (cel n (j + t))); [reflexivity|]. apply B3.
      destruct Ha as [Ha|(j' & Hj & Ha)]; [now left|]. right. apply in_app_or in Hj. destruct Hj as [Hj|[->|[]]]; [eauto|contradiction].
    + split; [auto|]. split; [auto|]. intros a Ha. apply X3. destruct (le_lt_dec (n * L) a) as [Hl|Hl]; [|left; apply A3; destruct Ha as [[_ Ha]|Ha]; auto].
      destruct Ha as [[Ha Hm]|Ha]; [|left; apply A3; auto]. right. set (x := a - n * L). assert (Ex : a = n * L + x) by (unfold x; lia).
      assert (Hx : x < L) by lia. assert (Em : x mod BD = t). { rewrite <- Hm, Ex. replace (n * L + x) with (x + n * (E * 2) * BD) by ring. now rewrite Nat.mod_add by lia. }
      exists (x - t). pose proof (Nat.div_mod x BD ltac:(lia)). split; [|unfold cell; lia]. apply strided_in; [lia|lia|]. split; [lia|]. exists (x / BD). lia.
Qed.
Lemma zeros_seg : forall rg sh out, regs_ok rg -> let '(rg', sh', out') := run_step inp BD (rg, sh, out) (Seg (bwd_zero BD E ps)) in
  out' = out /\ regs_ok rg' /\ (forall a, a < ps * L -> sh' a = 0%R).
Proof.
  intros rg sh out Hr.
  assert (Q := seg_inv inp BD (bwd_zero BD E ps) (fun n m => let '(rg', sh', out') := m in rg' = rg /\ out' = out /\ (forall a, a < ps * L -> a mod BD < n -> sh' a = 0%R)) (rg, sh, out)).
  cbv beta in Q. destruct (run_step _ _ _ _) as [[rg' sh'] out']. destruct Q as (Q1 & Q2 & Q3).
  - split; [auto|]. split; [auto|]. lia.
  - intros t [[r1 s1] o1] Ht (A1 & A2 & A3). subst r1 o1. unfold turn1. assert (X := zero_turn t (rg t) s1 out Ht). destruct (run_instrs _ _ _) as [[r2 s2] o2]. destruct X as (-> & -> & X).
    split; [apply put_same|]. split; [reflexivity|]. intros a Ha Hm. apply X. destruct (Nat.eq_dec (a mod BD) t); [left; auto|right; apply A3; auto; lia].
  - subst. split; [auto|]. split; [exact Hr|]. intros a Ha. apply Q3; auto. apply Nat.mod_upper_bound. lia.
Qed.

(** *** Accumulating an entry *)
Definition abase (e : entry) : nat := cel ((col e mod Wo) mod ps) (col e mod Wo / ps).
Lemma Wo_pos : 1 <= Wo. Proof. nia. Qed.
Lemma acc_body : forall p e i t, prev_at Wo p e ->
  (let pp := i * BD + t in let add := fun a => [ILoad E a; IStore a (fun r => r E + pv e * r i)%R] in
    if p_w p + col e <? p_col p then let m := p_col p - (p_w p + col e) in let off := cel (m mod ps) (m / ps) in if pp <? off then [IFault] else add (pp - off)
    else let w := p_w p + col e - p_col p in add (cel (w mod ps) (w / ps + pp))) =
  [ILoad E (abase e + (i * BD + t)); IStore (abase e + (i * BD + t)) (fun r => r E + pv e * r i)%R].
Proof.
  intros p e i t Hp. cbv zeta. pose proof (prevw Wo p e Wo_pos Hp). destruct (Nat.ltb_spec (p_w p + col e) (p_col p)); [lia|].
  replace (p_w p + col e - p_col p) with (col e mod Wo) by lia. unfold abase, cell. rewrite !Nat.add_assoc. reflexivity.
Qed.
Lemma acc_code : forall p e t, prev_at Wo p e -> bwd_acc BD E ps p e t = flat_map (fun i => [ILoad E (abase e + (i * BD + t)); IStore (abase e + (i * BD + t)) (fun r => r E + pv e * r i)%R]) (seq 0 E).
Proof. intros. unfold bwd_acc. apply flat_map_ext. intros i. now apply acc_body. Qed.
Lemma bacc_turn : forall p e t r sh out, prev_at Wo p e -> t < BD -> let '(r', sh', out') := run_instrs inp (bwd_acc BD E ps p e t) (r, sh, out) in
  out' = out /\ (forall i, i < E -> r' i = r i) /\ (forall a, sh' a = if sel BD (abase e) (BD * E) t E a then (sh a + pv e * r ((a - abase e) / BD)%nat)%R else sh a).
Proof.
  intros p e t r sh out Hp Ht. rewrite acc_code by auto.
  apply (run_seq inp _ (fun n m => let '(r', sh', out') := m in out' = out /\ (forall i, i < E -> r' i = r i) /\ (forall a, sh' a = if sel BD (abase e) (BD * E) t n a then (sh a + pv e * r ((a - abase e) / BD)%nat)%R else sh a))).
  - split; [auto|]. split; [auto|]. intros a. now rewrite sel_0.
  - intros n [[r1 s1] o1] Hn (A1 & A2 & A3). subst o1. cbn. split; [auto|]. split; [intros i Hy; rewrite put_ne by lia; auto|].
    intros a. rewrite sel_S by auto. unfold put at 1. destruct (Nat.eqb_spec a (abase e + (n * BD + t))) as [->|].
    + destruct (Nat.ltb_spec (n * BD + t) (BD * E)); [|nia]. rewrite orb_true_r. rewrite put_eq, put_ne by lia. rewrite A2, A3 by auto. rewrite sel_here by auto.
      replace (abase e + (n * BD + t) - abase e) with (n * BD + t) by lia. now rewrite (proj1 (row_div BD n t Ht)).
    + cbn [andb]. rewrite orb_false_r. apply A3.
Qed.
Definition added (e : entry) (sh : nat -> R) (a : nat) : R := if (abase e <=? a) && (a <? abase e + BD * E) then (sh a + pv e * rowv (a - abase e))%R else sh a.
Lemma bacc_seg : forall p e rg sh out, prev_at Wo p e -> regs_ok rg -> let '(rg', sh', out') := run_step inp BD (rg, sh, out) (Seg (bwd_acc BD E ps p e)) in
  out' = out /\ regs_ok rg' /\ (forall a, sh' a = added e sh a).
Proof.
  intros p e rg sh out Hp Hr.
  assert (Q := seg_inv inp BD (bwd_acc BD E ps p e) (fun n m => let '(rg', sh', out') := m in out' = out /\ regs_ok rg' /\
    (forall a, sh' a = if (abase e <=? a) && (a <? abase e + BD * E) && ((a - abase e) mod BD <? n) then (sh a + pv e * rowv (a - abase e))%R else sh a)) (rg, sh, out)).
  cbv beta in Q. destruct (run_step _ _ _ _) as [[rg' sh'] out']. destruct Q as (Q1 & Q2 & Q3).
  - split; [auto|]. split; [auto|]. intros a. now rewrite andb_false_r.
  - intros t [[r1 s1] o1] Ht (A1 & A2 & A3). subst o1. unfold turn1. assert (X := bacc_turn p e t (r1 t) s1 out Hp Ht). destruct (run_instrs _ _ _) as [[r2 s2] o2]. destruct X as (-> & X2 & X3).
    split; [reflexivity|]. split.
    + intros t' i Hl Hy. unfold put. destruct (Nat.eqb_spec t' t) as [->|]; [rewrite X2 by auto|]; apply A2; auto.
    + intros a. rewrite X3, A3. unfold sel. destruct (Nat.leb_spec (abase e) a); cbn [andb]; [|reflexivity]. destruct (Nat.ltb_spec a (abase e + BD * E)); cbn [andb]; [|reflexivity].
      assert (F : a - abase e = BD * ((a - abase e) / BD) + (a - abase e) mod BD) by (apply Nat.div_mod; lia). assert (Q : (a - abase e) / BD < E) by (apply Nat.div_lt_upper_bound; lia).
      destruct (Nat.eqb_spec ((a - abase e) mod BD) t) as [Em|Em]; cbn [andb].
      * destruct (Nat.ltb_spec ((a - abase e) / BD) E); [|lia]. rewrite Em. destruct (Nat.ltb_spec t t); [lia|]. destruct (Nat.ltb_spec t (Datatypes.S t)); [|lia]. rewrite A2 by auto. do 3 f_equal. lia.
      * destruct (Nat.ltb_spec ((a - abase e) mod BD) t), (Nat.ltb_spec ((a - abase e) mod BD) (Datatypes.S t)); auto; lia.
  - split; [auto|]. split; [auto|]. intros a. rewrite Q3. unfold added. pose proof (Nat.mod_upper_bound (a - abase e) BD ltac:(lia)). destruct (Nat.ltb_spec ((a - abase e) mod BD) BD); [|lia]. now rewrite andb_true_r.
Qed.

(** *** Lanes *)
Definition lo (x : nat) : nat := cel (x mod ps) (x / ps).
Definition hi (x : nat) : nat := cel (x mod ps) (Wi + x / ps).
Definition lane (sh : nat -> R) (x : nat) : R := (sh (lo x) + sh (hi x))%R.
Lemma idx_facts : forall x, x < Wo -> x = ps * (x / ps) + x mod ps /\ x mod ps < ps /\ x / ps < Wi.
Proof. intros x Hx. split; [apply Nat.div_mod; lia|]. split; [apply Nat.mod_upper_bound; lia|]. apply Nat.div_lt_upper_bound; lia. Qed.
Lemma lane_added : forall e sh sh' x, (forall a, sh' a = added e sh a) -> x < Wo -> lane sh' x = (lane sh x + bterm Wi Wo ps (fun q => inp (ibase + q)) e x)%R.
Proof.
  intros e sh sh' x HS Hx. pose proof Wo_pos as HWo. rewrite bterm_val by auto. unfold lane. rewrite !HS. unfold added.
  set (w := col e mod Wo). assert (Hw : w < Wo) by (apply Nat.mod_upper_bound; lia). destruct (idx_facts x Hx) as (X1 & X2 & X3). destruct (idx_facts w Hw) as (Y1 & Y2 & Y3).
  unfold abase, lo, hi. fold w. set (l0 := w mod ps) in *. set (d0 := w / ps) in *. set (l := x mod ps) in *. set (j := x / ps) in *.
  destruct (Nat.eqb_spec l0 l) as [El|El].
  - rewrite El. unfold cell.
    assert (P : (j + (Wi - d0)) mod Wi = if d0 <=? j then j - d0 else j + Wi - d0).
    { destruct (Nat.leb_spec d0 j); [symmetry; apply Nat.mod_unique with (q := 1); lia|symmetry; apply Nat.mod_unique with (q := 0); lia]. }
    rewrite P. destruct (Nat.leb_spec d0 j).
    + destruct (Nat.leb_spec (l * L + d0) (l * L + j)); [|lia]. destruct (Nat.ltb_spec (l * L + j) (l * L + d0 + BD * E)); [|lia]. cbn [andb].
      replace (l * L + j - (l * L + d0)) with (j - d0) by lia. unfold rowv. destruct (Nat.ltb_spec (j - d0) Wi); [|lia].
      destruct ((_ <=? _) && _); [|lra]. replace (l * L + (Wi + j) - (l * L + d0)) with (Wi + j - d0) by lia. destruct (Nat.ltb_spec (Wi + j - d0) Wi); [lia|]. ring.
    + destruct (Nat.leb_spec (l * L + d0) (l * L + j)); [lia|]. cbn [andb]. destruct (Nat.leb_spec (l * L + d0) (l * L + (Wi + j))); [|lia]. destruct (Nat.ltb_spec (l * L + (Wi + j)) (l * L + d0 + BD * E)); [|lia]. cbn [andb].
      replace (l * L + (Wi + j) - (l * L + d0)) with (j + Wi - d0) by lia. unfold rowv. destruct (Nat.ltb_spec (j + Wi - d0) Wi); [|lia]. ring.
  - assert (N : forall b, b < L -> (cel l0 d0 <=? cel l b) && (cel l b <? cel l0 d0 + BD * E) = false).
    { intros b Hb. unfold cell. destruct (Nat.leb_spec (l0 * L + d0) (l * L + b)); cbn [andb]; [|reflexivity]. apply Nat.ltb_ge.
      destruct (Nat.lt_trichotomy l0 l) as [T|[T|T]]; [|congruence|exfalso].
      - assert ((l0 + 1) * L <= l * L) by (apply Nat.mul_le_mono_r; lia). lia.
      - assert ((l + 1) * L <= l0 * L) by (apply Nat.mul_le_mono_r; lia). lia. }
    rewrite !N by lia. ring.
Qed.

(** *** Adding the lanes to the output *)
Definition inrow (h a : nat) : bool := (obase + h * Wo <=? a) && (a <? obase + h * Wo + Wo).
Definition rowc (h : nat) (f : nat -> R) (a : nat) : R := if inrow h a then f (a - (obase + h * Wo)) else 0%R.
Lemma lohi : forall x x', x < Wo -> x' < Wo -> (lo x = lo x' -> x = x') /\ (hi x = hi x' -> x = x') /\ lo x <> hi x'.
Proof.
  intros x x' Hx Hx'. destruct (idx_facts x Hx) as (X1 & X2 & X3). destruct (idx_facts x' Hx') as (Y1 & Y2 & Y3). unfold lo, hi.
  split; [|split]; intros Q; apply cell_inj in Q; try lia; destruct Q as [Q1 Q2]; try (rewrite X1, Y1, Q1; nia).
Qed.
(** one pair (i, j) is column j * ps + i *)
Definition pbody (clear : bool) (h i j : nat) : list instr :=
  [ILoad E (cel i j); ILoad (Datatypes.S E) (cel i (Wi + j)); IAtom AAdd (obase + (h * Wo + j * ps + i)) (fun r => r E + r (Datatypes.S E))%R] ++
  (if clear then [IStore (cel i j) (fun _ => 0%R); IStore (cel i (Wi + j)) (fun _ => 0%R)] else []).
Definition pairs (t : nat) : list (nat * nat) := list_prod (seq 0 ps) (strided Wi t Wi BD).
Lemma flush_code : forall clear h t, bwd_flush BD E Wi Wo ps clear obase h t = flat_map (fun ij => pbody clear h (fst ij) (snd ij)) (pairs t).
Proof. intros. unfold bwd_flush, pairs. now rewrite flat_map_prod. Qed.
Definition pcol (ij : nat * nat) : nat := snd ij * ps + fst ij.
Lemma pairs_in : forall t ij, t < BD -> In ij (pairs t) -> fst ij < ps /\ snd ij < Wi /\ snd ij mod BD = t /\ pcol ij < Wo /\ pcol ij mod ps = fst ij /\ pcol ij / ps = snd ij.
Proof.
  intros t [i j] Ht H. unfold pairs in H. apply in_prod_iff in H. destruct H as [H1 H2]. apply in_seq in H1. apply strided_mod in H2; auto. destruct H2 as [H2 H3]. unfold pcol. cbn [fst snd] in *.
  assert (H1' : i < ps) by lia. destruct (row_div ps j i H1') as [A1 A2]. split; [exact H1'|]. split; [exact H2|]. split; [exact H3|]. split; [nia|]. split; auto.
Qed.
Lemma flush_turn : forall clear h t r sh out, t < BD -> let '(r', sh', out') := run_instrs inp (bwd_flush BD E Wi Wo ps clear obase h t) (r, sh, out) in
  (forall i, i < E -> r' i = r i) /\
  (forall x, x < Wo -> (x / ps) mod BD = t -> out' (obase + h * Wo + x) = (out (obase + h * Wo + x)%nat + lane sh x)%R /\ (clear = true -> sh' (lo x) = 0%R /\ sh' (hi x) = 0%R)) /\
  (forall x, x < Wo -> (x / ps) mod BD <> t -> out' (obase + h * Wo + x) = out (obase + h * Wo + x)%nat /\ sh' (lo x) = sh (lo x) /\ sh' (hi x) = sh (hi x)) /\
  (forall a, inrow h a = false -> out' a = out a).
Proof.
  intros clear h t r sh out Ht. rewrite flush_code.
  assert (Q := run_inv' _ inp (fun ij => pbody clear h (fst ij) (snd ij)) (fun l m => let '(r', sh', out') := m in
    (forall i, i < E -> r' i = r i) /\
    (forall ij, In ij l -> out' (obase + h * Wo + pcol ij) = (out (obase + h * Wo + pcol ij)%nat + lane sh (pcol ij))%R /\ (clear = true -> sh' (lo (pcol ij)) = 0%R /\ sh' (hi (pcol ij)) = 0%R)) /\
    (forall x, x < Wo -> (forall ij, In ij l -> x <> pcol ij) -> out' (obase + h * Wo + x) = out (obase + h * Wo + x)%nat /\ sh' (lo x) = sh (lo x) /\ sh' (hi x) = sh (hi x)) /\
    (forall a, inrow h a = false -> out' a = out a)) (pairs t) (r, sh, out)).
  cbv beta in Q. destruct (run_instrs _ _ _) as [[r' sh'] out']. destruct Q as (Q1 & Q2 & Q3 & Q4).
  - split; [auto|]. split; [intros ij []|]. split; auto.
  - intros l [i j] l2 [[r1 s1] o1] EL (A1 & A2 & A3 & A4). assert (Hin : In (i, j) (pairs t)) by (rewrite EL; apply in_or_app; right; now left).
    assert (Hl : forall ij, In ij l -> In ij (pairs t)) by (intros; rewrite EL; apply in_or_app; now left).
    destruct (pairs_in t (i, j) Ht Hin) as (P1 & P2 & P3 & P4 & P5 & P6). set (x0 := pcol (i, j)) in *. cbn [fst snd] in *.
    assert (Nin : forall ij, In ij l -> x0 <> pcol ij).
    { intros [i' j'] Hij X. destruct (pairs_in t (i', j') Ht (Hl _ Hij)) as (R1 & R2 & R3 & R4 & R5 & R6). rewrite <- X in R5, R6. cbn [fst snd] in *.
      assert (ND := NoDup_prod _ _ (seq 0 ps) (strided Wi t Wi BD) (seq_NoDup _ _) (strided_NoDup BD Wi Wi t HBD)). fold (pairs t) in ND. rewrite EL in ND. apply NoDup_remove_2 in ND. apply ND. apply in_or_app. left.
      replace (i, j) with (i', j') by congruence. exact Hij. }
    destruct (A3 x0 P4 Nin) as (B1 & B2 & B3).
    assert (C1 : cel i j = lo x0) by (unfold lo; congruence). assert (C2 : cel i (Wi + j) = hi x0) by (unfold hi; congruence).
    assert (C3 : obase + (h * Wo + j * ps + i) = obase + h * Wo + x0) by (unfold x0, pcol; cbn [fst snd]; lia).
    unfold pbody. rewrite C1, C2, C3.
    assert (Oout : forall rr ss, exists r2 s2 o2, run_instrs inp ([ILoad E (lo x0); ILoad (Datatypes.S E) (hi x0); IAtom AAdd (obase + h * Wo + x0) (fun r => r E + r (Datatypes.S E))%R] ++
        (if clear then [IStore (lo x0) (fun _ => 0%R); IStore (hi x0) (fun _ => 0%R)] else [])) (rr, ss, o1) = (r2, s2, o2) /\ (forall i, i < E -> r2 i = rr i) /\
        o2 = put (obase + h * Wo + x0) (o1 (obase + h * Wo + x0)%nat + (ss (lo x0) + ss (hi x0)))%R o1 /\ s2 = if clear then put (hi x0) 0%R (put (lo x0) 0%R ss) else ss).
    { intros rr ss. destruct clear; cbn; (eexists; eexists; eexists; split; [reflexivity|]; split; [intros i0 Hy; unfold put; destruct (Nat.eqb_spec i0 (Datatypes.S E)); [lia|]; destruct (Nat.eqb_spec i0 E); [lia|reflexivity]|]; split; [|reflexivity]);
        f_equal; rewrite (put_ne _ (Datatypes.S E) E) by lia; rewrite !put_eq; reflexivity. }
    destruct (Oout r1 s1) as (r2 & s2 & o2 & -> & O1 & O2 & O3). subst o2 s2. split; [intros i0 Hy; rewrite O1 by auto; auto|]. split; [|split].
    + intros ij Hij. apply in_app_or in Hij. destruct Hij as [Hij|[<-|[]]].
      * destruct (A2 ij Hij) as [D1 D2]. assert (Nx := Nin ij Hij). destruct (pairs_in t ij Ht (Hl _ Hij)) as (_ & _ & _ & R4 & _). rewrite put_ne by lia. split; [exact D1|]. intros ->. destruct (D2 eq_refl) as [D3 D4].
        destruct (lohi (pcol ij) x0 R4 P4) as (U1 & U2 & U3). destruct (lohi x0 (pcol ij) P4 R4) as (V1 & V2 & V3). rewrite !put_ne by (auto; congruence). split; auto.
      * fold x0. rewrite put_eq, B1, B2, B3. split; [reflexivity|]. intros ->. destruct (lohi x0 x0 P4 P4) as (_ & _ & U3). rewrite put_eq, put_ne, put_eq by congruence. split; auto.
    + intros x Hx Hn. destruct (A3 x Hx) as (D1 & D2 & D3); [intros ij Hij; apply Hn, in_or_app; now left|]. assert (Nx : x <> x0) by (apply Hn; apply in_or_app; right; now left).
      rewrite put_ne by lia. split; [exact D1|]. destruct clear; [|auto]. destruct (lohi x x0 Hx P4) as (U1 & U2 & U3). destruct (lohi x0 x P4 Hx) as (V1 & V2 & V3). rewrite !put_ne by (auto; congruence). split; auto.
    + intros a Ha. rewrite put_ne; [auto|]. intros ->. unfold inrow in Ha. destruct (Nat.leb_spec (obase + h * Wo) (obase + h * Wo + x0)); [|lia]. destruct (Nat.ltb_spec (obase + h * Wo + x0) (obase + h * Wo + Wo)); [discriminate|lia].
  - split; [exact Q1|]. split; [|split; [|exact Q4]].
    + intros x Hx Hm. destruct (idx_facts x Hx) as (X1 & X2 & X3). assert (Ep : pcol (x mod ps, x / ps) = x) by (unfold pcol; cbn; lia). rewrite <- Ep. apply Q2.
      unfold pairs. apply in_prod_iff. split; [apply in_seq; lia|]. apply strided_mod; auto.
    + intros x Hx Hm. apply Q3; auto. intros ij Hij ->. destruct (pairs_in t ij Ht Hij) as (_ & _ & R3 & _ & _ & R6). apply Hm. now rewrite R6.
Qed.
Lemma flush_seg : forall clear h rg sh out, regs_ok rg -> let '(rg', sh', out') := run_step inp BD (rg, sh, out) (Seg (bwd_flush BD E Wi Wo ps clear obase h)) in
  regs_ok rg' /\ (forall a, out' a = (out a + rowc h (lane sh) a)%R) /\ (clear = true -> forall x, x < Wo -> lane sh' x = 0%R).
Proof.
  intros clear h rg sh out Hr.
  assert (Q := seg_inv inp BD (bwd_flush BD E Wi Wo ps clear obase h) (fun n m => let '(rg', sh', out') := m in regs_ok rg' /\
    (forall x, x < Wo -> (x / ps) mod BD < n -> out' (obase + h * Wo + x) = (out (obase + h * Wo + x)%nat + lane sh x)%R /\ (clear = true -> sh' (lo x) = 0%R /\ sh' (hi x) = 0%R)) /\
    (forall x, x < Wo -> n <= (x / ps) mod BD -> out' (obase + h * Wo + x) = out (obase + h * Wo + x)%nat /\ sh' (lo x) = sh (lo x) /\ sh' (hi x) = sh (hi x)) /\
    (forall a, inrow h a = false -> out' a = out a)) (rg, sh, out)).
  cbv beta in Q. destruct (run_step _ _ _ _) as [[rg' sh'] out']. destruct Q as (Q1 & Q2 & Q3 & Q4).
  - split; [auto|]. split; [lia|]. split; auto.
  - intros t [[r1 s1] o1] Ht (A1 & A2 & A3 & A4). unfold turn1. assert (X := flush_turn clear h t (r1 t) s1 o1 Ht). destruct (run_instrs _ _ _) as [[r2 s2] o2]. destruct X as (X1 & X2 & X3 & X4).
    split; [|split; [|split]].
    + intros t' i Hl Hy. unfold put. destruct (Nat.eqb_spec t' t) as [->|]; [rewrite X1 by auto|]; apply A1; auto.
    + intros x Hx Hm. destruct (Nat.eq_dec ((x / ps) mod BD) t) as [Et|Et].
      * destruct (X2 x Hx Et) as [U1 U2]. destruct (A3 x Hx ltac:(lia)) as (V1 & V2 & V3). split; [|exact U2]. rewrite U1, V1. unfold lane. now rewrite V2, V3.
      * destruct (X3 x Hx Et) as (U1 & U2 & U3). destruct (A2 x Hx ltac:(lia)) as (V1 & V2). rewrite U1, U2, U3. split; auto.
    + intros x Hx Hm. destruct (X3 x Hx ltac:(lia)) as (U1 & U2 & U3). destruct (A3 x Hx ltac:(lia)) as (V1 & V2 & V3). split; [congruence|]. split; congruence.
    + intros a Ha. rewrite X4, A4; auto.
  - assert (M : forall x, (x / ps) mod BD < BD) by (intros; apply Nat.mod_upper_bound; lia). split; [exact Q1|]. split.
    + intros a. unfold rowc. destruct (inrow h a) eqn:Ei; [|rewrite Q4 by auto; ring]. unfold inrow in Ei. apply andb_true_iff in Ei. rewrite Nat.leb_le, Nat.ltb_lt in Ei.
      replace a with (obase + h * Wo + (a - (obase + h * Wo))) at 1 2 by lia. apply Q2; auto. lia.
    + intros -> x Hx. destruct (Q2 x Hx (M x)) as [_ U]. destruct (U eq_refl) as [U1 U2]. unfold lane. rewrite U1, U2. ring.
Qed.

(** *** The loop *)
Fixpoint bloop (p : cprev) (l : list entry) : list gstep :=
  match l with
  | [] => []
  | e :: l => let p' := next_prev Wo p e in
      (if new_row Wo p e then [bar; Seg (bwd_flush BD E Wi Wo ps true obase (p_h p)); bar] else []) ++ Seg (bwd_acc BD E ps p' e) :: bar :: bloop p' l
  end.
Lemma bloop_code : forall l p t, bwd_loop BD E Wi Wo ps obase p l t = code_of (bloop p l) t.
Proof.
  induction l as [|e l IH]; intros p t; [reflexivity|]. cbn [bwd_loop bloop]. cbv zeta. rewrite code_of_app. f_equal.
  - destruct (new_row Wo p e); [|reflexivity]. unfold code_of. cbn [flat_map code1 bar app]. now rewrite ?app_nil_r.
  - unfold code_of. cbn [flat_map code1 bar]. f_equal. cbn [app]. f_equal. apply IH.
Qed.
Definition bt (e : entry) (x : nat) : R := bterm Wi Wo ps (fun q => inp (ibase + q)) e x.
Lemma rowc_ext : forall h f g a, (forall x, x < Wo -> f x = g x) -> rowc h f a = rowc h g a.
Proof. intros. unfold rowc. destruct (inrow h a) eqn:Ei; [|reflexivity]. unfold inrow in Ei. apply andb_true_iff in Ei. rewrite Nat.leb_le, Nat.ltb_lt in Ei. apply H. lia. Qed.
Lemma rowc_plus : forall h f g a, rowc h (fun x => f x + g x)%R a = (rowc h f a + rowc h g a)%R.
Proof. intros. unfold rowc. destruct (inrow h a); ring. Qed.
Lemma rowc_zero : forall h a, rowc h (fun _ => 0%R) a = 0%R.
Proof. intros. unfold rowc. now destruct (inrow h a). Qed.
Lemma bloop_run : forall l p rg sh out, p = at_col Wo (p_col p) -> asc Wo (p_h p) l -> regs_ok rg ->
  let '(rg', sh', out') := run_prog inp BD (bloop p l) (rg, sh, out) in
  regs_ok rg' /\ (forall a, (out' a + rowc (p_h (last_prev Wo p l)) (lane sh') a = out a + rowc (p_h p) (lane sh) a + rlsum (fun e => rowc (col e / Wo) (bt e) a) l)%R).
Proof.
  pose proof Wo_pos as HWo. induction l as [|e l IH]; intros p rg sh out Ep Ha Hr.
  - cbn. split; auto. intros. unfold rlsum, lsum_. cbn. ring.
  - destruct Ha as [Hh Ha]. cbn [bloop]. cbv zeta. set (p' := next_prev Wo p e). assert (Hp' := nextprev Wo p e HWo Ep Hh : prev_at Wo p' e).
    rewrite run_papp, run_cons, run_cons.
    assert (X : exists rg1 sh1 out1, run_prog inp BD (if new_row Wo p e then [bar; Seg (bwd_flush BD E Wi Wo ps true obase (p_h p)); bar] else []) (rg, sh, out) = (rg1, sh1, out1) /\ regs_ok rg1 /\
        (forall a, (out1 a + rowc (p_h p') (lane sh1) a = out a + rowc (p_h p) (lane sh) a)%R)).
    { unfold p', next_prev. rewrite newrow by auto. destruct (Nat.eqb_spec (p_h p) (col e / Wo)); cbn [negb].
      - exists rg, sh, out. repeat split; auto.
      - rewrite run_cons, run_bar, run_cons. assert (F := flush_seg true (p_h p) rg sh out Hr). destruct (run_step _ _ _ _) as [[rg1 sh1] out1]. destruct F as (F1 & F2 & F3).
        rewrite run_cons, run_bar. exists rg1, sh1, out1. split; [reflexivity|]. split; [exact F1|]. intros a. rewrite F2. rewrite (rowc_ext _ (lane sh1) (fun _ => 0%R)) by (apply F3; auto). rewrite rowc_zero. ring. }
    destruct X as (rg1 & sh1 & out1 & -> & Hr1 & HX). assert (A := bacc_seg p' e rg1 sh1 out1 Hp' Hr1). destruct (run_step _ _ _ _) as [[rg2 sh2] out2]. destruct A as (-> & Hr2 & A3). rewrite run_bar.
    assert (Q := IH p' rg2 sh2 out1 (proj1 Hp')). rewrite (proj2 Hp') in Q. specialize (Q Ha Hr2). destruct (run_prog _ _ _ _) as [[rg3 sh3] out3]. destruct Q as (Q1 & Q2). split; [exact Q1|].
    intros a. unfold last_prev in *. cbn [fold_left]. fold p'. rewrite Q2. unfold rlsum, lsum_. cbn [fold_right]. rewrite (rowc_ext _ (lane sh2) (fun x => lane sh1 x + bt e x)%R) by (intros; apply lane_added; auto).
    rewrite rowc_plus. specialize (HX a). rewrite (proj2 Hp') in HX. lra.
Qed.

(** *** A whole block *)
Definition bprog (e0 : entry) (l : list entry) : list gstep :=
  [Seg (bwd_regs BD E Wi ibase); Seg (bwd_zero BD E ps); bar] ++ bloop (at_col Wo (col e0)) l ++
  [bar; Seg (bwd_flush BD E Wi Wo ps false obase (p_h (last_prev Wo (at_col Wo (col e0)) l)))].
Lemma bprog_run : forall e0 l m, asc Wo (col e0 / Wo) l -> forall a,
  snd (run_prog inp BD (bprog e0 l) m) a = (snd m a + rlsum (fun e => rowc (col e / Wo) (bt e) a) l)%R.
Proof.
  intros e0 l [[rg sh] out] Ha a. unfold bprog. rewrite run_papp, run_cons.
  assert (Z := regs_seg rg sh out). destruct (run_step _ _ _ _) as [[rg1 sh1] out1]. destruct Z as (-> & Z).
  rewrite run_cons. assert (Y := zeros_seg rg1 sh1 out Z). destruct (run_step _ _ _ _) as [[rg2 sh2] out2]. destruct Y as (-> & Y2 & Y3).
  rewrite run_cons, run_bar. change (run_prog inp BD [] (rg2, sh2, out)) with (rg2, sh2, out). rewrite run_papp.
  assert (Q := bloop_run l (at_col Wo (col e0)) rg2 sh2 out eq_refl Ha Y2). destruct (run_prog inp BD (bloop _ l) _) as [[rg3 sh3] out3]. destruct Q as (Q1 & Q2).
  rewrite run_cons, run_bar, run_cons. assert (F := flush_seg false (p_h (last_prev Wo (at_col Wo (col e0)) l)) rg3 sh3 out3 Q1). destruct (run_step _ _ _ _) as [[rg4 sh4] out4]. destruct F as (_ & F2 & _).
  unfold run_prog. cbn [fold_left snd]. rewrite F2, Q2. rewrite (rowc_ext _ (lane sh2) (fun _ => 0%R)); [rewrite rowc_zero; ring|].
  intros x Hx. destruct (idx_facts x Hx) as (X1 & X2 & X3). unfold lane, lo, hi, cell. assert (x mod ps * L + L <= ps * L) by (replace (x mod ps * L + L) with ((x mod ps + 1) * L) by ring; apply Nat.mul_le_mono_r; lia). rewrite !Y3 by lia. ring.
Qed.
Lemma bprog_code : forall e0 l t, bwd_regs BD E Wi ibase t ++ bwd_zero BD E ps t ++ [barrier t] ++ bwd_loop BD E Wi Wo ps obase (at_col Wo (col e0)) l t ++ [barrier t] ++
    bwd_flush BD E Wi Wo ps false obase (p_h (last_prev Wo (at_col Wo (col e0)) l)) t = code_of (bprog e0 l) t.
Proof.
  intros. unfold bprog. rewrite !code_of_app. rewrite bloop_code. unfold code_of at 2 4. cbn [flat_map code1 bar]. rewrite !app_nil_r, <- !app_assoc. reflexivity.
Qed.

(** *** Accesses *)
Variable k : kernel.
Hypotheses (Kt : k_threads k = BD) (Ksh : k_shared k = 2 * (BD * E) * ps).
Definition Wz (t a : nat) : Prop := a mod BD = t.
Definition Wa (base t a : nat) : Prop := base <= a /\ (a - base) mod BD = t.
Definition Wf (t a : nat) : Prop := exists x, x < Wo /\ (x / ps) mod BD = t /\ (a = lo x \/ a = hi x).
Lemma disc_zero : disciplined k Wz none.
Proof. intros t t' a _ _ Ne H. split; [|intros []]. intros H'. apply Ne. unfold Wz in *. congruence. Qed.
Lemma disc_acc : forall base, disciplined k (Wa base) (Wa base).
Proof. intros base t t' a _ _ Ne [_ H]. split; intros [_ H']; apply Ne; congruence. Qed.
Lemma disc_flush : disciplined k Wf Wf.
Proof.
  intros t t' a _ _ Ne (x & Hx & Hm & Ha). assert (Q : ~ Wf t' a); [|split; exact Q]. intros (x' & Hx' & Hm' & Ha'). apply Ne. destruct (lohi x x' Hx Hx') as (U1 & U2 & U3). destruct (lohi x' x Hx' Hx) as (V1 & V2 & V3).
  assert (x = x'); [|congruence]. destruct Ha, Ha'; subst; try (apply U1; congruence); try (apply U2; congruence); exfalso; congruence.
Qed.
Lemma disc_none : disciplined k none any.
Proof. intros t t' a _ _ _ []. Qed.
Lemma zero_conforms : forall t, t < BD -> Forall (conforms Wz none t) (bwd_zero BD E ps t).
Proof.
  intros t Ht. apply Forall_flat. intros i _. rewrite map_flat. apply Forall_flat. intros j Hj. apply strided_in in Hj; [|lia|lia]. destruct Hj as [_ (m & ->)]. cf. subst. unfold Wz, cell.
  replace (i * L + (m * BD + t)) with (t + (i * (E * 2) + m) * BD) by ring. rewrite Nat.mod_add by lia. now apply Nat.mod_small.
Qed.
Lemma regs_conforms : forall t W Rd, Forall (conforms W Rd t) (bwd_regs BD E Wi ibase t).
Proof. intros t W Rd. unfold bwd_regs. rewrite map_flat. apply Forall_flat. intros i _. destruct (_ <? Wi); cf. Qed.
Lemma bacc_conforms : forall p e t, t < BD -> prev_at Wo p e -> Forall (conforms (Wa (abase e)) (Wa (abase e)) t) (bwd_acc BD E ps p e t).
Proof.
  intros p e t Ht Hp. rewrite acc_code by auto. apply Forall_flat. intros i _.
  cf; subst; (split; [lia|]); replace (abase e + (i * BD + t) - abase e) with (i * BD + t) by lia; apply row_div; auto.
Qed.
Lemma flush_conforms : forall clear h t, t < BD -> Forall (conforms Wf Wf t) (bwd_flush BD E Wi Wo ps clear obase h t).
Proof.
  intros clear h t Ht. rewrite flush_code. apply Forall_flat. intros ij Hij. destruct (pairs_in t ij Ht Hij) as (P1 & P2 & P3 & P4 & P5 & P6).
  assert (Q : forall a, a = cel (fst ij) (snd ij) \/ a = cel (fst ij) (Wi + snd ij) -> Wf t a).
  { intros a Ha. exists (pcol ij). split; [exact P4|]. split; [now rewrite P6|]. unfold lo, hi. now rewrite P5, P6. }
  unfold pbody. destruct clear; cbn [app]; cf; apply Q; auto.
Qed.
Lemma bloop_safe : forall l p h, p = at_col Wo (p_col p) -> asc Wo (p_h p) l ->
  exists W Rd, disciplined k W Rd /\ safe k W Rd (bloop p l ++ [bar; Seg (bwd_flush BD E Wi Wo ps false obase h)]).
Proof.
  pose proof Wo_pos as HWo. induction l as [|e l IH]; intros p h Ep Ha.
  - exists none, any. split; [apply disc_none|]. exists Wf, Wf. split; [apply disc_flush|]. split; [|exact I]. intros t Hl. apply flush_conforms. lia.
  - destruct Ha as [Hh Ha]. cbn [bloop]. cbv zeta. set (p' := next_prev Wo p e). assert (Hp' := nextprev Wo p e HWo Ep Hh : prev_at Wo p' e).
    destruct (IH p' h (proj1 Hp')) as (W & Rd & D & Sa); [now rewrite (proj2 Hp')|].
    assert (X : safe k (Wa (abase e)) (Wa (abase e)) (Seg (bwd_acc BD E ps p' e) :: bar :: bloop p' l ++ [bar; Seg (bwd_flush BD E Wi Wo ps false obase h)])).
    { split; [intros t Hl; apply bacc_conforms; auto; lia|]. exists W, Rd. split; auto. }
    destruct (new_row Wo p e); cbn [app].
    + exists none, any. split; [apply disc_none|]. exists Wf, Wf. split; [apply disc_flush|]. split; [intros t Hl; apply flush_conforms; lia|]. exists (Wa (abase e)), (Wa (abase e)). split; [apply disc_acc|exact X].
    + exists (Wa (abase e)), (Wa (abase e)). split; [apply disc_acc|exact X].
Qed.
Lemma bprog_safe : forall e0 l, asc Wo (col e0 / Wo) l -> safe k Wz none (bprog e0 l).
Proof.
  intros e0 l Ha. unfold bprog. cbn [app]. split; [intros; apply regs_conforms|]. split; [intros t Hl; apply zero_conforms; lia|].
  destruct (bloop_safe l (at_col Wo (col e0)) (p_h (last_prev Wo (at_col Wo (col e0)) l)) eq_refl Ha) as (W & Rd & D & Sa). exists W, Rd. split; auto.
Qed.
Lemma bprog_adds : forall e0 l t, asc Wo (col e0 / Wo) l -> Forall only_add (code_of (bprog e0 l) t).
Proof.
  pose proof Wo_pos as HWo. intros e0 l t Ha. assert (FL : forall c h, Forall only_add (bwd_flush BD E Wi Wo ps c obase h t)).
  { intros c h. unfold bwd_flush. apply Forall_flat. intros i _. apply Forall_flat. intros j _. destruct c; fl; exact I. }
  unfold bprog. rewrite !code_of_app, !Forall_app. split; [|split].
  - unfold code_of. cbn [flat_map code1 bar]. rewrite !Forall_app. split; [unfold bwd_regs; rewrite map_flat; apply Forall_flat; intros i _; destruct (_ <? Wi); fl; exact I|].
    split; [apply Forall_flat; intros; rewrite map_flat; apply Forall_flat; intros; fl; exact I|]. split; fl; exact I.
  - assert (Q : forall l p, p = at_col Wo (p_col p) -> asc Wo (p_h p) l -> Forall only_add (code_of (bloop p l) t)); [|apply Q; auto]. clear Ha l. induction l as [|e l IH]; intros p Ep Ha; [constructor|].
    destruct Ha as [Hh Ha]. cbn [bloop]. cbv zeta. set (p' := next_prev Wo p e). assert (Hp' := nextprev Wo p e HWo Ep Hh : prev_at Wo p' e). rewrite code_of_app, Forall_app. split.
    + destruct (new_row Wo p e); [|constructor]. unfold code_of. cbn [flat_map code1 bar]. rewrite !Forall_app. split; [fl; exact I|]. split; [apply FL|]. split; fl; exact I.
    + unfold code_of. cbn [flat_map code1 bar]. rewrite !Forall_app. split; [rewrite acc_code by auto; apply Forall_flat; intros; fl; exact I|]. split; [fl; exact I|]. apply IH; [apply Hp'|now rewrite (proj2 Hp')].
  - unfold code_of. cbn [flat_map code1 bar]. rewrite !Forall_app. split; [fl; exact I|]. split; [apply FL|constructor].
Qed.

(** *** Bounds *)
Hypotheses (Kin : ibase + Wi <= k_insize k) (Kout : obase + Ho * Wo <= k_outsize k).
Lemma cell_bound : forall i j, i < ps -> j < L -> cel i j < k_shared k.
Proof. intros i j H1 H2. rewrite Ksh. unfold cell. assert ((i + 1) * L <= ps * L) by (apply Nat.mul_le_mono_r; lia). lia. Qed.
Lemma flush_bounds : forall clear h t, h < Ho -> t < BD -> Forall (fun i => in_bounds k i = true) (bwd_flush BD E Wi Wo ps clear obase h t).
Proof.
  intros clear h t Hh Ht. rewrite flush_code. apply Forall_flat. intros ij Hij. destruct (pairs_in t ij Ht Hij) as (P1 & P2 & P3 & P4 & P5 & P6).
  assert (h * Wo + Wo <= Ho * Wo) by (replace (h * Wo + Wo) with ((h + 1) * Wo) by ring; apply Nat.mul_le_mono_r; lia). unfold pcol in P4.
  assert (B1 : cel (fst ij) (snd ij) < k_shared k) by (apply cell_bound; lia). assert (B2 : cel (fst ij) (Wi + snd ij) < k_shared k) by (apply cell_bound; lia).
  unfold pbody. destruct clear; cbn [app]; fl; cbn [in_bounds]; apply Nat.ltb_lt; auto; lia.
Qed.
Lemma bloop_bounds : forall l p, p = at_col Wo (p_col p) -> asc Wo (p_h p) l -> p_h p < Ho -> (forall e, In e l -> col e < Ho * Wo) -> Forall (step_bounds k) (bloop p l) /\ p_h (last_prev Wo p l) < Ho.
Proof.
  pose proof Wo_pos as HWo. induction l as [|e l IH]; intros p Ep Ha Hp Hc; [split; [constructor|exact Hp]|]. destruct Ha as [Hh Ha]. cbn [bloop]. cbv zeta. set (p' := next_prev Wo p e). assert (Hp' := nextprev Wo p e HWo Ep Hh : prev_at Wo p' e).
  assert (Hce : col e < Ho * Wo) by (apply Hc; now left). assert (Hq : p_h p' < Ho) by (rewrite (proj2 Hp'); apply Nat.div_lt_upper_bound; lia).
  destruct (IH p' (proj1 Hp')) as [I1 I2]; [now rewrite (proj2 Hp')|exact Hq|intros; apply Hc; now right|]. split; [|exact I2]. apply Forall_app. split; [|constructor; [|constructor; [exact I|exact I1]]].
  - destruct (new_row Wo p e); [|constructor]. repeat constructor. intros t Hl. apply flush_bounds; auto. lia.
  - intros t Hl. rewrite Kt in Hl. rewrite acc_code by auto. apply Forall_flat. intros i Hy. apply in_seq in Hy.
    assert (Hw : col e mod Wo < Wo) by (apply Nat.mod_upper_bound; lia). destruct (idx_facts _ Hw) as (Y1 & Y2 & Y3).
    assert (abase e + (i * BD + t) < k_shared k). { unfold abase. replace (cel (col e mod Wo mod ps) (col e mod Wo / ps) + (i * BD + t)) with (cel (col e mod Wo mod ps) (col e mod Wo / ps + (i * BD + t))) by (unfold cell; lia). apply cell_bound; [auto|]. assert (i * BD + t < BD * E) by nia. lia. }
    fl; cbn [in_bounds]; now apply Nat.ltb_lt.
Qed.
Lemma bprog_bounds : forall e0 l, asc Wo (col e0 / Wo) l -> (forall e, In e (e0 :: l) -> col e < Ho * Wo) -> Forall (step_bounds k) (bprog e0 l).
Proof.
  pose proof Wo_pos as HWo. intros e0 l Ha Hc. unfold bprog. assert (H0 : col e0 / Wo < Ho) by (apply Nat.div_lt_upper_bound; [lia|]; rewrite Nat.mul_comm; apply Hc; now left).
  destruct (bloop_bounds l (at_col Wo (col e0)) eq_refl Ha H0) as [B1 B2]; [intros; apply Hc; now right|]. rewrite !Forall_app. split; [|split; [exact B1|]].
  - repeat constructor.
    + intros t _. unfold bwd_regs. rewrite map_flat. apply Forall_flat. intros i _. destruct (Nat.ltb_spec (i * BD + t) Wi); fl; cbn [in_bounds]; [apply Nat.ltb_lt; lia|reflexivity].
    + intros t Hl. apply Forall_flat. intros i Hy. apply in_seq in Hy. rewrite map_flat. apply Forall_flat. intros j Hj. apply strided_in in Hj; [|lia|lia]. destruct Hj as [Hj (m & ->)]. fl. cbn [in_bounds]. apply Nat.ltb_lt. apply cell_bound; [lia|]. rewrite Kt in Hl. assert (m < 2 * E) by nia. assert ((m + 1) * BD <= 2 * E * BD) by (apply Nat.mul_le_mono_r; lia). lia.
  - repeat constructor. intros t Hl. apply flush_bounds; auto. lia.
Qed.
End Group.
