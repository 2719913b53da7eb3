(** The four forward kernels compute the softmax average over the neighbourhood. *)
From Coq Require Import List Arith Lia Bool Reals Lra Permutation.
From Verif Require Import TensorModel TensorProofs BigSum DiscoModel DiscoSortProofs AttnModel AttnSpec AttnCoreProofs.
Import ListNotations.
Local Open Scope R_scope.

Lemma fold_map : forall S X Y (g : Y -> X) (f : S -> X -> S) l st, fold_left (fun st y => f st (g y)) l st = fold_left f (map g l) st.
Proof. intros S X Y g f l. induction l; intros; simpl; auto. Qed.
Lemma col_split : forall c H W, (c < H * W -> c / W < H /\ c mod W < W)%nat.
Proof.
  intros. assert (W <> 0)%nat by (intro; subst; lia). split.
  - apply Nat.div_lt_upper_bound; nia.
  - apply Nat.mod_upper_bound; auto.
Qed.
Lemma rotated_in : forall P W V r j rows H p, pattern_ok P rows (H * W) -> In p (rotated P W V r j) -> (fst p < H /\ snd p < W)%nat.
Proof.
  intros P W V r j rows H p OK Hp. unfold rotated in Hp. apply in_map_iff in Hp. destruct Hp as (c & <- & Hc).
  pose proof (row_bound _ _ _ _ _ OK Hc) as L. destruct (col_split _ _ _ L). cbn [fst snd]. split; auto.
  apply Nat.mod_upper_bound. lia.
Qed.
Lemma scatter_in : forall P Hi Wi Wo ho wo p, In p (nbrs_scatter P Hi Wi Wo ho wo) -> (fst p < Hi /\ snd p < Wi)%nat.
Proof.
  intros. unfold nbrs_scatter in H. apply in_flat_map in H. destruct H as (hi & H1 & H).
  apply in_flat_map in H. destruct H as (wi & H2 & H). apply in_map_iff in H. destruct H as (p' & <- & _).
  apply in_seq in H1. apply in_seq in H2. simpl. lia.
Qed.

Section Fwd.
Variables (Ck Cv Hi Wi Ho Wo : nat) (quad : nat -> R) (P : pattern) (k v q : fld).
Let roff := offsets 0 P.
Let col := columns P.
Hypothesis Hquad : forall h, (h < Hi)%nat -> 0 < quad h.

(** ** Gather, reference *)
Section Gather.
Hypothesis HWi : (1 <= Wi)%nat.
Hypothesis HWo : (1 <= Wo)%nat.
Hypothesis Hdiv : (Wi mod Wo = 0)%nat.
Hypothesis HP : pattern_ok P Ho (Hi * Wi).

Lemma gather_pts_eq : forall ho wo, (ho < Ho)%nat -> map (gather_pt Wi Wo wo) (csr_row roff col ho) = nbrs_gather P Wi Wo ho wo.
Proof. intros. unfold roff, col. rewrite csr_row_spec by (destruct HP; lia). reflexivity. Qed.
Lemma gather_w_pos : forall ho wo p, In p (nbrs_gather P Wi Wo ho wo) -> 0 < quad (fst p).
Proof. intros. apply Hquad. eapply rotated_in in H; [|exact HP]. tauto. Qed.
Lemma torch_cell_run : forall b ho wo, (ho < Ho)%nat ->
  fold_left (fun st c => let p := gather_pt Wi Wo wo c in osm_step (qdotk Ck k q b ho wo p) (quad (fst p)) (v b (fst p) (snd p)) st)
    (csr_row roff col ho) (mkO 0 0 (fun _ => 0)) =
  osm_run (score Ck (k b) (q b) ho wo) (fun p => quad (fst p)) (fun p => v b (fst p) (snd p)) (nbrs_gather P Wi Wo ho wo) (mkO 0 0 (fun _ => 0)).
Proof.
  intros. rewrite <- gather_pts_eq by auto. unfold osm_run.
  rewrite (fold_map _ _ _ (gather_pt Wi Wo wo) (fun st p => osm_step (qdotk Ck k q b ho wo p) (quad (fst p)) (v b (fst p) (snd p)) st)).
  reflexivity.
Qed.
Lemma torch_cell_spec : forall b ho wo, (ho < Ho)%nat -> nbrs_gather P Wi Wo ho wo <> [] ->
  exists y, torch_cell Ck Wi Wo quad roff col k v q b ho wo = Some y /\
  forall c, y c = attn_at Ck quad (nbrs_gather P Wi Wo ho wo) (k b) (v b) (q b) ho wo c.
Proof.
  intros b ho wo Hh Hne. unfold torch_cell. rewrite torch_cell_run by auto.
  destruct (osm_run_final _ (score Ck (k b) (q b) ho wo) (fun p => quad (fst p)) (fun p => v b (fst p) (snd p)) _ 0 (gather_w_pos ho wo) Hne) as (S & E).
  rewrite nz_true by lra. cbn [guard bindo]. eexists. split; [reflexivity|]. exact E.
Qed.
Lemma torch_cell_empty : forall b ho wo, (ho < Ho)%nat -> nbrs_gather P Wi Wo ho wo = [] -> torch_cell Ck Wi Wo quad roff col k v q b ho wo = None.
Proof.
  intros. unfold torch_cell. rewrite torch_cell_run by auto. rewrite H0. unfold osm_run. cbn [fold_left o_sum]. rewrite nz_zero. reflexivity.
Qed.
Theorem gather_fwd_spec : forall B, (forall ho wo, (ho < Ho)%nat -> (wo < Wo)%nat -> nbrs_gather P Wi Wo ho wo <> []) ->
  exists y, gather_fwd Ck Hi Wi Ho Wo quad roff col k v q B = Some y /\
  forall b ho wo c, (b < B)%nat -> (ho < Ho)%nat -> (wo < Wo)%nat ->
    y b ho wo c = attn_at Ck quad (nbrs_gather P Wi Wo ho wo) (k b) (v b) (q b) ho wo c.
Proof.
  intros B Hne. unfold gather_fwd. unfold roff at 1. unfold col at 1. rewrite csr_ok_spec by auto.
  replace (1 <=? Wo)%nat with true by (symmetry; apply Nat.leb_le; auto).
  rewrite Hdiv. cbn [Nat.eqb andb guard bindo].
  destruct (grid3_some _ (fun _ => 0) B Ho Wo (torch_cell Ck Wi Wo quad roff col k v q)
     (fun b ho wo => match torch_cell Ck Wi Wo quad roff col k v q b ho wo with Some y => y | None => fun _ => 0 end)) as (y & Ey & V).
  { intros b ho wo _ Hh Hw. destruct (torch_cell_spec b ho wo Hh (Hne ho wo Hh Hw)) as (y & -> & _). reflexivity. }
  exists y. split; [exact Ey|]. intros b ho wo c Hb Hh Hw. rewrite V by auto.
  destruct (torch_cell_spec b ho wo Hh (Hne ho wo Hh Hw)) as (z & -> & E). apply E.
Qed.
Theorem gather_fwd_empty : forall B ho wo, (1 <= B)%nat -> (ho < Ho)%nat -> (wo < Wo)%nat -> nbrs_gather P Wi Wo ho wo = [] ->
  gather_fwd Ck Hi Wi Ho Wo quad roff col k v q B = None.
Proof.
  intros B ho wo HB Hh Hw He. unfold gather_fwd. destruct (_ && _ && _)%bool; cbn [guard bindo]; [|reflexivity].
  apply (grid3_none _ _ B Ho Wo _ 0%nat ho wo); auto. apply torch_cell_empty; auto.
Qed.

(** ** Gather, CPU *)
Variables (m0 : R) (BS : nat).
Hypothesis HBS : (1 <= BS)%nat.

Definition osm_eqv (a b : osm) : Prop := o_sum a = o_sum b /\ o_max a = o_max b /\ forall c, (c < Cv)%nat -> o_acc a c = o_acc b c.
Lemma osm_eqv_step : forall s w u u' a b, osm_eqv a b -> (forall c, (c < Cv)%nat -> u c = u' c) -> osm_eqv (osm_step s w u a) (osm_step s w u' b).
Proof.
  intros s w u u' a b (E1 & E2 & E3) Hu. unfold osm_step, osm_eqv. cbn [o_sum o_max o_acc]. rewrite E1, E2.
  split; [|split]; auto. intros c Hc. rewrite E3, Hu by auto. reflexivity.
Qed.
Definition proj (st : blk) (wob : nat) : osm := mkO (k_sum st wob) (k_max st wob) (fun c => k_tmp st (wob * Cv + c)%nat).
Definition pt_at (c wo : nat) : nat * nat := (c / Wi, (c mod Wi + Wi / Wo * wo) mod Wi)%nat.
Definition cell_step (b ho : nat) (wo c : nat) (st : osm) : osm :=
  osm_step (score Ck (k b) (q b) ho wo (pt_at c wo)) (quad (c / Wi)%nat) (v b (c / Wi)%nat (snd (pt_at c wo))) st.

Lemma incr_wip : forall x w, (w < Wi)%nat -> (x mod Wi = w)%nat ->
  (if Wi <=? w + Wi / Wo then w + Wi / Wo - Wi else w + Wi / Wo)%nat = ((x + Wi / Wo) mod Wi)%nat.
Proof.
  intros x w Hw E. assert (Hp : (Wi / Wo <= Wi)%nat) by (apply Nat.div_le_upper_bound; nia).
  rewrite Nat.add_mod, E by lia.
  assert (E2 : ((w + (Wi / Wo) mod Wi) mod Wi = (w + Wi / Wo) mod Wi)%nat) by (rewrite Nat.add_mod_idemp_r by lia; reflexivity).
  rewrite E2. destruct (Nat.leb_spec Wi (w + Wi / Wo)).
  - apply (Nat.mod_unique _ _ 1); lia.
  - symmetry. apply Nat.mod_small. lia.
Qed.

Lemma cpu_entry_loop : forall b ho c ws m st, (c / Wi < Hi)%nat ->
  let st0 := mkBlk ((c mod Wi + Wi / Wo * ws) mod Wi) (k_sum st) (k_max st) (k_tmp st) in
  let r := fold_left (cpu_wo Ck Cv Wi Wo quad k v q b ho (c / Wi) ws) (seq ws m) st0 in
  k_wip r = ((c mod Wi + Wi / Wo * (ws + m)) mod Wi)%nat /\
  (forall wob, (wob < m)%nat -> osm_eqv (proj r wob) (cell_step b ho (ws + wob) c (proj st wob))) /\
  (forall wob, (m <= wob)%nat -> osm_eqv (proj r wob) (proj st wob)).
Proof.
  intros b ho c ws m st Hc. induction m.
  - cbn [seq fold_left]. cbv zeta. split; [cbn [k_wip]; rewrite Nat.add_0_r; reflexivity|]. split; [lia|].
    intros. unfold proj. cbn [k_sum k_max k_tmp]. split; [|split]; auto.
  - cbv zeta in *. rewrite seq_S, fold_left_app. cbn [fold_left].
    set (r := fold_left _ (seq ws m) _) in *. destruct IHm as (W & D & U).
    assert (Es : (ws + m - ws = m)%nat) by lia.
    unfold cpu_wo. rewrite Es. cbv zeta. cbn [k_wip k_sum k_max k_tmp].
    set (pt := pt_at c (ws + m)).
    assert (Wm : k_wip r = snd pt) by exact W.
    split; [|split].
    + rewrite W. replace (c mod Wi + Wi / Wo * (ws + S m))%nat with (c mod Wi + Wi / Wo * (ws + m) + Wi / Wo)%nat by lia.
      apply incr_wip; [apply Nat.mod_upper_bound; lia|reflexivity].
    + intros wob Hwob. destruct (Nat.eq_dec wob m) as [->|Hd].
      * unfold proj at 1. cbn [k_sum k_max k_tmp]. rewrite !aset_same.
        assert (Q : osm_eqv (osm_step (score Ck (k b) (q b) ho (ws + m) pt) (quad (c / Wi)%nat) (v b (c / Wi)%nat (snd pt)) (proj r m))
                            (cell_step b ho (ws + m) c (proj st m))).
        { unfold cell_step. apply osm_eqv_step; [apply U; lia|reflexivity]. }
        destruct Q as (Q1 & Q2 & Q3). unfold osm_eqv. cbn [o_sum o_max o_acc]. rewrite <- Q1, <- Q2.
        unfold osm_step. cbn [o_sum o_max o_acc]. unfold score, dot. rewrite <- Wm.
        split; [|split]; try reflexivity.
        intros cc Hcc. rewrite <- Q3 by auto. unfold osm_step. cbn [o_sum o_max o_acc proj]. unfold score. rewrite <- Wm.
        replace ((m * Cv <=? m * Cv + cc) && (m * Cv + cc <? m * Cv + Cv))%nat%bool with true
          by (symmetry; apply andb_true_iff; split; [apply Nat.leb_le|apply Nat.ltb_lt]; lia).
        replace (m * Cv + cc - m * Cv)%nat with cc by lia. reflexivity.
      * assert (L : (wob < m)%nat) by lia. destruct (D wob L) as (Q1 & Q2 & Q3).
        unfold osm_eqv, proj at 1 2 3. cbn [o_sum o_max o_acc k_sum k_max k_tmp]. rewrite !aset_other by lia.
        split; [exact Q1|]. split; [exact Q2|]. intros cc Hcc. rewrite <- Q3 by auto. unfold proj. cbn [o_acc k_tmp].
        destruct (Nat.leb_spec (m * Cv) (wob * Cv + cc)); [nia|]. reflexivity.
    + intros wob Hwob. destruct (U wob) as (Q1 & Q2 & Q3); [lia|].
      unfold osm_eqv, proj at 1 2 3. cbn [o_sum o_max o_acc k_sum k_max k_tmp]. rewrite !aset_other by lia.
      split; [exact Q1|]. split; [exact Q2|]. intros cc Hcc. rewrite <- Q3 by auto. unfold proj. cbn [o_acc k_tmp].
      destruct (Nat.ltb_spec (wob * Cv + cc) (m * Cv + Cv)); [nia|]. rewrite andb_false_r. reflexivity.
Qed.
Lemma cpu_entries : forall b ho ws we l st, (forall c, In c l -> (c / Wi < Hi)%nat) ->
  forall wob acc, (wob < we - ws)%nat -> osm_eqv (proj st wob) acc ->
  osm_eqv (proj (fold_left (cpu_entry Ck Cv Wi Wo quad k v q b ho ws we) l st) wob)
          (fold_left (fun a c => cell_step b ho (ws + wob) c a) l acc).
Proof.
  intros b ho ws we l. induction l; intros st Hl wob acc Hw E; cbn [fold_left]; [exact E|].
  apply IHl; auto. { intros; apply Hl; right; auto. }
  destruct (cpu_entry_loop b ho a ws (we - ws) st (Hl a (or_introl eq_refl))) as (_ & D & _).
  specialize (D wob Hw). unfold cpu_entry. cbv zeta.
  destruct D as (D1 & D2 & D3).
  destruct (osm_eqv_step (score Ck (k b) (q b) ho (ws + wob) (pt_at a (ws + wob))) (quad (a / Wi)%nat) (v b (a / Wi)%nat (snd (pt_at a (ws + wob)))) (v b (a / Wi)%nat (snd (pt_at a (ws + wob)))) _ _ E (fun c _ => eq_refl)) as (F1 & F2 & F3).
  split; [rewrite D1; exact F1|]. split; [rewrite D2; exact F2|]. intros c Hc. rewrite D3 by auto. apply F3. auto.
Qed.
Lemma cpu_entries_at : forall b ho ws we l st wo acc, (forall c, In c l -> (c / Wi < Hi)%nat) -> (wo < we)%nat -> (ws <= wo)%nat -> osm_eqv (proj st (wo - ws)) acc ->
  osm_eqv (proj (fold_left (cpu_entry Ck Cv Wi Wo quad k v q b ho ws we) l st) (wo - ws))
          (fold_left (fun a c => cell_step b ho wo c a) l acc).
Proof.
  intros. assert (E : (ws + (wo - ws) = wo)%nat) by lia.
  pose proof (cpu_entries b ho ws we l st H (wo - ws)%nat acc) as Q. rewrite E in Q. apply Q; [lia|auto].
Qed.
Lemma cells_run : forall b ho wo l st,
  fold_left (fun a c => cell_step b ho wo c a) l st =
  osm_run (score Ck (k b) (q b) ho wo) (fun p => quad (fst p)) (fun p => v b (fst p) (snd p)) (map (fun c => pt_at c wo) l) st.
Proof.
  intros. unfold osm_run.
  rewrite <- (fold_map _ _ _ (fun c => pt_at c wo) (fun st x => osm_step (score Ck (k b) (q b) ho wo x) (quad (fst x)) (v b (fst x) (snd x)) st)).
  reflexivity.
Qed.
Lemma cpu_block_spec : forall junk b ho bwo, (ho < Ho)%nat -> (forall wo, (wo < Wo)%nat -> nbrs_gather P Wi Wo ho wo <> []) ->
  exists y, cpu_block Ck Cv Wi Wo quad roff col k v q m0 BS junk b ho bwo = Some y /\
  forall wo c, (bwo * BS <= wo < Nat.min Wo (bwo * BS + BS))%nat -> (c < Cv)%nat ->
    y wo c = attn_at Ck quad (nbrs_gather P Wi Wo ho wo) (k b) (v b) (q b) ho wo c.
Proof.
  intros junk b ho bwo Hh Hne. unfold cpu_block. cbv zeta.
  set (ws := (bwo * BS)%nat). set (we := Nat.min Wo (ws + BS)).
  set (st := fold_left _ _ _).
  assert (Q : forall wo, (ws <= wo < we)%nat -> osm_eqv (proj st (wo - ws))
     (osm_run (score Ck (k b) (q b) ho wo) (fun p => quad (fst p)) (fun p => v b (fst p) (snd p)) (nbrs_gather P Wi Wo ho wo) (mkO 0 m0 (fun _ => 0)))).
  { intros wo Hwo.
    replace (nbrs_gather P Wi Wo ho wo) with (map (fun c => pt_at c wo) (csr_row roff col ho))
      by (unfold roff, col; rewrite csr_row_spec by (destruct HP; lia); reflexivity).
    rewrite <- cells_run.
    unfold st. apply cpu_entries_at; [| |lia|].
    - intros c Hc. unfold roff, col in Hc. rewrite csr_row_spec in Hc by (destruct HP; lia).
      eapply row_bound in Hc; [|exact HP]. apply col_split in Hc. tauto.
    - lia.
    - unfold proj. cbn [k_sum k_max k_tmp]. split; [|split]; auto. cbn [o_acc]. intros c Hc.
      destruct (Nat.ltb_spec ((wo - ws) * Cv + c) ((we - ws) * Cv)); [reflexivity|]. nia. }
  assert (Q2 : forall wo, (ws <= wo < we)%nat -> 0 < k_sum st (wo - ws)%nat /\ forall c, (c < Cv)%nat ->
      k_tmp st ((wo - ws) * Cv + c)%nat / k_sum st (wo - ws)%nat = attn_at Ck quad (nbrs_gather P Wi Wo ho wo) (k b) (v b) (q b) ho wo c).
  { intros wo Hwo. destruct (Q wo Hwo) as (E1 & _ & E3). unfold proj in E1, E3. cbn [o_sum o_acc] in E1, E3.
    assert (Hn : nbrs_gather P Wi Wo ho wo <> []) by (apply Hne; unfold we in Hwo; lia).
    destruct (osm_run_final _ (score Ck (k b) (q b) ho wo) (fun p => quad (fst p)) (fun p => v b (fst p) (snd p)) _ m0 (gather_w_pos ho wo) Hn) as (S & E).
    rewrite E1. split; [exact S|]. intros c Hc. rewrite E3 by auto. apply E. }
  rewrite guard_true.
  - eexists. split; [reflexivity|]. intros wo c Hwo Hc. cbv beta zeta. destruct (Q2 wo Hwo) as (Sp & E). rewrite <- E by auto. field. lra.
  - apply forallb_forall. intros wo Hwo. apply in_seq in Hwo. apply nz_true. destruct (Q2 wo); [lia|]. lra.
Qed.
Lemma blocks_spec : forall (blkf : nat -> option (nat -> nat -> R)) (g : nat -> nat -> R),
  (forall bwo, exists blk, blkf bwo = Some blk /\ forall wo c, (bwo * BS <= wo < Nat.min Wo (bwo * BS + BS))%nat -> (c < Cv)%nat -> blk wo c = g wo c) ->
  exists y, fold_left (fun acc bwo => do y <- acc; do blk <- blkf bwo;
      Some (fun wo c => if ((bwo * BS <=? wo) && (wo <? Nat.min Wo (bwo * BS + BS)))%nat%bool then blk wo c else y wo c))
    (seq 0 ((Wo + BS - 1) / BS)) (Some (fun _ _ => 0)) = Some y /\ forall wo c, (wo < Wo)%nat -> (c < Cv)%nat -> y wo c = g wo c.
Proof.
  intros blkf g H.
  assert (G : forall n, exists y, fold_left (fun acc bwo => do y <- acc; do blk <- blkf bwo;
      Some (fun wo c => if ((bwo * BS <=? wo) && (wo <? Nat.min Wo (bwo * BS + BS)))%nat%bool then blk wo c else y wo c))
    (seq 0 n) (Some (fun _ _ => 0)) = Some y /\ forall wo c, (wo < Wo)%nat -> (wo < n * BS)%nat -> (c < Cv)%nat -> y wo c = g wo c).
  { induction n.
    - eexists. split; [reflexivity|]. intros. lia.
    - destruct IHn as (y & E & V). rewrite seq_S, fold_left_app. cbn [fold_left]. rewrite E. cbn [bindo plus].
      destruct (H n) as (blk & Eb & Vb). rewrite Eb. cbn [bindo]. eexists. split; [reflexivity|].
      intros wo c Hw Hn Hc. cbv beta. destruct (Nat.leb_spec (n * BS) wo).
      + destruct (Nat.ltb_spec wo (Nat.min Wo (n * BS + BS))); cbn [andb]; [apply Vb; auto|]. simpl in Hn. lia.
      + cbn [andb]. apply V; auto. }
  destruct (G ((Wo + BS - 1) / BS)%nat) as (y & E & V). exists y. split; [exact E|]. intros wo c Hw Hc. apply V; auto.
  pose proof (Nat.mul_succ_div_gt (Wo + BS - 1) BS). nia.
Qed.
Theorem cpu_fwd_spec : forall junk B, (forall ho wo, (ho < Ho)%nat -> (wo < Wo)%nat -> nbrs_gather P Wi Wo ho wo <> []) ->
  exists y, cpu_fwd Ck Cv Hi Wi Ho Wo quad roff col k v q m0 BS junk B = Some y /\
  forall b ho wo c, (b < B)%nat -> (ho < Ho)%nat -> (wo < Wo)%nat -> (c < Cv)%nat ->
    y b ho wo c = attn_at Ck quad (nbrs_gather P Wi Wo ho wo) (k b) (v b) (q b) ho wo c.
Proof.
  intros junk B Hne. unfold cpu_fwd. rewrite guard_true by (unfold roff, col; apply csr_ok_spec; auto).
  assert (R : forall b ho, (ho < Ho)%nat -> exists y, cpu_row Ck Cv Wi Wo quad roff col k v q m0 BS junk b ho = Some y /\
     forall wo c, (wo < Wo)%nat -> (c < Cv)%nat -> y wo c = attn_at Ck quad (nbrs_gather P Wi Wo ho wo) (k b) (v b) (q b) ho wo c).
  { intros b ho Hh. unfold cpu_row. apply blocks_spec. intro bwo. apply cpu_block_spec; auto. }
  destruct (grid3_some _ (fun _ _ => 0) B Ho 1 (fun b ho _ => cpu_row Ck Cv Wi Wo quad roff col k v q m0 BS junk b ho)
     (fun b ho _ => match cpu_row Ck Cv Wi Wo quad roff col k v q m0 BS junk b ho with Some y => y | None => fun _ _ => 0 end)) as (y & Ey & V).
  { intros b ho wo _ Hh _. destruct (R b ho Hh) as (z & -> & _). reflexivity. }
  rewrite Ey. cbn [bindo]. eexists. split; [reflexivity|]. intros b ho wo c Hb Hh Hw Hc. cbv beta.
  rewrite V by (auto; lia). destruct (R b ho Hh) as (z & -> & E). apply E; auto.
Qed.
End Gather.
End Fwd.
