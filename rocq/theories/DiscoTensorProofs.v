(** Tensor-level statements: optimised and reference kernels equal the specification. *)
From Coq Require Import List Arith Lia Bool Reals Lra Permutation Sorted.
From Verif Require Import TensorModel TensorProofs BigSum DistSpectralProofs DiscoModel DiscoSpec DiscoSortProofs DiscoRunProofs DiscoKernelProofs.
Import ListNotations.
Local Open Scope nat_scope.

Lemma valid5 : forall a b c d e i, valid [a; b; c; d; e] i ->
  exists p q r s t, i = [p; q; r; s; t] /\ p < a /\ q < b /\ r < c /\ s < d /\ t < e.
Proof.
  intros a b c d e i V. pose proof (valid_len _ _ V) as L.
  destruct i as [|p i]; [discriminate|]. apply valid_cons in V. destruct V as [Hp V].
  assert (L' : length i = 4) by (simpl in L; lia).
  destruct (valid4 _ _ _ _ _ V) as (q & r & s & t & -> & ?). exists p, q, r, s, t. repeat split; tauto.
Qed.
Lemma valid5_intro : forall a b c d e p q r s t, p < a -> q < b -> r < c -> s < d -> t < e -> valid [a; b; c; d; e] [p; q; r; s; t].
Proof. intros. apply valid_cons. split; auto. apply valid4_intro; auto. Qed.

Lemma shape4 : forall (x : tensor R) a b c d, shp x = [a; b; c; d] ->
  ndim x = 4 /\ dimsz x 0 = a /\ dimsz x 1 = b /\ dimsz x 2 = c /\ dimsz x 3 = d.
Proof. intros. unfold ndim, dimsz. rewrite H. auto. Qed.
Lemma shape5 : forall (x : tensor R) a b c d e, shp x = [a; b; c; d; e] ->
  ndim x = 5 /\ dimsz x 0 = a /\ dimsz x 1 = b /\ dimsz x 2 = c /\ dimsz x 3 = d /\ dimsz x 4 = e.
Proof. intros. unfold ndim, dimsz. rewrite H. repeat split; reflexivity. Qed.

Lemma disco_sum_perm : forall w ps es es' f k t q, Permutation es es' -> disco_sum w ps es f k t q = disco_sum w ps es' f k t q.
Proof. intros. unfold disco_sum. apply (lsum_perm RT); auto. Qed.
Lemma disco_adjoint_sum_perm : forall w ps n es es' g h j, Permutation es es' -> disco_adjoint_sum w ps n es g h j = disco_adjoint_sum w ps n es' g h j.
Proof. intros. unfold disco_adjoint_sum. apply (lsum_perm RT); auto. Qed.
Lemma disco_sum_ext : forall w ps es f g k t q Hi, 1 <= w -> (forall e, In e es -> col e < Hi * w) ->
  (forall h j, h < Hi -> j < w -> f h j = g h j) -> disco_sum w ps es f k t q = disco_sum w ps es g k t q.
Proof.
  intros. unfold disco_sum. apply lsum_ext. intros e He. destruct (_ && _); [|reflexivity].
  f_equal. apply H1; [|apply Nat.mod_upper_bound; lia]. apply Nat.div_lt_upper_bound; [lia|]. specialize (H0 e He). lia.
Qed.

Lemma in_range_true : forall K Ho N es, psi_wf K Ho N es -> psi_in_range K Ho N es = true.
Proof.
  intros. unfold psi_in_range. apply forallb_forall. intros e He. destruct (H e He) as (?&?&?).
  rewrite !andb_true_iff, !Nat.ltb_lt. auto.
Qed.
Lemma wf_perm : forall K Ho N es es', Permutation es es' -> psi_wf K Ho N es -> psi_wf K Ho N es'.
Proof. intros K Ho N es es' P W e He. apply W. apply Permutation_in with es'; [symmetry|]; auto. Qed.
Lemma bc_div : forall C b c, c < C -> (b * C + c) / C = b /\ (b * C + c) mod C = c.
Proof.
  intros. split; symmetry; [apply Nat.div_unique with (r := c)|apply Nat.mod_unique with (q := b)]; lia.
Qed.
Lemma mod0_mul : forall a b, 1 <= b -> a mod b = 0 -> a = a / b * b.
Proof. intros. pose proof (Nat.div_mod a b ltac:(lia)). lia. Qed.

(** What preprocessing guarantees, as the kernels use it. *)
Lemma preprocess_runs : forall junk K Ho N es roff es', 1 <= K -> psi_wf K Ho N es -> rows_sorted es -> kernels_separated K es -> es <> [] ->
  preprocess_psi junk K Ho es = Some (roff, es') ->
  exists rs, roff = starts 0 rs /\ es' = concat rs /\ runs_ok rs /\ NoDup (heads rs) /\ Permutation es' es.
Proof.
  intros junk K Ho N es roff es' HK W RS SP NE E. rewrite (preprocess_spec junk K Ho N es HK W RS NE) in E. injection E as <- <-.
  exists (cuts (ksorted K es)). split; [reflexivity|]. split; [symmetry; apply cuts_concat|].
  split; [split|split].
  - intros; eapply cuts_nonempty; eauto.
  - apply cuts_same_key. apply sep_adj; auto.
  - apply cuts_heads_NoDup, ksorted_lex; auto.
  - apply ksorted_perm. intros e He. apply (W e He).
Qed.

Lemma cpu_fwd_spec : forall junk junk' K Ho Wo es roff es' (x : tensor R) B C Hi Wi,
  1 <= K -> psi_wf K Ho (Hi * Wi) es -> rows_sorted es -> kernels_separated K es -> es <> [] ->
  preprocess_psi junk K Ho es = Some (roff, es') ->
  shp x = [B; C; Hi; Wi] -> 1 <= Wi -> 1 <= Wo -> Wi mod Wo = 0 ->
  exists y, disco_cpu_fwd junk' K Ho Wo roff es' x = Some y /\ teq y (tensor_disco K Ho Wo es x).
Proof.
  intros junk junk' K Ho Wo es roff es' x B C Hi Wi HK W RS SP NE PP Sx HWi HWo HM.
  destruct (preprocess_runs _ _ _ _ _ _ _ HK W RS SP NE PP) as (rs & -> & -> & RO & ND & PM).
  destruct (shape4 _ _ _ _ _ Sx) as (N4 & D0 & D1 & D2 & D3).
  unfold disco_cpu_fwd. rewrite N4, D0, D1, D2, D3. cbn [Nat.eqb guard bindo].
  rewrite (in_range_true K Ho (Hi * Wi)) by (eapply wf_perm; [symmetry; exact PM|exact W]).
  rewrite HM. destruct (Nat.leb_spec 1 Wo); [|lia]. cbn [Nat.eqb andb guard bindo].
  set (ps := Wi / Wo). assert (EW : Wi = ps * Wo) by (apply mod0_mul; auto).
  set (pl := fun n h w => val x [n / C; n mod C; h; w]).
  rewrite (mapM_Some _ _ _ (fun n => snd (fold_left (run_step (fwd_g Wi Wo ps (pl n))) rs (junk', fun _ _ _ => 0%R)))).
  2:{ intros n _. apply fwd_rows_runs. apply RO. }
  cbn [bindo]. eexists. split; [reflexivity|].
  split; [unfold tensor_disco; cbn [shp]; rewrite D0, D1; reflexivity|].
  intros i V. cbn [shp] in V. destruct (valid5 _ _ _ _ _ _ V) as (b & c & k & t & w & -> & Hb & Hc & Hk & Ht & Hw).
  unfold tensor_disco. cbn [val nth]. rewrite D3. fold ps.
  match goal with |- nth ?n (map ?f ?l) ?d k t w = _ => set (F := f); rewrite (nth_indep _ d (F 0)) by (rewrite map_length, seq_length; nia); rewrite map_nth end.
  rewrite seq_nth by nia. cbn [Nat.add]. unfold F. clear F.
  destruct (fwd_plane_spec Wi Wo ps junk' (pl (b * C + c)) rs HWo EW HWi RO ND) as (out & E & V').
  rewrite fwd_rows_runs in E by apply RO. injection E as <-. rewrite V' by auto.
  rewrite (disco_sum_perm _ _ _ es) by auto. unfold pl. destruct (bc_div C b c Hc) as [-> ->]. reflexivity.
Qed.

Lemma cpu_bwd_runs : forall Ho Wo rs (y : tensor R) B C K Hi Wi,
  psi_wf K Hi (Ho * Wo) (concat rs) -> runs_ok rs ->
  shp y = [B; C; K; Hi; Wi] -> 1 <= Wo -> 1 <= Wi -> Wo mod Wi = 0 ->
  exists x, disco_cpu_bwd K Ho Wo (starts 0 rs) (concat rs) y = Some x /\ teq x (tensor_disco_adjoint Ho Wo (concat rs) y).
Proof.
  intros Ho Wo rs y B C K Hi Wi W RO Sy HWo HWi HM.
  destruct (shape5 _ _ _ _ _ _ Sy) as (N5 & D0 & D1 & D2 & D3 & D4).
  unfold disco_cpu_bwd. rewrite N5, D0, D1, D2, D3, D4. cbn [Nat.eqb guard bindo].
  rewrite (in_range_true K Hi (Ho * Wo)) by exact W.
  rewrite HM. destruct (Nat.leb_spec 1 Wi); [|lia]. cbn [Nat.eqb andb guard bindo].
  set (ps := Wo / Wi). assert (EW : Wo = ps * Wi) by (apply mod0_mul; auto).
  assert (Hps : 1 <= ps) by nia.
  set (planes := map _ (seq 0 (B * C))).
  destruct (bwd_planes_spec Wi Wo ps rs HWi Hps EW RO planes (fun _ => 0%R)) as (outs & E & L & V').
  { intros i _. split; reflexivity. }
  rewrite E. cbn [bindo]. eexists. split; [reflexivity|].
  split; [unfold tensor_disco_adjoint; cbn [shp]; rewrite D0, D1; reflexivity|].
  intros i V. cbn [shp] in V. destruct (valid4 _ _ _ _ _ V) as (b & c & h & w & -> & Hb & Hc & Hh & Hw).
  unfold tensor_disco_adjoint. cbn [val nth]. rewrite D4. fold ps.
  assert (LP : length planes = B * C) by (unfold planes; rewrite map_length, seq_length; auto).
  rewrite (V' (b * C + c) _ (fun k h w => val y [0 / C; 0 mod C; k; h; w])) by (auto; rewrite LP; nia).
  unfold planes. match goal with |- context [nth ?n (map ?f ?l) ?d] => set (F := f); change d with (F 0); rewrite (map_nth F) end.
  rewrite seq_nth by nia. cbn [Nat.add]. unfold F. clear F.
  destruct (bc_div C b c Hc) as [-> ->]. reflexivity.
Qed.
Lemma cpu_bwd_spec : forall junk Ho Wo es roff es' (y : tensor R) B C K Hi Wi,
  1 <= K -> psi_wf K Hi (Ho * Wo) es -> rows_sorted es -> kernels_separated K es -> es <> [] ->
  preprocess_psi junk K Hi es = Some (roff, es') ->
  shp y = [B; C; K; Hi; Wi] -> 1 <= Wo -> 1 <= Wi -> Wo mod Wi = 0 ->
  exists x, disco_cpu_bwd K Ho Wo roff es' y = Some x /\ teq x (tensor_disco_adjoint Ho Wo es y).
Proof.
  intros junk Ho Wo es roff es' y B C K Hi Wi HK W RS SP NE PP Sy HWo HWi HM.
  destruct (preprocess_runs _ _ _ _ _ _ _ HK W RS SP NE PP) as (rs & -> & -> & RO & ND & PM).
  destruct (cpu_bwd_runs Ho Wo rs y B C K Hi Wi) as (x & E & T); auto.
  { eapply wf_perm; [symmetry; exact PM|exact W]. }
  exists x. split; [exact E|]. eapply teq_trans; [exact T|]. split; [reflexivity|].
  intros i _. unfold tensor_disco_adjoint. cbn [val]. apply disco_adjoint_sum_perm; auto.
Qed.

(** ** Reference kernels *)
Lemma bmm_coalesce : forall K Ho N es w X k t n, (forall e, In e es -> col e < N) ->
  psi_bmm (coalesce K Ho N es) w X k t n =
  rlsum (fun e => if (ker e =? k) && (row e =? t) then (pv e * X k (col e / w)%nat (col e mod w)%nat n)%R else 0%R) es.
Proof.
  intros. unfold psi_bmm, coalesce. cbn [sp_n sp_at].
  rewrite (bsum_ext (r0 := 0%R) (add := Rplus) N _ (fun c => rlsum (fun e => if (ker e =? k) && (row e =? t) && (col e =? c) then (pv e * X k (c / w)%nat (c mod w)%nat n)%R else 0%R) es)).
  2:{ intros c _. rewrite <- (lsum_scal_r RT). apply lsum_ext. intros e _. destruct (_ && _ && _); ring. }
  rewrite <- (lsum_bsum_swap RT). apply lsum_ext. intros e He.
  destruct ((ker e =? k) && (row e =? t)); cbn [andb].
  - rewrite (bsum_ext (r0 := 0%R) (add := Rplus) N _ (fun c => if c =? col e then (pv e * X k (c / w)%nat (c mod w)%nat n)%R else 0%R)).
    2:{ intros c _. rewrite Nat.eqb_sym. reflexivity. }
    rewrite (bsum_delta_f RT) by auto. reflexivity.
  - apply (bsum_zero RT).
Qed.

Lemma roll_loop : forall w s psi n (x0 : nat -> nat -> nat -> nat -> R) y0, 1 <= w ->
  let st := fold_left (fun (st : (nat -> nat -> nat -> nat -> R) * (nat -> nat -> nat -> nat -> R)) pout =>
                  let '(x, y) := st in (roll2 w s x, aset pout (psi_bmm psi w x) y)) (seq 0 n) (x0, y0) in
  (forall k h j m, j < w -> fst st k h j m = x0 k h ((j + s * n) mod w) m) /\
  (forall p, p < n -> forall k t m, snd st p k t m = psi_bmm psi w (fun k h j m => x0 k h ((j + s * p) mod w) m) k t m).
Proof.
  intros w s psi n x0 y0 Hw. induction n.
  - cbn. split; intros; [|lia]. rewrite Nat.mul_0_r, Nat.add_0_r, Nat.mod_small by auto. reflexivity.
  - rewrite seq_S, fold_left_app. cbn [fold_left Nat.add]. cbn zeta in *.
    destruct (fold_left _ (seq 0 n) (x0, y0)) as [x y]. cbn [fst snd] in *. destruct IHn as [IX IY]. split.
    + intros k h j m Hj. unfold roll2. rewrite IX by (apply Nat.mod_upper_bound; lia).
      rewrite Nat.add_mod_idemp_l by lia. do 2 f_equal. lia.
    + intros p Hp k t m. unfold aset. destruct (Nat.eqb_spec p n).
      * subst p. unfold psi_bmm. apply bsum_ext. intros c _. rewrite IX by (apply Nat.mod_upper_bound; lia). reflexivity.
      * apply IY. lia.
Qed.
Lemma torch_fwd_spec : forall K Ho Wo es (x : tensor R) B C Hi Wi,
  psi_wf K Ho (Hi * Wi) es -> shp x = [B; C; Hi; Wi] -> 1 <= Wi -> 1 <= Wo -> Wi mod Wo = 0 -> Ho <= Wi ->
  exists y, disco_torch (coalesce K Ho (Hi * Wi) es) Wo x = Some y /\ teq y (tensor_disco K Ho Wo es x).
Proof.
  intros K Ho Wo es x B C Hi Wi W Sx HWi HWo HM HH.
  destruct (shape4 _ _ _ _ _ Sx) as (N4 & D0 & D1 & D2 & D3).
  unfold disco_torch. rewrite N4, D0, D1, D2, D3. cbn [Nat.eqb guard bindo sp_n sp_h coalesce].
  rewrite Nat.eqb_refl, HM. destruct (Nat.leb_spec 1 Wo); [|lia]. destruct (Nat.leb_spec Ho Wi); [|lia]. cbn [Nat.eqb andb guard bindo].
  set (ps := Wi / Wo). eexists. split; [reflexivity|].
  split; [unfold tensor_disco; cbn [shp sp_k sp_h]; rewrite D0, D1; reflexivity|].
  intros i V. cbn [shp sp_k sp_h] in V. destruct (valid5 _ _ _ _ _ _ V) as (b & c & k & t & w & -> & Hb & Hc & Hk & Ht & Hw).
  cbn [val nth].
  match goal with |- snd (fold_left _ _ (?x0, ?y0)) w k t _ = _ => destruct (roll_loop Wi ps (coalesce K Ho (Hi * Wi) es) Wo x0 y0 HWi) as [_ Y] end.
  cbn zeta in Y. unfold coalesce in Y at 1. unfold coalesce at 1. rewrite Y by auto.
  fold (coalesce K Ho (Hi * Wi) es). rewrite bmm_coalesce by (intros e He; apply (W e He)).
  unfold tensor_disco. cbn [val nth]. rewrite D3. fold ps. unfold disco_sum.
  destruct (bc_div C b c Hc) as [-> ->]. reflexivity.
Qed.

Lemma roll_loop_t : forall w psi n (x0 : nat -> nat -> nat -> nat -> R) y0, 1 <= w ->
  let st := fold_left (fun (st : (nat -> nat -> nat -> nat -> R) * (nat -> nat -> nat -> nat -> R)) pout =>
                  let '(x, y) := st in let x := roll2 w 1 x in (x, aset pout (psi_bmm psi w x) y)) (seq 0 n) (x0, y0) in
  (forall k h j m, j < w -> fst st k h j m = x0 k h ((j + n) mod w) m) /\
  (forall p, p < n -> forall k t m, snd st p k t m = psi_bmm psi w (fun k h j m => x0 k h ((j + (p + 1)) mod w) m) k t m).
Proof.
  intros w psi n x0 y0 Hw. induction n.
  - cbn. split; intros; [|lia]. rewrite Nat.add_0_r, Nat.mod_small by auto. reflexivity.
  - rewrite seq_S, fold_left_app. cbn [fold_left Nat.add]. cbn zeta in *.
    destruct (fold_left _ (seq 0 n) (x0, y0)) as [x y]. cbn [fst snd] in *. destruct IHn as [IX IY].
    assert (R : forall k h j m, roll2 w 1 x k h j m = x0 k h ((j + (n + 1)) mod w) m).
    { intros. unfold roll2. rewrite IX by (apply Nat.mod_upper_bound; lia).
      rewrite Nat.add_mod_idemp_l by lia. do 2 f_equal. lia. }
    split.
    + intros k h j m Hj. rewrite R. do 2 f_equal. lia.
    + intros p Hp k t m. unfold aset. destruct (Nat.eqb_spec p n).
      * subst p. unfold psi_bmm. apply bsum_ext. intros c _. rewrite R. reflexivity.
      * apply IY. lia.
Qed.

(** column of the rolled, zero-interleaved input that reaches output column p *)
Lemma unroll_index : forall Wo ps Wi c p, 1 <= ps -> 1 <= Wi -> Wo = ps * Wi -> c < Wo -> p < Wo ->
  forall (f : nat -> R),
  (if ((Wo - 1 - c + (p + 1)) mod Wo) mod ps =? 0 then f ((Wo - 1 - c + (p + 1)) mod Wo / ps)%nat else 0%R) =
  rsum Wi (fun q => if (c + ps * q) mod Wo =? p then f q else 0%R).
Proof.
  intros Wo ps Wi c p Hps HWi EW Hc Hp f.
  set (m := (Wo - 1 - c + (p + 1)) mod Wo).
  assert (Em : m = if c <=? p then p - c else Wo + p - c).
  { unfold m. destruct (Nat.leb_spec c p).
    - symmetry. apply Nat.mod_unique with (q := 1); lia.
    - symmetry. apply Nat.mod_unique with (q := 0); lia. }
  assert (Hm : m < Wo) by (unfold m; apply Nat.mod_upper_bound; lia).
  assert (F : forall q, q < Wi -> ((c + ps * q) mod Wo =? p) = (ps * q =? m)).
  { intros q Hq. assert (ps * q < Wo) by nia.
    assert (X : (c + ps * q) mod Wo = if c + ps * q <? Wo then c + ps * q else c + ps * q - Wo).
    { destruct (Nat.ltb_spec (c + ps * q) Wo); [apply Nat.mod_small; auto|]. symmetry. apply Nat.mod_unique with (q := 1); lia. }
    rewrite X, Em. destruct (Nat.leb_spec c p), (Nat.ltb_spec (c + ps * q) Wo);
      match goal with |- (?a =? ?b) = (?c =? ?d) => destruct (Nat.eqb_spec a b), (Nat.eqb_spec c d); try reflexivity; lia end. }
  rewrite (bsum_ext (r0 := 0%R) (add := Rplus) Wi _ (fun q => if m mod ps =? 0 then if q =? m / ps then f q else 0%R else 0%R)).
  - destruct (Nat.eqb_spec (m mod ps) 0).
    + rewrite (bsum_delta_f RT); [reflexivity|]. apply Nat.div_lt_upper_bound; lia.
    + rewrite (bsum_zero RT). reflexivity.
  - intros q Hq. rewrite F by auto. pose proof (Nat.div_mod m ps ltac:(lia)).
    destruct (Nat.eqb_spec (m mod ps) 0).
    + destruct (Nat.eqb_spec (ps * q) m), (Nat.eqb_spec q (m / ps)); try reflexivity.
      * exfalso. apply n. nia.
      * exfalso. apply n. nia.
    + destruct (Nat.eqb_spec (ps * q) m); [|reflexivity]. exfalso. apply n. rewrite <- e, Nat.mul_comm. apply Nat.mod_mul. lia.
Qed.
Lemma ceil_ps : forall Wo Wi ps, 1 <= ps -> Wo = ps * Wi -> (Wo + ps - 1) / ps = Wi.
Proof. intros. symmetry. apply Nat.div_unique with (r := ps - 1); lia. Qed.

Lemma torch_transpose_spec : forall K Ho Wo es (y : tensor R) B C Hi Wi,
  psi_wf K Hi (Ho * Wo) es -> shp y = [B; C; K; Hi; Wi] -> 1 <= Wi -> 1 <= Wo -> Wo mod Wi = 0 ->
  exists psi x, get_psi_semi K es Hi Wi Ho Wo = Some psi /\ disco_transpose_torch psi Wo y = Some x /\ teq x (tensor_disco_adjoint Ho Wo es y).
Proof.
  intros K Ho Wo es y B C Hi Wi W Sy HWi HWo HM.
  destruct (shape5 _ _ _ _ _ _ Sy) as (N5 & D0 & D1 & D2 & D3 & D4).
  assert (W' : psi_wf K Ho (Hi * Wo) (map (semi_transpose Wo) es)).
  { intros e He. apply in_map_iff in He. destruct He as (e' & <- & He). destruct (W e' He) as (A & B' & C').
    unfold semi_transpose. cbn [ker row col]. split; [auto|].
    split; [apply Nat.div_lt_upper_bound; lia|]. pose proof (Nat.mod_upper_bound (col e') Wo ltac:(lia)). nia. }
  exists (coalesce K Ho (Hi * Wo) (map (semi_transpose Wo) es)).
  assert (GP : get_psi_semi K es Hi Wi Ho Wo = Some (coalesce K Ho (Hi * Wo) (map (semi_transpose Wo) es))).
  { unfold get_psi_semi. rewrite (in_range_true _ _ _ _ W'). destruct (Nat.leb_spec 1 Wo); [|lia]. reflexivity. }
  rewrite GP. set (ps := Wo / Wi). assert (EW : Wo = ps * Wi) by (apply mod0_mul; auto).
  assert (Hps : 1 <= ps) by nia. assert (WW : Wi <= Wo) by nia.
  unfold disco_transpose_torch. rewrite N5, D0, D1, D2, D3, D4. cbn [Nat.eqb guard bindo sp_n sp_h sp_k coalesce]. fold ps.
  rewrite (ceil_ps Wo Wi ps) by auto. rewrite Nat.mod_mul by lia. rewrite !Nat.eqb_refl.
  destruct (Nat.leb_spec 1 Wo); [|lia]. destruct (Nat.leb_spec 1 Wi); [|lia]. destruct (Nat.leb_spec Wi Wo); [|lia].
  cbn [Nat.eqb andb guard bindo]. eexists. split; [reflexivity|]. split; [reflexivity|].
  split; [unfold tensor_disco_adjoint; cbn [shp]; rewrite D0, D1; reflexivity|].
  intros i V. cbn [shp] in V. destruct (valid4 _ _ _ _ _ V) as (b & c & h & w & -> & Hb & Hc & Hh & Hw).
  cbn [val nth]. 
  match goal with |- context [fold_left _ _ (?x0, ?y0)] =>
    destruct (roll_loop_t Wo (coalesce K Ho (Hi * Wo) (map (semi_transpose Wo) es)) Wo x0 y0 HWo) as [_ Y] end.
  cbn zeta in Y. unfold coalesce at 1 in Y.
  rewrite (bsum_ext (r0 := 0%R) (add := Rplus) K _ (fun k => rlsum (fun e => if (k =? ker e) && (col e / Wo =? h)
     then bterm Wi Wo ps (fun q => val y [b; c; ker e; row e; q]) e w else 0%R) es)).
  - rewrite <- (lsum_bsum_swap RT). unfold tensor_disco_adjoint. cbn [val nth]. rewrite D4. fold ps. unfold disco_adjoint_sum.
    apply lsum_ext. intros e He. destruct (col e / Wo =? h).
    + rewrite (bsum_ext (r0 := 0%R) (add := Rplus) K _ (fun k => if k =? ker e then bterm Wi Wo ps (fun q => val y [b; c; ker e; row e; q]) e w else 0%R)).
      * rewrite (bsum_delta RT) by apply (W e He). reflexivity.
      * intros k _. rewrite andb_true_r. reflexivity.
    + apply (bsum_zero' RT). intros k _. rewrite andb_false_r. reflexivity.
  - intros k Hk. unfold coalesce at 1. rewrite Y by auto.
    fold (coalesce K Ho (Hi * Wo) (map (semi_transpose Wo) es)). rewrite bmm_coalesce by (intros e He; apply (W' e He)).
    rewrite lsum_map. apply lsum_ext. intros e He. unfold semi_transpose. cbn [ker row col pv].
    rewrite (Nat.eqb_sym (ker e) k). destruct (Nat.eqb_spec k (ker e)); [subst k|reflexivity].
    destruct (col e / Wo =? h); [|reflexivity]. cbn [andb]. unfold bterm. f_equal.
    assert (Hcm : col e mod Wo < Wo) by (apply Nat.mod_upper_bound; lia).
    assert (X1 : (row e * Wo + (Wo - 1 - col e mod Wo)) / Wo = row e).
    { symmetry. apply Nat.div_unique with (r := Wo - 1 - col e mod Wo); lia. }
    assert (X2 : (row e * Wo + (Wo - 1 - col e mod Wo)) mod Wo = Wo - 1 - col e mod Wo).
    { symmetry. apply Nat.mod_unique with (q := row e); lia. }
    rewrite X1, X2. destruct (bc_div C b c Hc) as [-> ->].
    apply (unroll_index Wo ps Wi (col e mod Wo) w Hps HWi EW Hcm Hw (fun q => val y [b; c; ker e; row e; q])).
Qed.
