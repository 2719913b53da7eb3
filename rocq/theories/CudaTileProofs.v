(** A kernel that transposes matrices tile by tile computes the transposed matrices, in every order of
    the threads. *)
From Coq Require Import List Arith Lia Bool Reals Lra FunctionalExtensionality.
From Verif Require Import TensorModel TensorProofs BigSum GpuModel GpuSpec GpuProofs GpuProofs2 WarpProofs CudaWarpModel WarpSumProofs CudaFwdProofs CudaAttnModel CudaAttnProofs CudaAttnLaneProofs WarpKernelProofs CudaUtilsModel.
Import ListNotations.
Local Open Scope nat_scope.

Section Group.
Variables (inp : nat -> R) (BX BY nrow ncol roff coff : nat) (src dst : nat -> nat -> nat).
Hypotheses (HX : 1 <= BX) (HY : 1 <= BY) (HXY : BX mod BY = 0).
Notation nT := (BX * BY).
Notation tx := (tx BX). Notation ty := (ty BX). Notation steps := (steps BX BY). Notation tcell := (tcell BX).

Lemma tx_lt : forall t, tx t < BX. Proof. intros. apply Nat.mod_upper_bound. lia. Qed.
Lemma ty_lt : forall t, t < nT -> ty t < BY. Proof. intros. apply Nat.div_lt_upper_bound; lia. Qed.
Lemma t_split : forall t, t = ty t * BX + tx t.
Proof. intros. unfold CudaUtilsModel.ty, CudaUtilsModel.tx. rewrite Nat.mul_comm. apply Nat.div_mod. lia. Qed.
Lemma t_join : forall y x, x < BX -> ty (y * BX + x) = y /\ tx (y * BX + x) = x.
Proof. intros y x H. unfold CudaUtilsModel.ty, CudaUtilsModel.tx. rewrite Nat.add_comm, Nat.div_add, Nat.mod_add, Nat.div_small, Nat.mod_small by lia. auto. Qed.
Lemma in_steps : forall j, In j steps <-> j < BX /\ j mod BY = 0.
Proof. intros j. unfold CudaUtilsModel.steps. apply strided_mod. lia. Qed.
(** row (or column) j + y of a tile is touched by the threads with this y only *)
Lemma step_row : forall j y, In j steps -> y < BY -> j + y < BX /\ (j + y) mod BY = y.
Proof.
  intros j y H Hy. apply in_steps in H. destruct H as [H1 H2]. apply Nat.mod_divides in H2; [|lia]. destruct H2 as [q ->]. apply Nat.mod_divides in HXY; [|lia]. destruct HXY as [p Ep]. split.
  - rewrite Ep in H1 |- *. assert (q < p) by (apply (proj2 (Nat.mul_lt_mono_pos_l BY q p ltac:(lia))); exact H1). assert (BY * (q + 1) <= BY * p) by (apply Nat.mul_le_mono_l; lia). lia.
  - rewrite Nat.mul_comm, Nat.add_comm, Nat.mod_add, Nat.mod_small; lia.
Qed.
Lemma row_step : forall i, i < BX -> exists j, In j steps /\ j + i mod BY = i.
Proof.
  intros i Hi. exists (i - i mod BY). assert (Q := Nat.div_mod i BY ltac:(lia)). assert (Q2 := Nat.mod_upper_bound i BY ltac:(lia)). split; [|lia].
  apply in_steps. split; [lia|]. replace (i - i mod BY) with (i / BY * BY) by lia. apply Nat.mod_mul. lia.
Qed.
Lemma cell_row : forall i j, j < BX -> tcell i j / (BX + 1) = i /\ tcell i j mod (BX + 1) = j.
Proof. intros i j H. unfold CudaUtilsModel.tcell. rewrite Nat.add_comm, Nat.div_add, Nat.mod_add, Nat.div_small, Nat.mod_small by lia. auto. Qed.
Lemma cell_lt : forall i j, i < BX -> j < BX -> tcell i j < BX * (BX + 1).
Proof. intros. unfold CudaUtilsModel.tcell. nia. Qed.

(** the thread that fills a shared cell *)
Definition town (a : nat) : nat := if (a / (BX + 1) <? BX) && (a mod (BX + 1) <? BX) then (a / (BX + 1)) mod BY * BX + a mod (BX + 1) else nT.
Lemma town_cell : forall i j, i < BX -> j < BX -> town (tcell i j) = i mod BY * BX + j.
Proof. intros i j Hi Hj. unfold town. destruct (cell_row i j Hj) as [-> ->]. destruct (Nat.ltb_spec i BX), (Nat.ltb_spec j BX); try lia. reflexivity. Qed.
Lemma town_lt : forall i j, i < BX -> j < BX -> town (tcell i j) < nT.
Proof. intros i j Hi Hj. rewrite town_cell by auto. assert (i mod BY < BY) by (apply Nat.mod_upper_bound; lia). nia. Qed.
Lemma town_mine : forall t j, t < nT -> In j steps -> town (tcell (j + ty t) (tx t)) = t.
Proof. intros t j Ht Hj. destruct (step_row j (ty t) Hj (ty_lt t Ht)) as [H1 H2]. rewrite town_cell by (auto using tx_lt). rewrite H2. symmetry. apply t_split. Qed.

(** ** The full tile is the general case *)
Definition load1 (t j : nat) : list instr :=
  [if roff + j + ty t <? nrow then IGet 0 (src (roff + j + ty t) (coff + tx t)) else ISet 0 (fun _ => 0%R); IStore (tcell (j + ty t) (tx t)) (fun r => r 0)].
Definition store1 (t j : nat) : list instr :=
  if coff + j + ty t <? ncol then [ILoad 0 (tcell (tx t) (j + ty t)); IOut (dst (coff + j + ty t) (roff + tx t)) (fun r => r 0)] else [].
Lemma flat_map_in : forall X Y (f g : X -> list Y) l, (forall x, In x l -> f x = g x) -> flat_map f l = flat_map g l.
Proof. induction l; intros H; [reflexivity|]. cbn. rewrite H by now left. rewrite IHl; auto. intros. apply H. now right. Qed.
Lemma load_eq : forall t, t < nT -> tile_load BX BY nrow ncol roff coff src t = if coff + tx t <? ncol then flat_map (load1 t) steps else [].
Proof.
  intros t Ht. unfold tile_load, tile_full. destruct (Nat.leb_spec BX (nrow - roff)); [|reflexivity]. destruct (Nat.leb_spec BX (ncol - coff)); [|reflexivity]. cbn [andb].
  assert (X := tx_lt t). destruct (Nat.ltb_spec (coff + tx t) ncol); [|lia]. apply flat_map_in. intros j Hj. destruct (step_row j (ty t) Hj (ty_lt t Ht)). unfold load1.
  destruct (Nat.ltb_spec (roff + j + ty t) nrow); [reflexivity|lia].
Qed.
Lemma store_eq : forall t, t < nT -> tile_store BX BY nrow ncol roff coff dst t = if roff + tx t <? nrow then flat_map (store1 t) steps else [].
Proof.
  intros t Ht. unfold tile_store, tile_full. destruct (Nat.leb_spec BX (nrow - roff)); [|reflexivity]. destruct (Nat.leb_spec BX (ncol - coff)); [|reflexivity]. cbn [andb].
  assert (X := tx_lt t). destruct (Nat.ltb_spec (roff + tx t) nrow); [|lia]. apply flat_map_in. intros j Hj. destruct (step_row j (ty t) Hj (ty_lt t Ht)). unfold store1.
  destruct (Nat.ltb_spec (coff + j + ty t) ncol); [reflexivity|lia].
Qed.

(** ** What the group does *)
(** what cell a of the shared array holds after the first half *)
Definition tval (a : nat) : R := let i := a / (BX + 1) in let j := a mod (BX + 1) in if roff + i <? nrow then inp (src (roff + i) (coff + j)) else 0%R.
Lemma load_run : forall t l rg sh, (forall j, In j l -> In j steps) -> let m := lrun inp (flat_map (load1 t) l) (rg, sh) in
  snd m = [] /\ forall a, (In a (map (fun j => tcell (j + ty t) (tx t)) l) -> snd (fst m) a = tval a) /\ (~ In a (map (fun j => tcell (j + ty t) (tx t)) l) -> snd (fst m) a = sh a).
Proof.
  intros t. induction l as [|j l IH]; intros rg sh Hl.
  { cbn. split; [reflexivity|]. intros a. split; [intros []|reflexivity]. }
  cbn zeta. cbn [flat_map]. unfold load1 at 1 3 5. cbn [app]. rewrite !lrun_cons. cbn [fst snd emit].
  match goal with |- context [lrun inp (flat_map (load1 t) l) (?r, ?s)] => destruct (IH r s (fun j' H => Hl j' (or_intror H))) as [I1 I2] end. rewrite I1. split; [destruct (_ <? nrow); reflexivity|]. intros a. cbn [map].
  assert (E : tval (tcell (j + ty t) (tx t)) = if roff + j + ty t <? nrow then inp (src (roff + j + ty t) (coff + tx t)) else 0%R).
  { unfold tval. destruct (cell_row (j + ty t) (tx t) (tx_lt t)) as [-> ->]. now rewrite Nat.add_assoc. }
  destruct (I2 a) as [A B]. split.
  - intros [<-|H]; [|now apply A]. destruct (in_dec Nat.eq_dec (tcell (j + ty t) (tx t)) (map (fun j => tcell (j + ty t) (tx t)) l)) as [H|H]; [now apply A|].
    rewrite B by auto. cbn [sh_of]. rewrite put_eq. rewrite E. destruct (_ <? nrow); cbn [reg_of sh_of]; apply put_eq.
  - intros H. rewrite B by (intros Q; apply H; now right). cbn [sh_of]. rewrite put_ne by (intros ->; apply H; now left). destruct (_ <? nrow); reflexivity.
Qed.
Definition tile_trace (t : nat) : list (nat * uop * R) :=
  if roff + tx t <? nrow then flat_map (fun j => if coff + j + ty t <? ncol then [(dst (coff + j + ty t) (roff + tx t), USet, inp (src (roff + tx t) (coff + j + ty t)))] else []) steps else [].
Lemma store_run : forall t l rg sh, t < nT -> (forall j, In j l -> In j steps) -> roff + tx t < nrow -> (forall i j, i < BX -> j < BX -> roff + i < nrow -> coff + j < ncol -> sh (tcell i j) = inp (src (roff + i) (coff + j))) ->
  snd (lrun inp (flat_map (store1 t) l) (rg, sh)) = flat_map (fun j => if coff + j + ty t <? ncol then [(dst (coff + j + ty t) (roff + tx t), USet, inp (src (roff + tx t) (coff + j + ty t)))] else []) l.
Proof.
  intros t l rg sh Ht. revert rg. induction l as [|j l IH]; intros rg Hl Hr V; [reflexivity|]. cbn [flat_map]. unfold store1 at 1. destruct (step_row j (ty t) (Hl j (or_introl eq_refl)) (ty_lt t Ht)) as [H1 _].
  destruct (Nat.ltb_spec (coff + j + ty t) ncol) as [L|L]; cbn [app]; [|now apply IH; auto; intros; apply Hl; right].
  rewrite !lrun_cons. cbn [fst snd emit reg_of sh_of app]. rewrite put_eq. f_equal; [|apply IH; auto; intros; apply Hl; now right].
  rewrite V by (auto using tx_lt; lia). now rewrite Nat.add_assoc.
Qed.
Lemma tile_run : forall rg sh out, snd (run_prog inp nT (tile BX BY nrow ncol roff coff src dst) (rg, sh, out)) = upds (flat_map tile_trace (seq 0 nT)) out.
Proof.
  intros rg sh out. unfold tile, run_prog. cbn [fold_left].
  assert (C1 : forall t, t < nT -> Forall (conforms (wr town (fun _ => false) false) (vis town (fun _ => false) false) t) (tile_load BX BY nrow ncol roff coff src t)).
  { intros t Ht. rewrite load_eq by auto. destruct (_ <? ncol); [|constructor]. apply Forall_forall. intros i Hi. apply in_flat_map in Hi. destruct Hi as (j & Hj & Hi). destruct Hi as [<-|[<-|[]]].
    - destruct (_ <? nrow); (split; [reflexivity|]); intros a; cbn; split; intros [].
    - split; [reflexivity|]. intros a. cbn. split; [|intros []]. intros <-. split; [now apply town_mine|discriminate]. }
  assert (Q1 := fseg inp nT town (fun _ => false) false _ rg sh out (fun t => (rg t, sh)) C1 (fun t => conj eq_refl (fun _ a _ => eq_refl))).
  destruct (run_step inp nT (rg, sh, out) (Seg (tile_load BX BY nrow ncol roff coff src))) as [[rg1 sh1] out1]. destruct Q1 as [V1 E1].
  assert (Eo : out1 = out).
  { rewrite E1. cbn [ftrace1]. replace (flat_map _ (seq 0 nT)) with (@nil (nat * uop * R)); [reflexivity|]. symmetry. rewrite (flat_map_in _ _ _ (fun _ => [])); [clear; induction (seq 0 nT); auto|].
    intros t Ht. apply in_seq in Ht. rewrite load_eq by lia. destruct (_ <? ncol); [|reflexivity]. now apply load_run. }
  clear E1. subst out1.
  assert (V : forall i j, i < BX -> j < BX -> roff + i < nrow -> coff + j < ncol -> sh1 (tcell i j) = inp (src (roff + i) (coff + j))).
  { intros i j Hi Hj H1 H2. assert (T := town_lt i j Hi Hj). destruct (V1 (town (tcell i j))) as [_ V]. rewrite <- V by (auto; now left). unfold after. rewrite (proj2 (Nat.ltb_lt _ _) T).
    rewrite town_cell by auto. rewrite town_cell in T by auto. rewrite load_eq by auto. destruct (t_join (i mod BY) j Hj) as [Ey Ex]. rewrite Ex. rewrite (proj2 (Nat.ltb_lt _ _) H2).
    destruct (load_run (i mod BY * BX + j) steps (rg (i mod BY * BX + j)) sh (fun _ H => H)) as [_ L]. destruct (L (tcell i j)) as [L1 _]. rewrite L1.
    - unfold tval. destruct (cell_row i j Hj) as [-> ->]. destruct (Nat.ltb_spec (roff + i) nrow); [reflexivity|lia].
    - apply in_map_iff. destruct (row_step i Hi) as (j0 & Hj0 & E0). exists j0. rewrite Ey, Ex, E0. auto. }
  cbn [run_step]. change (fold_left (turn1 inp (tile_store BX BY nrow ncol roff coff dst)) (seq 0 nT) (fun t => if t <? nT then rg1 t else rg1 t, sh1, out)) with
    (run_step inp nT (fun t => if t <? nT then rg1 t else rg1 t, sh1, out) (Seg (tile_store BX BY nrow ncol roff coff dst))).
  replace (fun t => if t <? nT then rg1 t else rg1 t) with rg1 by (apply functional_extensionality; intros t; now destruct (t <? nT)).
  assert (C2 : forall t, t < nT -> Forall (conforms (wr town (fun _ => true) true) (vis town (fun _ => true) true) t) (tile_store BX BY nrow ncol roff coff dst t)).
  { intros t Ht. rewrite store_eq by auto. destruct (_ <? nrow); [|constructor]. apply Forall_forall. intros i Hi. apply in_flat_map in Hi. destruct Hi as (j & Hj & Hi). unfold store1 in Hi. destruct (_ <? ncol); [|destruct Hi].
    destruct Hi as [<-|[<-|[]]]; (split; [reflexivity|]); intros a; cbn; split; intros H; try contradiction. right. auto. }
  assert (Q2 := fseg inp nT town (fun _ => true) true _ rg1 sh1 out (fun t => (rg1 t, sh1)) C2 (fun t => conj eq_refl (fun _ a _ => eq_refl))).
  destruct (run_step inp nT (rg1, sh1, out) _) as [[rg2 sh2] out2]. destruct Q2 as [_ ->]. cbn [snd ftrace1]. f_equal. apply flat_map_in. intros t Ht. apply in_seq in Ht. rewrite store_eq by lia. unfold tile_trace.
  destruct (Nat.ltb_spec (roff + tx t) nrow); [|reflexivity]. apply store_run; auto. lia.
Qed.
End Group.

(** ** A launch over all tiles of [gz] matrices *)
Section Launch.
Variables (k : kernel) (BX BY nrow ncol gz : nat) (src dst : nat -> nat -> nat -> nat) (zof rof cof : nat -> nat).
Notation gx := (div_up' nrow BX). Notation gy := (div_up' ncol BX). Notation nT := (BX * BY).
Hypotheses (HX : 1 <= BX) (HY : 1 <= BY) (HXY : BX mod BY = 0).
Hypotheses (Hsrc : forall z r c, z < gz -> r < nrow -> c < ncol -> src z r c < k_insize k) (Hdst : forall z r c, z < gz -> r < nrow -> c < ncol -> dst z c r < k_outsize k).
Hypothesis (Hinv : forall z r c, z < gz -> r < nrow -> c < ncol -> zof (dst z c r) = z /\ rof (dst z c r) = r /\ cof (dst z c r) = c).
Hypotheses (Kg : k_groups k = gz * gy * gx) (Kt : k_threads k = nT) (Ks : k_shared k = BX * (BX + 1)).
Definition prog (g : nat) : list gstep := tile BX BY nrow ncol (g mod gx * BX) (g / gx mod gy * BX) (src (g / gx / gy)) (dst (g / gx / gy)).
Hypothesis (Kc : forall g t, k_code k g t = code_of (prog g) t).

Lemma tiles_of : forall n i, i < n -> i / BX < div_up' n BX.
Proof. intros n i H. unfold div_up'. apply Nat.div_lt_upper_bound; [lia|]. assert (Q := Nat.div_mod (n + (BX - 1)) BX ltac:(lia)). assert (Q2 := Nat.mod_upper_bound (n + (BX - 1)) BX ltac:(lia)). lia. Qed.
Lemma group_split : forall g, g < k_groups k -> g mod gx < gx /\ g / gx mod gy < gy /\ g / gx / gy < gz /\ g = (g / gx / gy * gy + g / gx mod gy) * gx + g mod gx.
Proof.
  intros g Hg. rewrite Kg in Hg. assert (gx <> 0) by (intros E; rewrite E in Hg; lia). assert (gy <> 0) by (intros E; rewrite E in Hg; lia).
  split; [now apply Nat.mod_upper_bound|]. split; [now apply Nat.mod_upper_bound|]. split.
  - apply Nat.div_lt_upper_bound; [lia|]. apply Nat.div_lt_upper_bound; [lia|]. nia.
  - assert (Q1 := Nat.div_mod g gx ltac:(lia)). assert (Q2 := Nat.div_mod (g / gx) gy ltac:(lia)). nia.
Qed.
(** the thread that writes an address *)
Definition wown (a : nat) : nat * nat := ((zof a * gy + cof a / BX) * gx + rof a / BX, (cof a mod BX) mod BY * BX + rof a mod BX).
Lemma wown_at : forall g t j, g < k_groups k -> t < nT -> In j (steps BX BY) -> g mod gx * BX + tx BX t < nrow -> g / gx mod gy * BX + j + ty BX t < ncol ->
  wown (dst (g / gx / gy) (g / gx mod gy * BX + j + ty BX t) (g mod gx * BX + tx BX t)) = (g, t).
Proof.
  intros g t j Hg Ht Hj Hr Hc. destruct (group_split g Hg) as (G1 & G2 & G3 & G4). destruct (Hinv (g / gx / gy) _ _ G3 Hr Hc) as (E1 & E2 & E3). unfold wown. rewrite E1, E2, E3.
  assert (X := tx_lt BX BY HX HY HXY t). destruct (step_row BX BY HX HY HXY j (ty BX t) Hj (ty_lt BX BY HX HY HXY t Ht)) as [S1 S2].
  replace (g / gx mod gy * BX + j + ty BX t) with ((j + ty BX t) + g / gx mod gy * BX) by lia. replace (g mod gx * BX + tx BX t) with (tx BX t + g mod gx * BX) by lia.
  rewrite !Nat.div_add, !Nat.mod_add, (Nat.div_small (j + ty BX t)), (Nat.mod_small (j + ty BX t)), (Nat.div_small (tx BX t)), (Nat.mod_small (tx BX t)) by lia. cbn [plus]. rewrite S2, <- G4. f_equal. symmetry. exact (t_split BX BY HX HY HXY t).
Qed.
Notation T := (fun g => flat_map (tile_trace (k_in k) BX BY nrow ncol (g mod gx * BX) (g / gx mod gy * BX) (src (g / gx / gy)) (dst (g / gx / gy))) (seq 0 nT)).
Theorem tiles_settle : forall rg sh out, settles k (start k rg sh out) (fun o => forall z r c, z < gz -> r < nrow -> c < ncol -> o (dst z c r) = k_in k (src z r c)).
Proof.
  intros rg sh out. apply (program_settles k prog (fun n o => o = upds (flat_map T (seq 0 n)) out) _ rg sh out (wr (town BX BY) (fun _ => false) false) (vis (town BX BY) (fun _ => false) false)).
  - rewrite Kt. nia.
  - intros. apply Kc.
  - intros g Hg. destruct (group_split g Hg) as (G1 & G2 & G3 & G4). unfold prog, tile. repeat constructor; intros t Ht; rewrite Kt in Ht; assert (X := tx_lt BX BY HX HY HXY t).
    + rewrite load_eq by auto. destruct (Nat.ltb_spec (g / gx mod gy * BX + tx BX t) ncol) as [L|]; [|constructor]. apply Forall_forall. intros i Hi. apply in_flat_map in Hi. destruct Hi as (j & Hj & [<-|[<-|[]]]).
      * destruct (Nat.ltb_spec (g mod gx * BX + j + ty BX t) nrow); [|reflexivity]. cbn [in_bounds]. apply Nat.ltb_lt. now apply Hsrc.
      * cbn [in_bounds]. apply Nat.ltb_lt. rewrite Ks. destruct (step_row BX BY HX HY HXY j (ty BX t) Hj (ty_lt BX BY HX HY HXY t Ht)). now apply (cell_lt BX BY HX HY HXY).
    + rewrite store_eq by auto. destruct (Nat.ltb_spec (g mod gx * BX + tx BX t) nrow) as [L|]; [|constructor]. apply Forall_forall. intros i Hi. apply in_flat_map in Hi. destruct Hi as (j & Hj & Hi). unfold store1 in Hi.
      destruct (Nat.ltb_spec (g / gx mod gy * BX + j + ty BX t) ncol); [|destruct Hi]. destruct (step_row BX BY HX HY HXY j (ty BX t) Hj (ty_lt BX BY HX HY HXY t Ht)). destruct Hi as [<-|[<-|[]]]; cbn [in_bounds]; apply Nat.ltb_lt; [rewrite Ks; now apply (cell_lt BX BY HX HY HXY)|now apply Hdst].
  - intros t t' a Ht Ht' Ne [H _]. split; [intros [H' _]; congruence|]. intros [H'|[H' _]]; [congruence|discriminate].
  - intros g Hg. unfold prog, tile. cbn [safe]. split.
    + intros t Ht. rewrite Kt in Ht. rewrite load_eq by auto. destruct (_ <? ncol); [|constructor]. apply Forall_forall. intros i Hi. apply in_flat_map in Hi. destruct Hi as (j & Hj & [<-|[<-|[]]]).
      * destruct (_ <? nrow); (split; [reflexivity|]); intros a; cbn; split; intros [].
      * split; [reflexivity|]. intros a. cbn. split; [|intros []]. intros <-. split; [now apply town_mine|discriminate].
    + exists (fun _ _ => False), (fun _ _ => True). split; [intros t t' a _ _ _ []|]. split; [|exact I]. intros t Ht. rewrite Kt in Ht. rewrite store_eq by auto. destruct (_ <? nrow); [|constructor]. apply Forall_forall. intros i Hi. apply in_flat_map in Hi.
      destruct Hi as (j & Hj & Hi). unfold store1 in Hi. destruct (_ <? ncol); [|destruct Hi]. destruct Hi as [<-|[<-|[]]]; (split; [reflexivity|]); intros a; cbn; split; intros H; try contradiction; exact I.
  - assert (O : forall g t, g < k_groups k -> t < k_threads k -> Forall (owned wown (g, t)) (k_code k g t)).
    { intros g t Hg Ht. rewrite Kt in Ht. rewrite Kc. unfold prog, tile, code_of. cbn [flat_map code1]. rewrite app_nil_r. apply Forall_app. split; [|constructor; [intros a []|]].
      - rewrite load_eq by auto. destruct (_ <? ncol); [|constructor]. apply Forall_forall. intros i Hi. apply in_flat_map in Hi. destruct Hi as (j & Hj & [<-|[<-|[]]]); [destruct (_ <? nrow)|]; intros a [].
      - rewrite store_eq by auto. destruct (Nat.ltb_spec (g mod gx * BX + tx BX t) nrow) as [L|]; [|constructor]. apply Forall_forall. intros i Hi. apply in_flat_map in Hi. destruct Hi as (j & Hj & Hi). unfold store1 in Hi.
        destruct (Nat.ltb_spec (g / gx mod gy * BX + j + ty BX t) ncol); [|destruct Hi]. destruct Hi as [<-|[<-|[]]]; intros a Ha; [destruct Ha|]. cbn in Ha. subst a. now apply wown_at. }
    intros g t g' t' Hg Ht Hg' Ht' Ne. apply (owned_compat wown (g, t) (g', t')); auto.
  - reflexivity.
  - intros g rg' sh' out' Hg ->. rewrite seq_S, flat_map_app, upds_app. cbn [flat_map plus]. rewrite app_nil_r. unfold prog. rewrite Kt. now apply tile_run.
  - intros o -> z r c Hz Hr Hc.
    rewrite (upds_set (fun a => k_in k (src (zof a) (rof a) (cof a)))).
    + destruct (Hinv z r c Hz Hr Hc) as (-> & -> & ->). reflexivity.
    + intros u Hu Ea. apply in_flat_map in Hu. destruct Hu as (g & Hg & Hu). apply in_seq in Hg. apply in_flat_map in Hu. destruct Hu as (t & Ht & Hu). apply in_seq in Ht. unfold tile_trace in Hu.
      destruct (Nat.ltb_spec (g mod gx * BX + tx BX t) nrow) as [L|]; [|destruct Hu]. apply in_flat_map in Hu. destruct Hu as (j & Hj & Hu). destruct (Nat.ltb_spec (g / gx mod gy * BX + j + ty BX t) ncol) as [L2|]; [|destruct Hu].
      destruct Hu as [<-|[]]. cbn [fst] in Ea. rewrite <- Ea. destruct (group_split g ltac:(lia)) as (G1 & G2 & G3 & G4). destruct (Hinv (g / gx / gy) _ _ G3 L L2) as (-> & -> & ->). reflexivity.
    + assert (R1 := tiles_of nrow r Hr). assert (R2 := tiles_of ncol c Hc). set (g := (z * gy + c / BX) * gx + r / BX).
      assert (E1 : g mod gx = r / BX) by (unfold g; rewrite Nat.add_comm, Nat.mod_add, Nat.mod_small by lia; reflexivity).
      assert (E2 : g / gx = z * gy + c / BX) by (unfold g; rewrite Nat.add_comm, Nat.div_add, Nat.div_small by lia; lia).
      assert (E3 : g / gx mod gy = c / BX) by (rewrite E2, Nat.add_comm, Nat.mod_add, Nat.mod_small by lia; reflexivity).
      assert (E4 : g / gx / gy = z) by (rewrite E2, Nat.add_comm, Nat.div_add, Nat.div_small by lia; lia).
      assert (Hg : g < k_groups k) by (rewrite Kg; unfold g; assert (Z1 : z * gy + c / BX + 1 <= gz * gy) by nia; assert (Z2 := Nat.mul_le_mono_r _ _ gx Z1); lia).
      assert (Mr := Nat.mod_upper_bound r BX ltac:(lia)). assert (Mc := Nat.mod_upper_bound c BX ltac:(lia)). destruct (row_step BX BY HX HY HXY (c mod BX) Mc) as (j & Hj & Ej).
      assert (Mb := Nat.mod_upper_bound (c mod BX) BY ltac:(lia)). set (t := (c mod BX) mod BY * BX + r mod BX). destruct (t_join BX BY HX HY HXY (((c mod BX) mod BY)) (r mod BX) Mr) as [Ey Ex]. fold t in Ey, Ex.
      assert (Dr := Nat.div_mod r BX ltac:(lia)). assert (Dc := Nat.div_mod c BX ltac:(lia)).
      exists (dst z c r, USet, k_in k (src z r c)). split; [|reflexivity]. apply in_flat_map. exists g. split; [apply in_seq; lia|]. apply in_flat_map. exists t. split; [apply in_seq; unfold t; nia|].
      unfold tile_trace. rewrite E1, E3, E4, Ex. replace (r / BX * BX + r mod BX) with r by lia. destruct (Nat.ltb_spec r nrow); [|lia]. apply in_flat_map. exists j. split; [exact Hj|]. rewrite Ey.
      replace (c / BX * BX + j + (c mod BX) mod BY) with c by lia. destruct (Nat.ltb_spec c ncol); [|lia]. now left.
Qed.
End Launch.
