(** The gather-direction ring kernels: which entries a group finds, and which cell it serves. *)
From Coq Require Import List Arith Lia Bool ZArith Reals Lra Permutation FunctionalExtensionality.
From Verif Require Import TensorModel TensorProofs BigSum DiscoModel DiscoSortProofs DistAttnModel DistAttnProofs AttnModel AttnCoreProofs GpuModel GpuSpec GpuProofs GpuProofs2 WarpProofs CudaDiscoModel CudaWarpModel WarpSumProofs CudaFwdProofs CudaAttnModel CudaAttnProofs CudaAttnLaneProofs CudaAttnFwdProofs CudaAttnFwdProofs2 WarpKernelProofs CudaKeyProofs CudaLoopProofs CudaAttnUpProofs4 CudaRescaleModel GroupKernelProofs CudaRingUpSpec CudaRingModel CudaRingProofs.
From Verif Require Import AttnSpec.
Import ListNotations.
Local Open Scope nat_scope.
Notation upd := (nat * uop * R)%type (only parsing).
Notation entry := (nat * (nat * nat))%type (only parsing).
Notation item := (nat * (nat * (nat * (nat * nat))))%type (only parsing).

(** ** Shares of a row *)
Lemma share_all : forall row, share 1 0 row = row.
Proof.
  intros row. unfold share. rewrite Nat.div_1_r. cbn [Nat.modulo]. replace (0 <? length row mod 1) with false by (symmetry; apply Nat.ltb_ge; rewrite Nat.mod_1_r; lia). rewrite Nat.add_0_r.
  rewrite (map_ext _ (fun i => nth i row 0)) by (intros i; f_equal; lia). clear. induction row as [|c row IH]; [reflexivity|]. cbn [length seq map nth]. f_equal. rewrite <- seq_shift, map_map. exact IH.
Qed.
Lemma share_count : forall per split n, 1 <= per -> split < per -> forall i, i < n / per + (if split <? n mod per then 1 else 0) <-> split + i * per < n.
Proof.
  intros per split n Hp Hs i. assert (Dm := Nat.div_mod n per ltac:(lia)). assert (Md := Nat.mod_upper_bound n per ltac:(lia)). rewrite (Nat.mul_comm per) in Dm. set (d := n / per) in *. set (m := n mod per) in *. clearbody d m. subst n.
  destruct (Nat.ltb_spec split m).
  - split; intros L; [assert (i * per <= d * per) by (apply Nat.mul_le_mono_r; lia); lia|]. destruct (Nat.lt_ge_cases i (d + 1)); [assumption|]. assert ((d + 1) * per <= i * per) by (apply Nat.mul_le_mono_r; assumption). lia.
  - split; intros L; [assert ((i + 1) * per <= d * per) by (apply Nat.mul_le_mono_r; lia); lia|]. destruct (Nat.lt_ge_cases i (d + 0)); [assumption|]. assert (d * per <= i * per) by (apply Nat.mul_le_mono_r; lia). lia.
Qed.
Lemma share_in : forall per split row c, 1 <= per -> split < per -> In c (share per split row) -> In c row.
Proof. intros per split row c Hp Hs H. unfold share in H. apply in_map_iff in H. destruct H as (i & <- & Hi). apply in_seq in Hi. apply nth_In. apply (share_count per split (length row) Hp Hs). lia. Qed.
Lemma share_length : forall per split row, 1 <= per -> split < per -> length (share per split row) <= div_up (length row) per.
Proof.
  intros per split row Hp Hs. unfold share. rewrite map_length, seq_length. set (n := length row). set (x := n / per + _). assert (Q := share_count per split n Hp Hs). fold x in Q. unfold div_up.
  destruct x as [|x]; [lia|]. assert (L := proj1 (Q x) ltac:(lia)). apply Nat.div_le_lower_bound; [lia|]. assert (per * Datatypes.S x = x * per + per) by ring. lia.
Qed.
Lemma shares_perm : forall per row, 1 <= per -> Permutation (flat_map (fun s => share per s row) (seq 0 per)) row.
Proof.
  intros per row Hp. set (n := length row). set (idx := fun s => map (fun i => s + i * per) (seq 0 (n / per + (if s <? n mod per then 1 else 0)))).
  assert (E : flat_map (fun s => share per s row) (seq 0 per) = map (fun j => nth j row 0) (flat_map idx (seq 0 per))).
  { induction (seq 0 per) as [|s l IH]; [reflexivity|]. cbn [flat_map]. rewrite map_app, IH. f_equal. unfold share, idx. rewrite map_map. reflexivity. }
  rewrite E. assert (P : Permutation (flat_map idx (seq 0 per)) (seq 0 n)).
  { apply NoDup_Permutation; [|apply seq_NoDup|].
    - apply nodup_flat; [apply seq_NoDup| |].
      + intros s _. apply FinFun.Injective_map_NoDup; [intros i j Q; apply (Nat.mul_cancel_r i j per); lia|apply seq_NoDup].
      + intros s s' x Hs Hs' H1 H2. apply in_seq in Hs. apply in_seq in Hs'. unfold idx in H1, H2. apply in_map_iff in H1. apply in_map_iff in H2. destruct H1 as (i & <- & _). destruct H2 as (j & Q & _).
        assert (Q1 := Nat.mod_add s i per ltac:(lia)). assert (Q2 := Nat.mod_add s' j per ltac:(lia)). rewrite Q in Q2. rewrite Q2 in Q1. rewrite !Nat.mod_small in Q1 by lia. congruence.
    - intros j. rewrite in_flat_map, in_seq. split.
      + intros (s & Hs & Hj). apply in_seq in Hs. unfold idx in Hj. apply in_map_iff in Hj. destruct Hj as (i & <- & Hi). apply in_seq in Hi. split; [lia|]. apply (share_count per s n Hp ltac:(lia)). lia.
      + intros [_ Hj]. assert (M := Nat.mod_upper_bound j per ltac:(lia)). assert (Dm := Nat.div_mod j per ltac:(lia)). exists (j mod per). split; [apply in_seq; lia|]. unfold idx. apply in_map_iff. exists (j / per). split; [rewrite (Nat.mul_comm (j / per)); lia|]. apply in_seq. split; [lia|].
        apply (share_count per (j mod per) n Hp M). rewrite (Nat.mul_comm (j / per)). lia. }
  assert (Q : map (fun j => nth j row 0) (seq 0 n) = row). { unfold n. clear. induction row as [|c row IH]; [reflexivity|]. cbn [length seq map nth]. f_equal. rewrite <- seq_shift, map_map. exact IH. }
  eapply Permutation_trans; [apply Permutation_map, P|]. rewrite Q. apply Permutation_refl.
Qed.

Section Ctx.
Variables (NW BY V nloc nci nco H W Wi ps lon_lo : nat) (lat0 : Z) (B Ho Wo : nat) (as_out : bool) (ninf : R) (P : pattern) (nq : nat) (kA vA qA quad : nat -> R) (kf vf qf : fld).
Notation BD := (32 * NW). Notation Ck := (V * nci). Notation Cv := (V * nco). Notation cells := (B * Ho * Wo).
Hypotheses (HNW : 1 <= NW <= 32) (HV : 1 <= V) (Hnl : 1 <= nloc) (Hout : (nloc - 1) * BD <= nco <= nloc * BD) (Hin : as_out = true -> (nloc - 1) * BD <= nci <= nloc * BD).
Hypotheses (HBY : 1 <= BY) (HWi : 1 <= Wi) (HP : pattern_ok P Ho (nq * Wi)).
Hypotheses (Lk : lays B H W Ck kA kf) (Lv : lays B H W Cv vA vf) (Lq : lays B Ho Wo Ck qA qf).
Lemma rin_covers : covers BD Ck (chan_own BD V) (rin_chans BD V nloc nci as_out).
Proof using HNW HV Hnl Hin. unfold rin_chans. apply (floats_covers BD V nci (fun t => if as_out then unrolled_chans BD nloc nci t else loop_chans BD nci t) HV). destruct as_out; [apply unrolled_covers; auto|apply loop_covers; clear - HNW; lia]. Qed.
Lemma rloop_covers : covers BD Ck (chan_own BD V) (rloop_chans BD V nci).
Proof using HNW HV. unfold rloop_chans. apply (floats_covers BD V nci (loop_chans BD nci) HV). apply loop_covers. clear - HNW; lia. Qed.
Lemma rout_covers : covers BD Cv (chan_own BD V) (rout_chans BD V nloc nco).
Proof. unfold rout_chans. apply (floats_covers BD V nco (unrolled_chans BD nloc nco) HV). apply unrolled_covers; auto. Qed.

(** ** Entries *)
Notation act_of := (found BD H W Wi ps lon_lo lat0).
Notation active := (active H W Wi ps lon_lo lat0).
Lemma active_le : forall wo c, length (active wo c) <= 1.
Proof. intros. unfold CudaRingModel.active. cbv zeta. destruct (_ && _); [|cbn; lia]. destruct (_ && _); cbn; lia. Qed.
Lemma active_in : forall wo c e, In e (active wo c) -> fst e = c / Wi /\ fst (snd e) < H /\ snd (snd e) < W.
Proof.
  intros wo c e Hi. unfold CudaRingModel.active in Hi. cbv zeta in Hi. destruct ((lon_lo <=? _) && _) eqn:E1; [|destruct Hi]. destruct (_ && _) eqn:E2 in Hi; [|destruct Hi]. apply andb_true_iff in E1, E2. rewrite Nat.leb_le, Nat.ltb_lt in E1. rewrite Z.leb_le, Z.ltb_lt in E2. destruct Hi as [<-|[]]. cbn [fst snd]. lia.
Qed.
Lemma found_snd : forall wo es, map snd (act_of wo es) = flat_map (active wo) es.
Proof.
  intros wo es. unfold found. set (D := BD). clearbody D. generalize 0 as s. induction es as [|c es IH]; intros s; [reflexivity|]. cbn [length seq combine flat_map fst snd]. rewrite map_app, map_map, IH. f_equal. apply map_id.
Qed.
Lemma found_length : forall wo es, length (act_of wo es) <= length es.
Proof. intros wo es. rewrite <- (map_length snd), found_snd. induction es as [|c es IH]; [cbn; lia|]. cbn [flat_map length]. rewrite app_length. assert (Q := active_le wo c). lia. Qed.
Lemma found_in : forall wo es a, In a (act_of wo es) -> fst a < BD /\ exists c, In c es /\ In (snd a) (active wo c).
Proof.
  intros wo es a Ha. unfold found in Ha. apply in_flat_map in Ha. destruct Ha as ([j c] & Hj & Ha). apply in_map_iff in Ha. destruct Ha as (e & <- & He). cbn [fst snd] in *. split; [apply Nat.mod_upper_bound; lia|]. exists c. split; [|exact He]. eapply in_combine_r; exact Hj.
Qed.
Lemma listed_found : forall act (x : item), In x (listed act) -> In (snd x) act.
Proof. intros act [i e] Hx. eapply in_combine_r. exact Hx. Qed.
Lemma item_ok : forall wo es x, (forall c, In c es -> c < nq * Wi) -> In x (listed (act_of wo es)) -> x_lane x < BD /\ x_hi x < nq /\ fst (x_pt x) < H /\ snd (x_pt x) < W.
Proof.
  intros wo es x He Hx. apply listed_found in Hx. apply found_in in Hx. destruct Hx as (L & c & Hc & Ha). apply active_in in Ha. destruct Ha as (E1 & E2 & E3). split; [exact L|]. unfold x_hi, x_pt. rewrite E1. split; [|auto]. apply Nat.div_lt_upper_bound; [lia|]. rewrite Nat.mul_comm. now apply He.
Qed.
(** one entry for the sequential step *)
Definition eact (b ho wo : nat) (st : rst) (e : entry) : rst := ring_entry (dot Ck (qf b ho wo) (kf b (fst (snd e)) (snd (snd e)))) (quad (fst e)) (vf b (fst (snd e)) (snd (snd e))) st.
Notation visit := (ring_visit Ck quad H W lon_lo lat0 kf vf qf Wi ps).
Lemma visit_active : forall b ho wo st c, visit b ho wo st c = fold_left (eact b ho wo) (active wo c) st.
Proof.
  intros b ho wo st c. unfold ring_visit, CudaRingModel.active. cbv zeta. assert (Q : forall x, x - x / Wi * Wi = x mod Wi) by (intros x; rewrite (Nat.mod_eq x Wi) by lia; rewrite (Nat.mul_comm Wi); reflexivity). rewrite !Q. set (wip := (c mod Wi + ps * wo) mod Wi). set (hl := (Z.of_nat (c / Wi) - lat0)%Z).
  destruct (Nat.ltb_spec wip lon_lo), (Nat.leb_spec (lon_lo + W) wip); cbn [orb].
  - rewrite (proj2 (Nat.leb_gt _ _)) by lia. reflexivity.
  - rewrite (proj2 (Nat.leb_gt _ _)) by lia. reflexivity.
  - rewrite (proj2 (Nat.ltb_ge _ _)) by lia. rewrite andb_false_r. reflexivity.
  - rewrite (proj2 (Nat.leb_le _ _)), (proj2 (Nat.ltb_lt _ _)) by lia. cbn [andb]. destruct (Z.ltb_spec hl 0), (Z.leb_spec (Z.of_nat H) hl); cbn [orb].
    + rewrite (proj2 (Z.leb_gt _ _)) by lia. reflexivity.
    + rewrite (proj2 (Z.leb_gt _ _)) by lia. reflexivity.
    + rewrite (proj2 (Z.ltb_ge _ _)) by lia. rewrite andb_false_r. reflexivity.
    + rewrite (proj2 (Z.leb_le _ _)), (proj2 (Z.ltb_lt _ _)) by lia. reflexivity.
Qed.
Lemma fold_flat : forall X Y Z (f : X -> Z -> X) (g : Y -> list Z) l x, fold_left (fun x y => fold_left f (g y) x) l x = fold_left f (flat_map g l) x.
Proof. intros X Y Z f g. induction l as [|y l IH]; intros x; [reflexivity|]. cbn [fold_left flat_map]. rewrite fold_left_app. apply IH. Qed.
Lemma fold_map : forall X Y Z (f : X -> Z -> X) (g : Y -> Z) l x, fold_left (fun x y => f x (g y)) l x = fold_left f (map g l) x.
Proof. intros X Y Z f g. induction l as [|y l IH]; intros x; [reflexivity|]. cbn [fold_left map]. apply IH. Qed.
Definition istep (b ho wo : nat) (st : rst) (x : item) : rst := eact b ho wo st (snd (snd x)).
Lemma visits_found : forall b ho wo es st, fold_left (visit b ho wo) es st = fold_left (istep b ho wo) (listed (act_of wo es)) st.
Proof.
  intros b ho wo es st. transitivity (fold_left (fun st c => fold_left (eact b ho wo) (active wo c) st) es st). { revert st. induction es as [|c es IH]; intros st; [reflexivity|]. cbn [fold_left]. rewrite visit_active. apply IH. }
  rewrite fold_flat, <- found_snd. unfold istep. rewrite (fold_map _ _ _ (eact b ho wo) (fun x : item => snd (snd x))). f_equal. rewrite <- (map_map snd snd), listed_map. reflexivity.
Qed.

(** ** Groups *)
Section Groups.
Variables (mid per nl : nat) (rows : list nat).
Hypotheses (Hper : 1 <= per) (Hlen : nl <= length rows) (Hrows : forall h, h < nl -> nth h rows 0 < Ho).
Hypothesis (Hmid : forall h s wo, h < nl -> s < per -> length (act_of wo (share per s (nth (nth h rows 0) P []))) <= mid).
Notation width := (long_width BY nl Wo).
Definition rkey (g : nat) : option (nat * nat) := if nl * Wo <=? g mod width then None else Some (g / width, g mod width).
Definition gho (c : nat) : nat := nth (c / Wo) rows 0.
Definition gwo (c : nat) : nat := c - c / Wo * Wo.
Definition gact (b c : nat) : list (nat * entry) := act_of (gwo c) (share per (b mod per) (nth (gho c) P [])).
Lemma width_ge : nl * Wo <= width.
Proof. unfold long_width. apply div_up_ge. lia. Qed.
Lemma rkeyed : keyed (B * per * width) (B * per) (nl * Wo) rkey.
Proof.
  assert (L := width_ge). unfold rkey. constructor.
  - intros g b c Hg. destruct (Nat.leb_spec (nl * Wo) (g mod width)) as [Q|Q]; [discriminate|]. intros [= <- <-]. split; [|exact Q]. apply Nat.div_lt_upper_bound; [lia|]. rewrite Nat.mul_comm. exact Hg.
  - intros g g' [b c] Hg Hg'. destruct (Nat.leb_spec (nl * Wo) (g mod width)) as [Q|Q]; [discriminate|]. destruct (Nat.leb_spec (nl * Wo) (g' mod width)) as [Q'|Q']; [discriminate|]. intros [= E1 E2] [= E3 E4].
    rewrite (Nat.div_mod g width), (Nat.div_mod g' width) by lia. congruence.
  - intros b c Hb Hc. exists (b * width + c). assert (Hg : c < width) by lia. destruct (split_div width b c Hg) as [-> ->]. split; [|rewrite (proj2 (Nat.leb_gt _ _) Hc); reflexivity].
    assert ((b + 1) * width <= B * per * width) by (apply Nat.mul_le_mono_r; lia). lia.
Qed.
Lemma gcell : forall c, c < nl * Wo -> c / Wo < nl /\ gwo c < Wo /\ gho c < Ho /\ c = c / Wo * Wo + gwo c.
Proof.
  intros c Hc. unfold gwo. assert (HWo : 1 <= Wo) by nia. assert (Q : c - c / Wo * Wo = c mod Wo) by (rewrite (Nat.mod_eq c Wo) by lia; rewrite (Nat.mul_comm Wo); reflexivity). assert (Dm := Nat.div_mod c Wo ltac:(lia)). rewrite (Nat.mul_comm Wo) in Dm. assert (D : c / Wo < nl) by (apply Nat.div_lt_upper_bound; [lia|rewrite Nat.mul_comm; exact Hc]).
  rewrite Q. assert (M := Nat.mod_upper_bound c Wo ltac:(lia)). split; [exact D|]. split; [exact M|]. split; [now apply Hrows|lia].
Qed.
Lemma gact_mid : forall b c, c < nl * Wo -> length (gact b c) <= mid.
Proof. intros b c Hc. destruct (gcell c Hc) as (D & _). apply Hmid; [exact D|]. apply Nat.mod_upper_bound. lia. Qed.
Lemma row_in : forall ho c, ho < Ho -> In c (nth ho P []) -> c < nq * Wi.
Proof. intros ho c Hh Hc. apply (proj2 HP (nth ho P [])); [apply nth_In; destruct HP; lia|exact Hc]. Qed.
Lemma gact_ok : forall b c x, c < nl * Wo -> In x (listed (gact b c)) -> x_lane x < BD /\ x_hi x < nq /\ fst (x_pt x) < H /\ snd (x_pt x) < W.
Proof.
  intros b c x Hc Hx. destruct (gcell c Hc) as (_ & _ & Hg & _). apply (item_ok (gwo c) (share per (b mod per) (nth (gho c) P []))); [|exact Hx]. intros e He. apply (row_in (gho c)); [exact Hg|]. apply (share_in per (b mod per)); auto. apply Nat.mod_upper_bound. lia.
Qed.
Lemma row_group_eq : forall body g, g < B * per * width -> row_group BD BY H W Wi ps lon_lo lat0 Wo (offsets 0 P) (columns P) mid per nl rows body g = match rkey g with None => [] | Some (b, c) => body (b / per) (gho c) (gwo c) (gact b c) end.
Proof.
  intros body g Hg. unfold row_group, rkey. cbv zeta. destruct (Nat.leb_spec (nl * Wo) (g mod width)) as [L|L]; [reflexivity|]. destruct (gcell _ L) as (D & _ & Hh & _).
  assert (E : nth_error rows (g mod width / Wo) = Some (gho (g mod width))) by (unfold gho; apply nth_error_nth'; lia). rewrite E. rewrite (row_of_spec P Ho (nq * Wi)) by auto.
  change (found BD H W Wi ps lon_lo lat0 (g mod width - g mod width / Wo * Wo) (share per (g / width mod per) (nth (gho (g mod width)) P []))) with (gact (g / width) (g mod width)).
  rewrite (proj2 (Nat.leb_le _ _)) by (now apply gact_mid). reflexivity.
Qed.
(** every schedule of a launch with such groups *)
Theorem row_settles : forall k kind holds body (F : nat -> nat -> nat -> list (nat * entry) -> list fstep) (T : nat -> nat -> list upd) rg sh out,
  k_groups k = B * per * width -> k_threads k = BD -> (1 < NW -> scratch V nci mid + NW <= k_shared k) -> k_code k = (fun g => code_of (row_group BD BY H W Wi ps lon_lo lat0 Wo (offsets 0 P) (columns P) mid per nl rows body g)) ->
  (forall b ho wo act, expand BD (scratch V nci mid) (F b ho wo act) = body b ho wo act) ->
  (forall g b c, g < k_groups k -> rkey g = Some (b, c) -> b < B * per -> c < nl * Wo -> fgood k NW (rown NW V nci mid (gact b c)) (rpub V nci (gact b c)) kind holds g false (F (b / per) (gho c) (gwo c) (gact b c))) ->
  (forall b c st, b < B * per -> c < nl * Wo -> ftrace (k_in k) BD (rown NW V nci mid (gact b c)) (rpub V nci (gact b c)) (F (b / per) (gho c) (gwo c) (gact b c)) st = T b c) ->
  (forall a gt gt', gt <> gt' -> holds a gt -> holds a gt' -> False) ->
  settles k (start k rg sh out) (fun o => o = upds (flat_map (at_key rkey T) (seq 0 (k_groups k))) out).
Proof.
  intros k kind holds body F T rg sh out Eg Et Es Ec Ex Hf Ht Hh. assert (K := rkeyed).
  assert (Kc : forall g b c, rkey g = Some (b, c) -> c < nl * Wo). { intros g b c E. unfold rkey in E. destruct (Nat.leb_spec (nl * Wo) (g mod width)) as [L|L]; [discriminate|]. injection E as <- <-. exact L. }
  apply (fsteps_settle_g k NW (scratch V nci mid) (fun g => match rkey g with None => fun _ => BD | Some (b, c) => rown NW V nci mid (gact b c) end) (fun g => match rkey g with None => fun _ => false | Some (b, c) => rpub V nci (gact b c) end) kind holds) with (prog := at_key rkey (fun b c => F (b / per) (gho c) (gwo c) (gact b c))); auto.
  - intros g a Ha. destruct (rkey g) as [[b c]|] eqn:E; [|lia]. apply rown_high; auto. apply gact_mid. eauto.
  - intros g a Ha. destruct (rkey g) as [[b c]|] eqn:E; [|discriminate]. apply rpub_own; auto; [apply gact_mid; eauto|]. intros x Hx. apply (gact_ok b c x); [eauto|exact Hx].
  - intros g t Hg Ht'. rewrite Ec. f_equal. rewrite row_group_eq by (rewrite <- Eg; exact Hg). unfold at_key. destruct (rkey g) as [[b c]|]; [symmetry; apply Ex|reflexivity].
  - intros g Hg. unfold at_key. destruct (rkey g) as [[b c]|] eqn:E; [|exact I]. rewrite Eg in Hg. destruct (ky_in _ _ _ _ K g b c Hg E). apply Hf; auto. now rewrite Eg.
  - intros g st Hg. unfold at_key. destruct (rkey g) as [[b c]|] eqn:E; [|reflexivity]. rewrite Eg in Hg. destruct (ky_in _ _ _ _ K g b c Hg E). now apply Ht.
Qed.
End Groups.

(** ** The arrays *)
Lemma lays_reads : forall l i h w C a f b y x ad, i < length l -> nth i l (0, fun _ => 0%R) = (B * h * w * C, a) -> lays B h w C a f -> b < B -> y < h -> x < w -> ad = ((b * h + y) * w + x) * C -> reads (joined l) (list_sum (map fst l)) (part l i) ad C (f b y x).
Proof.
  intros l i h w C a f b y x ad Hi E HL Hb Hy Hx -> c Hc.
  assert (L : ((b * h + y) * w + x) * C + c < B * h * w * C). { assert (Q1 : (b * h + y + 1) * w <= B * h * w) by (apply Nat.mul_le_mono_r; nia). assert (Q2 : ((b * h + y) * w + x + 1) * C <= B * h * w * C) by (apply Nat.mul_le_mono_r; lia). lia. }
  destruct (array_reads l i _ a Hi E _ L) as (A1 & A2 & A3). cbn [plus] in A1, A2, A3. split; [exact A1|]. split; [exact A2|]. rewrite A3. now apply HL.
Qed.
Lemma k_at_eq : forall b p, k_at V nci H W b p = ((b * H + fst p) * W + snd p) * Ck.
Proof. intros. unfold k_at. ring. Qed.
Lemma v_at_eq : forall b p, v_at V nco H W b p = ((b * H + fst p) * W + snd p) * Cv.
Proof. intros. unfold v_at. ring. Qed.
Lemma q_at_eq : forall b ho wo, q_at V nci Ho Wo b ho wo = ((b * Ho + ho) * Wo + wo) * Ck.
Proof. intros. unfold q_at. ring. Qed.
Lemma cell_of_eq : forall b ho wo, cell_of Ho Wo b ho wo = (b * Ho + ho) * Wo + wo.
Proof. intros. unfold cell_of. ring. Qed.
Lemma cell_of_lt : forall b ho wo, b < B -> ho < Ho -> wo < Wo -> cell_of Ho Wo b ho wo < cells.
Proof using. intros b ho wo Hb Hh Hw. rewrite cell_of_eq. assert (Q1 : (b * Ho + ho + 1) * Wo <= B * Ho * Wo) by (apply Nat.mul_le_mono_r; clear - Hb Hh; nia). clear - Q1 Hw; lia. Qed.
Lemma acc_at_lt : forall b ho wo c, b < B -> ho < Ho -> wo < Wo -> c < Cv -> acc_at V nco Ho Wo b ho wo c < cells * Cv.
Proof using. intros b ho wo c Hb Hh Hw Hc. unfold acc_at. assert (L := cell_of_lt b ho wo Hb Hh Hw). assert (Q : (cell_of Ho Wo b ho wo + 1) * Cv <= cells * Cv) by (apply Nat.mul_le_mono_r; clear - L; lia). clear - Q Hc; lia. Qed.
Lemma cell_of_inj : forall b ho wo b' ho' wo', ho < Ho -> wo < Wo -> ho' < Ho -> wo' < Wo -> cell_of Ho Wo b ho wo = cell_of Ho Wo b' ho' wo' -> b = b' /\ ho = ho' /\ wo = wo'.
Proof.
  intros b ho wo b' ho' wo' H1 H2 H3 H4 E. rewrite !cell_of_eq in E. destruct (split_div Wo (b * Ho + ho) wo H2) as [A1 A2]. destruct (split_div Wo (b' * Ho + ho') wo' H4) as [A3 A4]. rewrite E in A1, A2. assert (E1 : b * Ho + ho = b' * Ho + ho') by congruence.
  destruct (split_div Ho b ho H1) as [B1 B2]. destruct (split_div Ho b' ho' H3) as [B3 B4]. rewrite E1 in B1, B2. repeat split; congruence.
Qed.
End Ctx.
