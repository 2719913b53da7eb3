(** The backward ring kernels, pass 2: every schedule of a launch, and what it adds where. *)
From Coq Require Import List Arith Lia Bool ZArith Reals Lra Permutation FunctionalExtensionality.
From Verif Require Import TensorModel TensorProofs BigSum DiscoModel DiscoSortProofs DistAttnModel DistAttnBwdModel DistAttnProofs AttnModel AttnCoreProofs GpuModel GpuSpec GpuProofs GpuProofs2 WarpProofs CudaDiscoModel CudaWarpModel WarpSumProofs CudaFwdProofs CudaAttnModel CudaAttnProofs CudaAttnLaneProofs CudaAttnFwdProofs CudaAttnFwdProofs2 WarpKernelProofs CudaKeyProofs CudaLoopProofs CudaAttnUpModel CudaAttnBwdModel CudaAttnUpProofs2 CudaAttnUpProofs4 CudaRescaleModel GroupKernelProofs CudaRingUpSpec CudaRingModel CudaRingProofs CudaRingProofs2 CudaRingProofs6 CudaRingBwdModel CudaRingBwdProofs.
From Verif Require Import AttnSpec.
Import ListNotations.
Local Open Scope nat_scope.
Notation upd := (nat * uop * R)%type (only parsing).
Notation entry := (nat * (nat * nat))%type (only parsing).
Notation item := (nat * (nat * (nat * (nat * nat))))%type (only parsing).
Notation kk V nci H W b := (fun x : item => k_at V nci H W b (x_pt x)).
Notation vv V nco H W b := (fun x : item => v_at V nco H W b (x_pt x)).
Notation Kf kf b := (fun x : item => kf b (fst (x_pt x)) (snd (x_pt x))).

(** ** Offsets that are not negative *)
Lemma flat_of_map : forall X Y Z (f : Y -> list Z) (g : X -> Y) l, flat_map f (map g l) = flat_map (fun x => f (g x)) l.
Proof. intros X Y Z f g l. induction l as [|x l IH]; [reflexivity|]. cbn [map flat_map]. now rewrite IH. Qed.
Lemma getz_nat : forall p r n, getz p r (Z.of_nat n) = get p r n.
Proof. intros. unfold getz. rewrite (proj2 (Z.ltb_ge _ _)) by lia. now rewrite Nat2Z.id. Qed.
Lemma add_outz_nat : forall p n f, add_outz p (Z.of_nat n) f = add_out AAdd p n f.
Proof. intros. unfold add_outz. rewrite (proj2 (Z.ltb_ge _ _)) by lia. now rewrite Nat2Z.id. Qed.
Definition inj (e : entry) : nat * (Z * Z) := (fst e, (Z.of_nat (fst (snd e)), Z.of_nat (snd (snd e)))).
Definition injs (act : list (nat * entry)) : list (nat * (nat * (Z * Z))) := map (fun x => (fst x, inj (snd x))) act.
Lemma injs_length : forall act, length (injs act) = length act.
Proof. intros. apply map_length. Qed.
Lemma listedz_injs : forall act, listedz (injs act) = map (fun x : item => (fst x, (fst (snd x), inj (snd (snd x))))) (listed act).
Proof.
  intros act. unfold listedz, listed. rewrite injs_length. unfold injs. generalize 0 as s. induction act as [|x l IH]; intros s; [reflexivity|]. cbn [length seq map combine fst snd]. f_equal. apply IH.
Qed.
Lemma stashz_injs : forall V nci nco pw act t, stashz V nci nco pw (injs act) t = bstash V nci nco pw act t.
Proof.
  intros. unfold stashz, bstash. rewrite listedz_injs, flat_of_map. apply flat_map_ext. intros x. cbn [fst snd inj]. rewrite (proj2 (Z.leb_le 0 _)) by lia. reflexivity.
Qed.
Lemma kz_nat : forall V nci H W b p, kz_at V nci H W b (Z.of_nat (fst p), Z.of_nat (snd p)) = Z.of_nat (k_at V nci H W b p).
Proof. intros. unfold kz_at, k_at. cbn [fst snd]. nia. Qed.
Lemma vz_nat : forall V nco H W b p, vz_at V nco H W b (Z.of_nat (fst p), Z.of_nat (snd p)) = Z.of_nat (v_at V nco H W b p).
Proof. intros. unfold vz_at, v_at. cbn [fst snd]. nia. Qed.
Lemma dotz_nat : forall rd base p n ch, dotz rd base p (Z.of_nat n) ch = dot_loop rd base p n ch.
Proof. intros. unfold dotz, dot_loop. f_equal. apply flat_map_ext. intros c. rewrite <- Nat2Z.inj_add, getz_nat. reflexivity. Qed.

Section Ctx.
Variables (NW BY V nloc nci nco H W Wi ps lon_lo : nat) (lat0 : Z) (B Ho Wo : nat) (as_in old : bool) (P : pattern) (nq : nat) (kA vA qA dA quad : nat -> R) (kf vf qf df : fld).
Notation BD := (32 * NW). Notation Ck := (V * nci). Notation Cv := (V * nco). Notation cells := (B * Ho * Wo).
Hypotheses (HNW : 1 <= NW <= 32) (HV : 1 <= V) (Hnl : 1 <= nloc) (Hci : (nloc - 1) * BD <= nci <= nloc * BD) (Hco : as_in = true -> (nloc - 1) * BD <= nco <= nloc * BD).
Hypotheses (HBY : 1 <= BY) (HWi : 1 <= Wi) (HP : pattern_ok P Ho (nq * Wi)).
Hypotheses (Lk : lays B H W Ck kA kf) (Lv : lays B H W Cv vA vf) (Lq : lays B Ho Wo Ck qA qf) (Ld : lays B Ho Wo Cv dA df).
Notation cin := (bin_chans BD V nloc nci). Notation cout := (bout_chans BD V nloc nco as_in).
Lemma bin_covers : covers BD Ck (chan_own BD V) cin.
Proof using HV Hnl Hci. exact (rout_covers NW V nloc nci HV Hnl Hci). Qed.
Lemma bout_covers : covers BD Cv (chan_own BD V) cout.
Proof using HNW HV Hnl Hco. exact (rin_covers NW V nloc nco as_in HNW HV Hnl Hco). Qed.

(** ** Launches of one group to a cell *)
Section Groups.
Variables (mid per nl : nat) (rows : list nat).
Hypotheses (Hper : 1 <= per) (Hlen : nl <= length rows) (Hrows : forall h, h < nl -> nth h rows 0 < Ho).
Hypothesis (Hmid : forall h s wo, h < nl -> s < per -> length (found BD H W Wi ps lon_lo lat0 wo (share per s (nth (nth h rows 0) P []))) <= mid).
Notation width := (long_width BY nl Wo). Notation key := (rkey BY Wo nl). Notation G := (B * per * width).
Notation act_of := (gact NW H W Wi ps lon_lo lat0 Wo P per rows). Notation ho_of := (gho Wo rows). Notation wo_of := (gwo Wo).
Notation active := (active H W Wi ps lon_lo lat0). Notation ents := (ents H W Wi ps lon_lo lat0 P).
Lemma bkeyed : keyed G (B * per) (nl * Wo) key.
Proof. exact (rkeyed NW BY V nloc nco nci Wi B Wo as_in HNW HV Hnl Hci Hco HBY HWi per nl rows Hper Hlen). Qed.
Lemma bcell : forall c, c < nl * Wo -> c / Wo < nl /\ wo_of c < Wo /\ ho_of c < Ho /\ c = c / Wo * Wo + wo_of c.
Proof. exact (gcell NW BY V nloc nco nci Wi Ho Wo as_in HNW HV Hnl Hci Hco HBY HWi per nl rows Hper Hlen Hrows). Qed.
Lemma bact_mid : forall b c, c < nl * Wo -> length (act_of b c) <= mid.
Proof. exact (gact_mid NW BY V nloc nco nci H W Wi ps lon_lo lat0 Ho Wo as_in P HNW HV Hnl Hci Hco HBY HWi mid per nl rows Hper Hlen Hrows Hmid). Qed.
Lemma bact_ok : forall b c x, c < nl * Wo -> In x (listed (act_of b c)) -> x_lane x < BD /\ x_hi x < nq /\ fst (x_pt x) < H /\ snd (x_pt x) < W.
Proof. exact (gact_ok NW BY V nloc nco nci H W Wi ps lon_lo lat0 Ho Wo as_in P nq HNW HV Hnl Hci Hco HBY HWi HP per nl rows Hper Hlen Hrows). Qed.
Lemma bbatch_lt : forall b, b < B * per -> b / per < B.
Proof. intros b Hb. apply Nat.div_lt_upper_bound; [lia|]. now rewrite Nat.mul_comm. Qed.
(** every schedule of a launch with such groups *)
Theorem brow_settles : forall k spl kind holds body (F : nat -> nat -> nat -> list (nat * entry) -> list fstep) (T : nat -> nat -> list upd) rg sh out,
  k_groups k = G -> k_threads k = BD -> (1 < NW -> bscratch V nci nco mid + NW <= k_shared k) ->
  (forall g t, g < G -> k_code k g t = code_of (row_group BD BY H W Wi ps lon_lo lat0 Wo (offsets 0 P) (columns P) mid per nl rows body g) t) ->
  (forall b ho wo act, expand BD (bscratch V nci nco mid) (F b ho wo act) = body b ho wo act) ->
  (forall g b c, g < k_groups k -> key g = Some (b, c) -> b < B * per -> c < nl * Wo -> fgood k NW (bown NW V nci nco mid (act_of b c)) (bpub V nci nco spl (act_of b c)) kind holds g false (F (b / per) (ho_of c) (wo_of c) (act_of b c))) ->
  (forall b c st, b < B * per -> c < nl * Wo -> ftrace (k_in k) BD (bown NW V nci nco mid (act_of b c)) (bpub V nci nco spl (act_of b c)) (F (b / per) (ho_of c) (wo_of c) (act_of b c)) st = T b c) ->
  (forall a gt gt', gt <> gt' -> holds a gt -> holds a gt' -> False) ->
  settles k (start k rg sh out) (fun o => o = upds (flat_map (at_key key T) (seq 0 (k_groups k))) out).
Proof.
  intros k spl kind holds body F T rg sh out Eg Et Es Ec Ex Hf Ht Hh. assert (K := bkeyed).
  assert (Kc : forall g b c, key g = Some (b, c) -> c < nl * Wo). { intros g b c E. unfold rkey in E. destruct (Nat.leb_spec (nl * Wo) (g mod width)) as [L|L]; [discriminate|]. injection E as <- <-. exact L. }
  apply (fsteps_settle_g k NW (bscratch V nci nco mid) (fun g => match key g with None => fun _ => BD | Some (b, c) => bown NW V nci nco mid (act_of b c) end) (fun g => match key g with None => fun _ => false | Some (b, c) => bpub V nci nco spl (act_of b c) end) kind holds) with (prog := at_key key (fun b c => F (b / per) (ho_of c) (wo_of c) (act_of b c))); auto.
  - intros g a Ha. destruct (key g) as [[b c]|] eqn:E; [|lia]. apply bown_high; auto. apply bact_mid. eauto.
  - intros g a Ha. destruct (key g) as [[b c]|] eqn:E; [|discriminate]. apply (bpub_own NW V nci nco mid spl); auto; [apply bact_mid; eauto|]. intros x Hx. apply (bact_ok b c x); [eauto|exact Hx].
  - intros g t Hg Ht'. rewrite Eg in Hg. rewrite Ec by exact Hg. f_equal.
    rewrite (row_group_eq NW BY V nloc nco nci H W Wi ps lon_lo lat0 B Ho Wo as_in P nq HNW HV Hnl Hci Hco HBY HWi HP mid per nl rows Hper Hlen Hrows Hmid body g Hg). unfold at_key. destruct (key g) as [[b c]|]; [symmetry; apply Ex|reflexivity].
  - intros g Hg. unfold at_key. destruct (key g) as [[b c]|] eqn:E; [|exact I]. rewrite Eg in Hg. destruct (ky_in _ _ _ _ K g b c Hg E). apply Hf; auto. now rewrite Eg.
  - intros g st Hg. unfold at_key. destruct (key g) as [[b c]|] eqn:E; [|reflexivity]. rewrite Eg in Hg. destruct (ky_in _ _ _ _ K g b c Hg E). now apply Ht.
Qed.
(** what a group reads *)
Section Facts.
Variables (k : kernel) (arr : list (nat * (nat -> R))).
Hypotheses (Ein : forall a, a < list_sum (map fst arr) -> k_in k a = joined arr a) (Esz : list_sum (map fst arr) <= k_insize k).
Lemma breads : forall i C h w (a : nat -> R) f b y x ad, i < length arr -> nth i arr (0, fun _ => 0%R) = (B * h * w * C, a) -> lays B h w C a f -> b < B -> y < h -> x < w -> ad = ((b * h + y) * w + x) * C -> reads (k_in k) (k_insize k) (part arr i) ad C (f b y x).
Proof.
  intros i C h w a f b y x ad Hi E HL Hb Hy Hx Ea c Hc. destruct (lays_reads NW BY V nloc nco nci Wi B as_in HNW HV Hnl Hci Hco HBY HWi arr i h w C a f b y x ad Hi E HL Hb Hy Hx Ea c Hc) as (A1 & A2 & A3). split; [exact A1|]. split; [lia|]. rewrite Ein by exact A2. exact A3.
Qed.
Lemma breads0 : forall i n (a : nat -> R), i < length arr -> nth i arr (0, fun _ => 0%R) = (n, a) -> reads (k_in k) (k_insize k) (part arr i) 0 n a.
Proof using Ein Esz. clear - Ein Esz. intros i n a Hi E c Hc. destruct (array_reads arr i n a Hi E c Hc) as (A1 & A2 & A3). split; [exact A1|]. split; [lia|]. rewrite Ein by exact A2. exact A3. Qed.
Hypotheses (Ek : nth 0 arr (0, fun _ => 0%R) = (B * H * W * Ck, kA)) (Ev : nth 1 arr (0, fun _ => 0%R) = (B * H * W * Cv, vA)) (Eq : nth 2 arr (0, fun _ => 0%R) = (cells * Ck, qA)) (Ed : nth 3 arr (0, fun _ => 0%R) = (cells * Cv, dA)) (El : 4 < length arr).
Lemma bfacts : forall b c, b < B * per -> c < nl * Wo ->
  (b / per < B /\ ho_of c < Ho /\ wo_of c < Wo /\ length (act_of b c) <= mid) /\
  (forall x, In x (listed (act_of b c)) -> x_lane x < BD) /\ (forall x, In x (listed (act_of b c)) -> x_hi x < nq) /\ (forall x, In x (listed (act_of b c)) -> fst (x_pt x) < H /\ snd (x_pt x) < W) /\
  (forall x, In x (listed (act_of b c)) -> reads (k_in k) (k_insize k) (part arr 0) (k_at V nci H W (b / per) (x_pt x)) Ck (kf (b / per) (fst (x_pt x)) (snd (x_pt x)))) /\
  (forall x, In x (listed (act_of b c)) -> reads (k_in k) (k_insize k) (part arr 1) (v_at V nco H W (b / per) (x_pt x)) Cv (vf (b / per) (fst (x_pt x)) (snd (x_pt x)))) /\
  reads (k_in k) (k_insize k) (part arr 2) (q_at V nci Ho Wo (b / per) (ho_of c) (wo_of c)) Ck (qf (b / per) (ho_of c) (wo_of c)) /\
  reads (k_in k) (k_insize k) (part arr 3) (dy_at V nco Ho Wo (b / per) (ho_of c) (wo_of c)) Cv (df (b / per) (ho_of c) (wo_of c)).
Proof.
  intros b c Hb Hc. destruct (bcell c Hc) as (_ & D2 & D3 & _). assert (Lb := bbatch_lt b Hb). assert (HX := fun x => bact_ok b c x Hc).
  split; [repeat split; auto; now apply bact_mid|]. split; [intros x Hx; apply (HX x Hx)|]. split; [intros x Hx; apply (HX x Hx)|]. split; [intros x Hx; apply (HX x Hx)|]. split; [|split; [|split]].
  - intros x Hx. destruct (HX x Hx) as (_ & _ & X1 & X2). eapply (breads 0 Ck H W kA kf); eauto; [lia|]. apply k_at_eq.
  - intros x Hx. destruct (HX x Hx) as (_ & _ & X1 & X2). eapply (breads 1 Cv H W vA vf); eauto; [lia|]. apply v_at_eq.
  - eapply (breads 2 Ck Ho Wo qA qf); eauto; [lia|]. apply q_at_eq.
  - eapply (breads 3 Cv Ho Wo dA df); eauto; [lia|]. unfold dy_at. ring.
Qed.
End Facts.
End Groups.
End Ctx.
