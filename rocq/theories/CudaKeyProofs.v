(** Kernels whose groups each serve one cell of one (folded) batch element, or none; the
    instructions of the attention kernels one by one, and their loops over channels. *)
From Coq Require Import List Arith Lia Bool Reals Lra Permutation FunctionalExtensionality.
From Verif Require Import TensorModel TensorProofs BigSum GpuModel GpuSpec GpuProofs GpuProofs2 WarpProofs CudaWarpModel WarpSumProofs CudaFwdProofs CudaAttnModel CudaAttnProofs CudaAttnLaneProofs WarpKernelProofs.
Import ListNotations.
Local Open Scope nat_scope.
Notation upd := (nat * uop * R)%type (only parsing).

(** ** Groups and cells *)
Record keyed (G BH N : nat) (key : nat -> option (nat * nat)) : Prop := {
  ky_in : forall g b c, g < G -> key g = Some (b, c) -> b < BH /\ c < N;
  ky_inj : forall g g' x, g < G -> g' < G -> key g = Some x -> key g' = Some x -> g = g';
  ky_sur : forall b c, b < BH -> c < N -> exists g, g < G /\ key g = Some (b, c) }.
Definition at_key {X} (key : nat -> option (nat * nat)) (f : nat -> nat -> list X) (g : nat) : list X := match key g with None => [] | Some (b, c) => f b c end.
Lemma in_at_key : forall X G BH N key (f : nat -> nat -> list X) x, keyed G BH N key -> (In x (flat_map (at_key key f) (seq 0 G)) <-> exists b c, b < BH /\ c < N /\ In x (f b c)).
Proof.
  intros X G BH N key f x K. rewrite in_flat_map. split.
  - intros (g & Hg & Hx). apply in_seq in Hg. unfold at_key in Hx. destruct (key g) as [[b c]|] eqn:E; [|destruct Hx]. exists b, c. destruct (ky_in _ _ _ _ K g b c ltac:(lia) E). auto.
  - intros (b & c & Hb & Hc & Hx). destruct (ky_sur _ _ _ _ K b c Hb Hc) as (g & Hg & E). exists g. split; [apply in_seq; lia|]. unfold at_key. now rewrite E.
Qed.
Lemma keyed_sum : forall X G BH N key (f : nat -> nat -> list X) (F : X -> R), keyed G BH N key ->
  rlsum F (flat_map (at_key key f) (seq 0 G)) = rsum BH (fun b => rsum N (fun c => rlsum F (f b c))).
Proof.
  intros X G BH N key f F K. rewrite (lsum_flat_map RT).
  set (keys := flat_map (fun g => match key g with None => [] | Some x => [x] end) (seq 0 G)).
  transitivity (rlsum (fun x => rlsum F (f (fst x) (snd x))) keys).
  { unfold keys. rewrite (lsum_flat_map RT). apply lsum_ext. intros g _. unfold at_key. destruct (key g) as [[b c]|]; cbn [lsum_ fold_right fst snd]; [ring|reflexivity]. }
  rewrite (lsum_perm RT _ _ keys (list_prod (seq 0 BH) (seq 0 N))).
  - transitivity (rlsum (fun b => rlsum (fun c => rlsum F (f b c)) (seq 0 N)) (seq 0 BH)).
    + induction (seq 0 BH) as [|b l IH]; [reflexivity|]. cbn [list_prod]. rewrite (lsum_app RT), IH, lsum_map. reflexivity.
    + rewrite (lsum_seq RT). apply bsum_ext. intros b _. apply (lsum_seq RT).
  - apply NoDup_Permutation.
    + unfold keys. assert (Q : forall n, n <= G -> NoDup (flat_map (fun g => match key g with None => [] | Some x => [x] end) (seq 0 n))).
      { induction n as [|n IH]; intros Hn; [constructor|]. rewrite seq_S, flat_map_app. cbn [flat_map plus]. rewrite app_nil_r. destruct (key n) as [x|] eqn:E; [|rewrite app_nil_r; apply IH; lia].
        apply (Permutation_NoDup (Permutation_cons_append _ _)). constructor; [|apply IH; lia]. intros Hx. apply in_flat_map in Hx. destruct Hx as (g & Hg & Hx). apply in_seq in Hg. destruct (key g) eqn:Eg; [|destruct Hx]. destruct Hx as [->|[]].
        assert (g = n) by (apply (ky_inj _ _ _ _ K g n x); auto; lia). lia. }
      apply Q. lia.
    + assert (P : forall A B (a : list A) (b : list B), NoDup a -> NoDup b -> NoDup (list_prod a b)).
      { intros A B a b Ha Hb. induction Ha as [|x a Hx Ha IH]; [constructor|]. cbn [list_prod]. assert (ND : NoDup (map (fun y => (x, y)) b)) by (apply FinFun.Injective_map_NoDup; [intros u v E; congruence|exact Hb]).
        clear Hb. revert IH. assert (D : forall z, In z (map (fun y => (x, y)) b) -> ~ In z (list_prod a b)). { intros z Hz. apply in_map_iff in Hz. destruct Hz as (y & <- & _). intros Hi. apply in_prod_iff in Hi. tauto. }
        revert ND D. generalize (map (fun y => (x, y)) b) as l. induction l as [|z l IHl]; intros ND D IH; [exact IH|]. inversion ND; subst. cbn [app]. constructor; [rewrite in_app_iff; intros [?|?]; [contradiction|]; apply (D z); [now left|assumption]|].
        apply IHl; auto. intros w Hw. apply D. now right. }
      apply P; apply seq_NoDup.
    + intros [b c]. unfold keys. rewrite in_flat_map, in_prod_iff, !in_seq. split.
      * intros (g & Hg & Hx). apply in_seq in Hg. destruct (key g) as [y|] eqn:E; [|destruct Hx]. destruct Hx as [->|[]]. destruct (ky_in _ _ _ _ K g b c ltac:(lia) E). lia.
      * intros [[_ Hb] [_ Hc]]. destruct (ky_sur _ _ _ _ K b c ltac:(lia) ltac:(lia)) as (g & Hg & E). exists g. split; [apply in_seq; lia|]. rewrite E. now left.
Qed.

(** ** Sums of updates *)
Definition hits (a : nat) (tr : list upd) : R := rlsum (fun u => if (fst (fst u) =? a)%nat then snd u else 0)%R tr.
Lemma hits_app : forall a x y, hits a (x ++ y) = (hits a x + hits a y)%R.
Proof. intros. apply (lsum_app RT). Qed.
Lemma hits_flat : forall X a (f : X -> list upd) l, hits a (flat_map f l) = rlsum (fun x => hits a (f x)) l.
Proof. intros. apply (lsum_flat_map RT). Qed.
Lemma hits_map : forall X a (ad : X -> nat) o (v : X -> R) l, hits a (map (fun c => (ad c, o, v c)) l) = rlsum (fun c => if (ad c =? a)%nat then v c else 0)%R l.
Proof. intros. unfold hits. rewrite lsum_map. reflexivity. Qed.
Lemma lanes_sum : forall nT n own ch (f : nat -> R), covers nT n own ch -> (forall c, c < n -> own c < nT) -> rlsum (fun t => rlsum f (ch t)) (seq 0 nT) = rsum n f.
Proof. intros. rewrite (lsum_seq RT). now apply (covers_sum nT n own). Qed.
Lemma rsum_one : forall n i (f : nat -> R), i < n -> rsum n (fun j => if (j =? i)%nat then f j else 0)%R = f i.
Proof. intros. now apply (bsum_delta_f RT). Qed.
Lemma rsum_0 : forall n (f : nat -> R), (forall j, j < n -> f j = 0%R) -> rsum n f = 0%R.
Proof. intros n f H. rewrite (bsum_ext n f (fun _ => 0%R)) by exact H. apply (bsum_zero RT). Qed.
(** channels of a thread of one warp, one element at a time *)
Lemma warp_covers : forall n, covers 32 n (fun c => c mod 32) (loop_chans 32 n).
Proof. intros. apply loop_covers. lia. Qed.
Lemma warp_lanes : forall n (f : nat -> R), rlsum (fun t => rlsum f (loop_chans 32 n t)) (seq 0 32) = rsum n f.
Proof. intros. apply (lanes_sum 32 n _ _ f (warp_covers n)). intros. apply Nat.mod_upper_bound. lia. Qed.

(** ** Who may do what *)
Section Fine.
Variables (k : kernel) (own : nat -> nat) (pub : nat -> bool) (kind : nat -> option aop) (holds : nat -> nat * nat -> Prop) (ph : bool) (g t : nat).
Notation ok := (fine k own pub kind holds ph g t).
Lemma fine_set : forall r f, ok (ISet r f).
Proof. intros. split; [reflexivity|]. split; [|exact I]. split; [reflexivity|]. intros a. split; intros []. Qed.
Lemma fine_get : forall inp p b n f r c, reads inp (k_insize k) p b n f -> c < n -> ok (get p r (b + c)).
Proof. intros inp p b n f r c H Hc. rewrite (get_reads inp (k_insize k) p b n f r c H Hc). destruct (H c Hc) as (_ & L & _). split; [apply Nat.ltb_lt; exact L|]. split; [|exact I]. split; [reflexivity|]. intros a. split; intros []. Qed.
Lemma fine_get0 : forall inp p n f r c, reads inp (k_insize k) p 0 n f -> c < n -> ok (get p r c).
Proof. intros inp p n f r c H Hc. exact (fine_get inp p 0 n f r c H Hc). Qed.
Lemma fine_load : forall r a, a < k_shared k -> vis own pub ph t a -> ok (ILoad r a).
Proof. intros r a H1 H2. split; [apply Nat.ltb_lt; exact H1|]. split; [|exact I]. split; [reflexivity|]. intros b. split; [intros []|]. cbn. now intros <-. Qed.
Lemma fine_store : forall a f, a < k_shared k -> wr own pub ph t a -> ok (IStore a f).
Proof. intros a f H1 H2. split; [apply Nat.ltb_lt; exact H1|]. split; [|exact I]. split; [reflexivity|]. intros b. split; [|intros []]. cbn. now intros <-. Qed.
Lemma fine_out : forall p i f, i < snd p -> fst p + i < k_outsize k -> kind (fst p + i) = None -> holds (fst p + i) (g, t) -> ok (set_out p i f).
Proof. intros p i f H1 H2 H3 H4. unfold set_out. rewrite (proj2 (Nat.ltb_lt _ _) H1). split; [apply Nat.ltb_lt; exact H2|]. split; [|split; assumption]. split; [reflexivity|]. intros a. split; intros []. Qed.
Lemma fine_add : forall o p i f, i < snd p -> fst p + i < k_outsize k -> kind (fst p + i) = Some o -> ok (add_out o p i f).
Proof. intros o p i f H1 H2 H3. unfold add_out. rewrite (proj2 (Nat.ltb_lt _ _) H1). split; [apply Nat.ltb_lt; exact H2|]. split; [|exact H3]. split; [reflexivity|]. intros a. split; intros []. Qed.
End Fine.
Lemma Forall_flat : forall X Y (P : Y -> Prop) (f : X -> list Y) l, (forall x, In x l -> Forall P (f x)) -> Forall P (flat_map f l).
Proof. intros X Y P f l H. apply Forall_forall. intros y Hy. apply in_flat_map in Hy. destruct Hy as (x & Hx & Hy). exact (proj1 (Forall_forall _ _) (H x Hx) y Hy). Qed.
Lemma fgood_app : forall k NW own pub kind holds g a b ph, (forall x, In x a -> x <> FShare) -> fgood k NW own pub kind holds g ph a -> fgood k NW own pub kind holds g ph b -> fgood k NW own pub kind holds g ph (a ++ b).
Proof.
  intros k NW own pub kind holds g. induction a as [|[p|r|] a IH]; intros b ph N Ha Hb; cbn [app fgood] in *; [exact Hb| | |].
  - destruct Ha as [H1 H2]. split; [exact H1|]. apply IH; auto. intros x Hx. apply N. now right.
  - apply IH; auto. intros x Hx. apply N. now right.
  - exfalso. apply (N FShare); [now left|reflexivity].
Qed.
Lemma fgood_flat : forall X k NW own pub kind holds g (f : X -> list fstep) l ph, (forall x, In x l -> (forall y, In y (f x) -> y <> FShare) /\ fgood k NW own pub kind holds g ph (f x)) -> fgood k NW own pub kind holds g ph (flat_map f l).
Proof. intros X k NW own pub kind holds g f. induction l as [|x l IH]; intros ph H; [exact I|]. cbn [flat_map]. apply fgood_app; [apply H; now left|apply H; now left|]. apply IH. intros. apply H. now right. Qed.

(** ** Written cells *)
Section Write.
Variables (G BH N nT NF : nat) (key : nat -> option (nat * nat)) (nch : nat -> nat) (chn : nat -> nat) (ch : nat -> nat -> list nat) (addr : nat -> nat -> nat -> nat -> nat) (vl : nat -> nat -> nat -> nat -> R).
Hypotheses (K : keyed G BH N key) (Hch : forall i, i < NF -> covers nT (nch i) chn (ch i)) (Hchn : forall i c, i < NF -> c < nch i -> chn c < nT).
Hypothesis (Hinj : forall i b c x i' b' c' x', i < NF -> b < BH -> c < N -> x < nch i -> i' < NF -> b' < BH -> c' < N -> x' < nch i' -> addr i b c x = addr i' b' c' x' -> i = i' /\ b = b' /\ c = c' /\ x = x').
Definition wholds (a : nat) (gt : nat * nat) : Prop := fst gt < G /\ exists b c i x, key (fst gt) = Some (b, c) /\ i < NF /\ x < nch i /\ chn x = snd gt /\ a = addr i b c x.
Definition wtrace (b c : nat) : list upd := flat_map (fun t => flat_map (fun i => map (fun x => (addr i b c x, USet, vl i b c x)) (ch i t)) (seq 0 NF)) (seq 0 nT).
Lemma wholds_one : forall a gt gt', gt <> gt' -> wholds a gt -> wholds a gt' -> False.
Proof using K Hinj.
  intros a [g t] [g' t'] Ne (Hg & b & c & i & x & E & Hi & Hx & Ht & Ea) (Hg' & b' & c' & i' & x' & E' & Hi' & Hx' & Ht' & Ea'). cbn [fst snd] in *.
  destruct (ky_in _ _ _ _ K g b c Hg E). destruct (ky_in _ _ _ _ K g' b' c' Hg' E'). subst a. apply Hinj in Ea'; auto. destruct Ea' as (-> & -> & -> & ->). apply Ne. f_equal; [|congruence]. eapply (ky_inj _ _ _ _ K); eauto.
Qed.
Lemma wholds_at : forall g t b c i x, g < G -> key g = Some (b, c) -> i < NF -> x < nch i -> chn x = t -> wholds (addr i b c x) (g, t).
Proof. intros g t b c i x H1 H2 H3 H4 H5. split; [exact H1|]. exists b, c, i, x. auto. Qed.
(** what is found where something is written, whatever else happens elsewhere *)
Lemma written : forall (T : nat -> nat -> list upd) out b c i x, i < NF -> b < BH -> c < N -> x < nch i ->
  (forall b' c' u, b' < BH -> c' < N -> In u (T b' c') -> (exists t, t < nT /\ exists i' x', i' < NF /\ In x' (ch i' t) /\ u = (addr i' b' c' x', USet, vl i' b' c' x')) \/ fst (fst u) <> addr i b c x) ->
  (forall u, In u (wtrace b c) -> In u (T b c)) ->
  upds (flat_map (at_key key T) (seq 0 G)) out (addr i b c x) = vl i b c x.
Proof using K Hinj Hch Hchn.
  intros T out b c i x Hi Hb Hc Hx HT HI. apply (upds_set (fun _ => vl i b c x)).
  - intros u Hu Ea. apply (in_at_key _ G BH N key T u K) in Hu. destruct Hu as (b' & c' & Hb' & Hc' & Hu). destruct (HT b' c' u Hb' Hc' Hu) as [(t & Ht & i' & x' & Hi' & Hx' & ->)|Ne]; [|contradiction].
    cbn [fst] in Ea. apply (Hch i' Hi' t Ht) in Hx'. rewrite Ea. apply Hinj in Ea; try tauto. destruct Ea as (-> & -> & -> & ->). reflexivity.
  - exists (addr i b c x, USet, vl i b c x). split; [|reflexivity]. apply (in_at_key _ G BH N key T _ K). exists b, c. split; [exact Hb|]. split; [exact Hc|]. apply HI. unfold wtrace. apply in_flat_map. exists (chn x).
    assert (L := Hchn i x Hi Hx). split; [apply in_seq; lia|]. apply in_flat_map. exists i. split; [apply in_seq; lia|]. apply in_map_iff. exists x. split; [reflexivity|]. apply (Hch i Hi (chn x) L). auto.
Qed.
End Write.
