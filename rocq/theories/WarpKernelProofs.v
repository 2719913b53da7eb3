(** Kernels whose groups consist of segments, sums over the group, and points at which part
    of the shared array is published: from then on every thread may read it and none writes
    it. *)
From Coq Require Import List Arith Lia Bool Reals Lra Permutation FunctionalExtensionality.
From Verif Require Import TensorModel TensorProofs BigSum GpuModel GpuSpec GpuProofs GpuProofs2 WarpProofs CudaWarpModel WarpSumProofs CudaFwdProofs CudaAttnModel CudaAttnProofs CudaAttnLaneProofs.
Import ListNotations.
Local Open Scope nat_scope.

Inductive fstep := FSeg (p : nat -> list instr) | FSum (r : nat) | FShare.
Definition expand1 (BD sc : nat) (x : fstep) : list gstep := match x with FSeg p => [Seg p] | FSum r => the_sum BD sc r | FShare => [Bar (fun t all => all t)] end.
Definition expand (BD sc : nat) (l : list fstep) : list gstep := flat_map (expand1 BD sc) l.
Lemma expand_app : forall BD sc a b, expand BD sc (a ++ b) = expand BD sc a ++ expand BD sc b.
Proof. intros. apply flat_map_app. Qed.
Lemma expand_flat : forall X BD sc (f : X -> list fstep) l, expand BD sc (flat_map f l) = flat_map (fun x => expand BD sc (f x)) l.
Proof. intros X BD sc f. induction l; [reflexivity|]. cbn [flat_map]. now rewrite expand_app, IHl. Qed.

Notation lanes := (nat -> (nat -> R) * (nat -> R)) (only parsing).
Notation upd := (nat * uop * R)%type (only parsing).

Section Frame.
Variables (inp : nat -> R) (nT : nat) (own : nat -> nat) (pub : nat -> bool).
(** what the lanes do *)
Definition shared_out (st : lanes) : lanes := fun t => if t <? nT then (fst (st t), fun a => if pub a then snd (st (own a)) a else snd (st t) a) else st t.
Definition fstate (st : lanes) (x : fstep) : lanes := match x with FSeg p => after inp nT p st | FSum r => after_sum nT r st | FShare => shared_out st end.
Definition ftrace1 (st : lanes) (x : fstep) : list upd := match x with FSeg p => flat_map (fun t => snd (lrun inp (p t) (st t))) (seq 0 nT) | _ => [] end.
Definition fend (prog : list fstep) (st : lanes) : lanes := fold_left fstate prog st.
Fixpoint ftrace (prog : list fstep) (st : lanes) : list upd := match prog with [] => [] | x :: r => ftrace1 st x ++ ftrace r (fstate st x) end.
Lemma fend_app : forall a b st, fend (a ++ b) st = fend b (fend a st).
Proof. intros. apply fold_left_app. Qed.
Lemma ftrace_app : forall a b st, ftrace (a ++ b) st = ftrace a st ++ ftrace b (fend a st).
Proof. induction a as [|x a IH]; intros b st; [reflexivity|]. cbn [app ftrace fend fold_left]. rewrite IH, app_assoc. reflexivity. Qed.
Lemma floop : forall X (f : X -> list fstep) (tr : X -> list upd) (Inv : list X -> lanes -> Prop) l st, Inv [] st ->
  (forall d x r st, l = d ++ x :: r -> Inv d st -> Inv (d ++ [x]) (fend (f x) st) /\ ftrace (f x) st = tr x) ->
  Inv l (fend (flat_map f l) st) /\ ftrace (flat_map f l) st = flat_map tr l.
Proof.
  intros X f tr Inv l st H0 HS.
  assert (G : forall r d st, l = d ++ r -> Inv d st -> Inv l (fend (flat_map f r) st) /\ ftrace (flat_map f r) st = flat_map tr r).
  { induction r as [|x r IH]; intros d m0 E HI.
    - rewrite app_nil_r in E. subst. split; [exact HI|reflexivity].
    - cbn [flat_map]. rewrite fend_app, ftrace_app. destruct (HS d x r m0 E HI) as [H1 H2]. destruct (IH (d ++ [x]) (fend (f x) m0)) as [H3 H4]; [now rewrite <- app_assoc|exact H1|].
      split; [exact H3|]. now rewrite H2, H4. }
  exact (G l [] st eq_refl H0).
Qed.

(** who may read and write, before and after the publication *)
Definition vis (ph : bool) (t a : nat) : Prop := own a = t \/ (ph = true /\ pub a = true).
Definition wr (ph : bool) (t a : nat) : Prop := own a = t /\ (ph = true -> pub a = false).
Definition fsees (ph : bool) (rg : nat -> nat -> R) (sh : nat -> R) (st : lanes) : Prop := forall t, fst (st t) = rg t /\ (t < nT -> forall a, vis ph t a -> snd (st t) a = sh a).
Lemma wr_vis : forall ph t t' a, wr ph t a -> t <> t' -> ~ vis ph t' a.
Proof. intros ph t t' a [H1 H2] Ne [H|[-> H]]; [congruence|]. rewrite H2 in H by auto. discriminate. Qed.
Lemma frame : forall ph t p rg sh sh', Forall (conforms (wr ph) (vis ph) t) p -> (forall a, vis ph t a -> sh a = sh' a) ->
  fst (fst (lrun inp p (rg, sh))) = fst (fst (lrun inp p (rg, sh'))) /\ snd (lrun inp p (rg, sh)) = snd (lrun inp p (rg, sh')) /\
  (forall a, vis ph t a -> snd (fst (lrun inp p (rg, sh))) a = snd (fst (lrun inp p (rg, sh'))) a) /\ (forall a, ~ wr ph t a -> snd (fst (lrun inp p (rg, sh))) a = sh a).
Proof.
  intros ph t. induction p as [|i p IH]; intros rg sh sh' C H.
  { cbn. auto. }
  inversion C as [|? ? [Hs Hi] C']; subst. rewrite !lrun_cons. cbn [fst snd].
  assert (E1 : reg_of inp i rg sh = reg_of inp i rg sh'). { destruct i; try reflexivity. cbn in *. rewrite H; [reflexivity|]. apply (proj2 (Hi _)). now cbn. }
  assert (E2 : forall a, vis ph t a -> sh_of i rg sh a = sh_of i rg sh' a). { intros a Ha. destruct i; cbn; auto. unfold put. destruct (a =? a0); auto. }
  assert (E3 : forall a, ~ wr ph t a -> sh_of i rg sh a = sh a). { intros a Ha. destruct i; cbn; auto. apply put_ne. intros ->. apply Ha. apply (proj1 (Hi _)). now cbn. }
  destruct (IH (reg_of inp i rg sh) _ _ C' E2) as (A1 & A2 & A3 & A4). rewrite <- E1. split; [exact A1|]. split; [now rewrite A2|]. split; [exact A3|].
  intros a Ha. rewrite A4 by auto. auto.
Qed.
Lemma fseg : forall ph p rg sh out st, (forall t, t < nT -> Forall (conforms (wr ph) (vis ph) t) (p t)) -> fsees ph rg sh st ->
  let '(rg', sh', out') := run_step inp nT (rg, sh, out) (Seg p) in fsees ph rg' sh' (after inp nT p st) /\ out' = upds (ftrace1 st (FSeg p)) out.
Proof.
  intros ph p rg sh out st C V. cbn [run_step ftrace1].
  assert (G : forall n, n <= nT -> let '(rg', sh', out') := fold_left (turn1 inp p) (seq 0 n) (rg, sh, out) in
     (forall t, rg' t = fst (if t <? n then fst (lrun inp (p t) (st t)) else st t)) /\
     (forall t, t < nT -> forall a, vis ph t a -> snd (if t <? n then fst (lrun inp (p t) (st t)) else st t) a = sh' a) /\ out' = upds (flat_map (fun t => snd (lrun inp (p t) (st t))) (seq 0 n)) out).
  { induction n as [|n IH]; intros Hn.
    - cbn. split; [intros t; symmetry; apply V|]. split; [intros t Ht a Ha; now apply V|reflexivity].
    - rewrite seq_S, fold_left_app, flat_map_app, upds_app. cbn [fold_left plus flat_map]. rewrite app_nil_r. specialize (IH ltac:(lia)).
      destruct (fold_left _ _ _) as [[r1 s1] o1]. destruct IH as (I1 & I2 & I3). unfold turn1. rewrite run_lrun.
      assert (Er : r1 n = fst (st n)) by (rewrite I1; now rewrite Nat.ltb_irrefl).
      assert (Es : forall a, vis ph n a -> s1 a = snd (st n) a). { intros a Ha. rewrite <- (I2 n) by (auto; lia). now rewrite Nat.ltb_irrefl. }
      destruct (frame ph n (p n) (r1 n) s1 (snd (st n)) (C n ltac:(lia)) Es) as (A1 & A2 & A3 & A4). rewrite Er in A1, A2, A3, A4 |- *. rewrite <- surjective_pairing in A1, A2, A3.
      split; [|split].
      + intros t. unfold put. destruct (Nat.eqb_spec t n) as [->|Ne].
        * rewrite (proj2 (Nat.ltb_lt n (Datatypes.S n))) by lia. exact A1.
        * rewrite I1. destruct (Nat.ltb_spec t n), (Nat.ltb_spec t (Datatypes.S n)); auto; lia.
      + intros t Ht a Ha. destruct (Nat.eq_dec t n) as [->|Ne].
        * rewrite (proj2 (Nat.ltb_lt n (Datatypes.S n))) by lia. rewrite A3 by auto. reflexivity.
        * rewrite A4 by (intros Hw; apply (wr_vis ph n t a Hw); auto). rewrite <- (I2 t) by auto. destruct (Nat.ltb_spec t n), (Nat.ltb_spec t (Datatypes.S n)); auto; lia.
      + now rewrite A2, I3. }
  specialize (G nT (Nat.le_refl _)). destruct (fold_left _ _ _) as [[r1 s1] o1]. destruct G as (G1 & G2 & G3). split; [|exact G3]. intros t. cbn [fst]. split; [now rewrite G1|].
  intros Ht a Ha. rewrite <- (G2 t Ht a Ha). reflexivity.
Qed.
End Frame.

(** ** A launch *)
Section Kernel.
Variables (k : kernel) (NW sc : nat) (own : nat -> nat) (pub : nat -> bool) (kind : nat -> option aop) (holds : nat -> nat * nat -> Prop).
Notation nT := (32 * NW).
Hypotheses (HNW : 1 <= NW <= 32) (Et : k_threads k = nT) (Hsh : 1 < NW -> sc + NW <= k_shared k).
Hypotheses (Hown : forall a, sc <= a -> nT <= own a) (Hpub : forall a, pub a = true -> own a < nT).
Definition fine (ph : bool) (g t : nat) (i : instr) : Prop := in_bounds k i = true /\ conforms (wr own pub ph) (vis own pub ph) t i /\ tidy kind holds (g, t) i.
Fixpoint fgood (g : nat) (ph : bool) (prog : list fstep) : Prop :=
  match prog with
  | [] => True
  | FSeg p :: r => (forall t, t < nT -> Forall (fine ph g t) (p t)) /\ fgood g ph r
  | FSum _ :: r => fgood g ph r
  | FShare :: r => fgood g true r
  end.
Definition Wf (ph : bool) (t a : nat) : Prop := wr own pub ph t a \/ (a = sc + t / warp_size /\ t mod warp_size = 0).
Lemma Wf_disciplined : forall ph, disciplined k (Wf ph) (vis own pub ph).
Proof using HNW Et Hsh Hown Hpub.
  intros ph t t' a Ht Ht' Ne H. rewrite Et in Ht, Ht'. destruct (Nat.lt_ge_cases a sc) as [L|L].
  - destruct H as [H|[H _]]; [|lia]. assert (V := wr_vis own pub ph t t' a H Ne). split; [|exact V]. intros [H'|[H' _]]; [|lia]. apply V. left. apply H'.
  - specialize (Hown a L). destruct H as [[H _]|[H Hm]]; [lia|]. split.
    + intros [[H' _]|[H' Hm']]; [lia|]. apply Ne. rewrite (proj1 (split32 t)), (proj1 (split32 t')). lia.
    + intros [H'|[_ H']]; [lia|]. apply Hpub in H'. lia.
Qed.
Lemma sum_safe' : forall ph r rest, safe k (Wf ph) (vis own pub ph) rest -> safe k (Wf ph) (vis own pub ph) (the_sum nT sc r ++ rest).
Proof using HNW Et Hsh Hown Hpub.
  intros ph r rest S. rewrite the_sum_block. unfold block_sum. rewrite <- app_assoc. apply warp_sum_safe. destruct (Nat.ltb_spec 1 NW) as [HN|HN]; [|exact S].
  rewrite <- app_assoc. cbn [app safe]. split.
  { intros t Ht. destruct (Nat.eqb_spec (t mod warp_size) 0); [|constructor]. cf. subst. now right. }
  exists (fun t a => t = 0 /\ a = sc), (fun t a => a = sc + t). split; [intros t t' a Ht Ht' Ne [-> ->]; split; [intros [? _]; auto|lia]|]. split.
  { intros t Ht. destruct (Nat.eqb_spec (t / warp_size) 0) as [E0|]; [|constructor]. assert (Em : t mod warp_size = t) by (rewrite (proj1 (split32 t)) at 2; lia).
    rewrite Em. clear Em E0. destruct (_ <? NW); cf. congruence. }
  rewrite <- app_assoc. apply warp_sum_safe. cbn [app safe]. split.
  { intros t Ht. destruct (Nat.eqb_spec (t / warp_size) 0) as [E0|]; [|constructor]. destruct (Nat.eqb_spec (t mod warp_size) 0) as [E1|]; [|constructor]. assert (t = 0) by (rewrite (proj1 (split32 t)); lia). cbn [andb]. clear E0 E1. cf. subst. auto. }
  exists (fun _ _ => False), (fun _ _ => True). split; [intros t t' a _ _ _ []|]. split.
  { intros t Ht. cf. }
  exists (Wf ph), (vis own pub ph). split; [apply Wf_disciplined|exact S].
Qed.
Lemma fgood_bounds : forall g prog ph, fgood g ph prog -> Forall (step_bounds k) (expand nT sc prog).
Proof using HNW Et Hsh Hown Hpub.
  intros g. induction prog as [|[p|r|] prog IH]; intros ph H; [constructor| | |]; cbn [expand flat_map expand1]; apply Forall_app.
  - destruct H as [H1 H2]. split; [|now apply (IH ph)]. constructor; [|constructor]. intros t Ht. rewrite Et in Ht. eapply Forall_impl; [|exact (H1 t Ht)]. intros i Q. apply Q.
  - split; [now apply sum_bounds|now apply (IH ph)].
  - split; [repeat constructor|now apply (IH true)].
Qed.
Lemma fgood_safe : forall g prog ph, fgood g ph prog -> safe k (Wf ph) (vis own pub ph) (expand nT sc prog).
Proof using HNW Et Hsh Hown Hpub.
  intros g. induction prog as [|[p|r|] prog IH]; intros ph H; [exact I| | |].
  - destruct H as [H1 H2]. cbn [expand flat_map expand1 app safe]. split; [|now apply IH]. intros t Ht. rewrite Et in Ht. eapply Forall_impl; [|exact (H1 t Ht)]. intros i (_ & [Q1 Q2] & _). split; [exact Q1|].
    intros a. destruct (Q2 a) as [A B]. split; [intros; left; now apply A|exact B].
  - cbn [expand flat_map expand1]. apply sum_safe'. now apply IH.
  - cbn [expand flat_map expand1 app safe]. exists (Wf true), (vis own pub true). split; [apply Wf_disciplined|]. now apply IH.
Qed.
Lemma fgood_tidy : forall g prog ph t x, fgood g ph prog -> t < nT -> In x (expand nT sc prog) -> match x with Seg p => Forall (tidy kind holds (g, t)) (p t) | _ => True end.
Proof using HNW Et Hsh Hown Hpub.
  intros g prog. induction prog as [|[p|r|] prog IH]; intros ph t x H Ht Hx; [destruct Hx| | |]; cbn [expand flat_map expand1] in Hx; apply in_app_iff in Hx.
  - destruct H as [H1 H2]. destruct Hx as [[<-|[]]|Hx]; [|now apply (IH ph)]. eapply Forall_impl; [|exact (H1 t Ht)]. intros i Q. apply Q.
  - destruct Hx as [Hx|Hx]; [|now apply (IH ph)]. destruct x as [p| |]; auto. apply (sum_segs NW sc r p t) in Hx. eapply Forall_impl; [|exact Hx]. intros i Q. destruct i; try exact I; contradiction.
  - destruct Hx as [[<-|[]]|Hx]; [exact I|now apply (IH true)].
Qed.
Lemma fgood_run : forall inp g prog ph rg sh out st, fgood g ph prog -> fsees nT own pub ph rg sh st -> snd (run_prog inp nT (expand nT sc prog) (rg, sh, out)) = upds (ftrace inp nT own pub prog st) out.
Proof using HNW Et Hsh Hown Hpub.
  intros inp g. induction prog as [|x prog IH]; intros ph rg sh out st H V; [reflexivity|]. cbn [expand flat_map ftrace]. unfold run_prog. rewrite fold_left_app, upds_app. destruct x as [p|r|].
  - destruct H as [H1 H2]. cbn [expand1 fold_left fstate]. assert (Q := fseg inp nT own pub ph p rg sh out st). destruct (run_step inp nT (rg, sh, out) (Seg p)) as [[rg' sh'] out'].
    destruct Q as [Q1 Q2]; [intros t Ht; eapply Forall_impl; [|exact (H1 t Ht)]; intros i Q; apply Q|exact V|]. rewrite <- Q2. exact (IH ph rg' sh' out' _ H2 Q1).
  - cbn [expand1 fstate]. rewrite the_sum_block. destruct (block_sum_run inp NW sc r rg sh out HNW) as (rg' & sh' & E & Hs & Hr). unfold run_prog in E. rewrite E. cbn [ftrace1 upds fold_left].
    apply (IH ph rg' sh' out _ H). intros t. rewrite Hr. unfold after_sum. assert (Erg : (fun t' => fst (st t') r) = (fun t' => rg t' r)) by (apply functional_extensionality; intros t'; now rewrite (proj1 (V t'))). rewrite Erg.
    destruct (Nat.ltb_spec t nT) as [L|L]; [|split; [apply V|intros; lia]]. cbn [fst snd]. split; [now rewrite (proj1 (V t))|]. intros _ a Ha. rewrite (proj2 (V t) L a Ha). symmetry. apply Hs.
    left. destruct (Nat.lt_ge_cases a sc) as [La|La]; [exact La|]. specialize (Hown a La). destruct Ha as [Ha|[_ Ha]]; [lia|]. apply Hpub in Ha. lia.
  - cbn [expand1 fold_left run_step fstate ftrace1 upds]. apply (IH true _ _ _ _ H). intros t. unfold shared_out. destruct (Nat.ltb_spec t nT) as [L|L]; [|split; [apply V|intros; lia]]. cbn [fst snd]. split; [apply V|].
    intros _ a Ha. destruct (pub a) eqn:Ea.
    + assert (O := Hpub a Ea). apply (proj2 (V (own a)) O). now left.
    + destruct Ha as [Ha|[_ Ha]]; [|congruence]. apply (proj2 (V t) L). now left.
Qed.
Theorem fsteps_settle : forall (prog : nat -> list fstep) (T : nat -> list upd) rg sh out,
  (forall g t, g < k_groups k -> t < k_threads k -> k_code k g t = code_of (expand nT sc (prog g)) t) -> (forall g, g < k_groups k -> fgood g false (prog g)) ->
  (forall a gt gt', gt <> gt' -> holds a gt -> holds a gt' -> False) -> (forall g st, g < k_groups k -> ftrace (k_in k) nT own pub (prog g) st = T g) ->
  settles k (start k rg sh out) (fun o => o = upds (flat_map T (seq 0 (k_groups k))) out).
Proof using HNW Et Hsh Hown Hpub.
  intros prog T rg sh out E G D Tr. set (pr := fun g => expand nT sc (prog g)).
  apply (program_settles k pr (fun n o => o = upds (flat_map T (seq 0 n)) out) _ rg sh out (Wf false) (vis own pub false)); auto.
  - lia.
  - intros g Hg. unfold pr. now apply (fgood_bounds g _ false), G.
  - apply Wf_disciplined.
  - intros g Hg. unfold pr. now apply (fgood_safe g), G.
  - intros g t g' t' Hg H Hg' H' Ne. rewrite !E by auto. rewrite Et in H, H'. apply (tidy_compat kind holds (g, t) (g', t')); [intros a; apply D; auto| |].
    + apply Forall_forall. intros i Hi. apply in_flat_map in Hi. destruct Hi as (x & Hx & Hi). assert (Q := fgood_tidy g (prog g) false t x (G g Hg) H Hx). destruct x as [p|f|who f]; cbn [code1] in Hi; [|destruct Hi as [<-|[]]; exact I|destruct (who _); [destruct Hi as [<-|[]]; exact I|destruct Hi]].
      exact (proj1 (Forall_forall _ _) Q i Hi).
    + apply Forall_forall. intros i Hi. apply in_flat_map in Hi. destruct Hi as (x & Hx & Hi). assert (Q := fgood_tidy g' (prog g') false t' x (G g' Hg') H' Hx). destruct x as [p|f|who f]; cbn [code1] in Hi; [|destruct Hi as [<-|[]]; exact I|destruct (who _); [destruct Hi as [<-|[]]; exact I|destruct Hi]].
      exact (proj1 (Forall_forall _ _) Q i Hi).
  - intros g rg' sh' out' Hg ->. rewrite seq_S, flat_map_app, upds_app. cbn [flat_map plus]. rewrite app_nil_r. unfold pr. rewrite Et.
    rewrite (fgood_run (k_in k) g (prog g) false rg' sh' _ (fun t => (rg' t, sh')) (G g Hg)); [now rewrite Tr|]. intros t. split; [reflexivity|auto].
Qed.
End Kernel.

Lemma settles_impl : forall k s (P Q : (nat -> R) -> Prop), settles k s P -> (forall o, P o -> Q o) -> settles k s Q.
Proof. intros k s P Q [n H] I. exists n. intros j u Hp. destruct (H j u Hp) as [H1 H2]. split; [exact H1|]. intros F. destruct (H2 F) as [H3 H4]. auto. Qed.
