(** The rescale kernels: what one thread does, and all threads together when reads see the
    state before the launch. *)
From Coq Require Import List Arith Lia Bool Reals Lra FunctionalExtensionality.
From Verif Require Import TensorModel TensorProofs GpuModel GpuSpec GpuProofs GpuProofs2 GpuRwModel GpuRwSpec GpuRwProofs CudaWarpModel CudaAttnModel CudaAttnProofs CudaRescaleModel.
Import ListNotations.
Local Open Scope nat_scope.

(** ** Kernels in which every output address belongs to one thread *)
Section Owners.
Variables (k : kernel) (mine : nat -> nat -> nat -> Prop) (vl : nat -> nat -> R -> Prop).
Notation G := (k_groups k).
Notation nT := (k_threads k).
Hypothesis PL : all_plain k.
Hypothesis TO : forall g t a f, g < G -> t < nT -> In (IOut a f) (k_code k g t) -> mine g t a.
Hypothesis DJ : forall g t g' t' a, g < G -> t < nT -> g' < G -> t' < nT -> mine g t a -> mine g' t' a -> (g, t) = (g', t').
Hypothesis EF : forall g t rg sh out, g < G -> t < nT -> let o := snd (run_instrs (k_in k) (k_code k g t) (rg, sh, out)) in
  (forall a, mine g t a -> vl g a (o a)) /\ (forall a, ~ mine g t a -> o a = out a).
Definition owned_result (out o : nat -> R) : Prop := (forall g t a, g < G -> t < nT -> mine g t a -> vl g a (o a)) /\
  (forall a, (forall g t, g < G -> t < nT -> ~ mine g t a) -> o a = out a).
Lemma plain_ok : forall i, plain_in k i -> conforms (fun _ _ => False) (fun _ _ => False) 0 i.
Proof. intros i [P _]; destruct i; try contradiction P; (split; [reflexivity|]); intros x; split; intros []. Qed.
Theorem owners_settle : forall rg sh out, 1 <= nT -> settles k (start k rg sh out) (owned_result out).
Proof using PL TO DJ EF.
  intros rg sh out HT.
  apply (program_settles k (fun g => [Seg (k_code k g)]) (fun n o => (forall g t a, g < n -> t < nT -> mine g t a -> vl g a (o a)) /\ (forall a, (forall g t, g < n -> t < nT -> ~ mine g t a) -> o a = out a)) (owned_result out) rg sh out (fun _ _ => False) (fun _ _ => False)); auto.
  - intros g t Hg Ht. unfold code_of. cbn [flat_map code1]. now rewrite app_nil_r.
  - intros g Hg. repeat constructor. intros t Ht. eapply Forall_impl; [|apply (PL g t Hg Ht)]. now intros i [_ ?].
  - intros t t' a _ _ _ [].
  - intros g Hg. split; [|exact I]. intros t Ht. eapply Forall_impl; [|apply (PL g t Hg Ht)]. intros i Hi. destruct (plain_ok i Hi) as [A B]. split; auto.
  - intros g t g' t' Hg Ht Hg' Ht' Ne i j a Hi Hj Ti Tj. exfalso. apply Ne.
    assert (Pi := proj1 (Forall_forall _ _) (PL g t Hg Ht) i Hi). assert (Pj := proj1 (Forall_forall _ _) (PL g' t' Hg' Ht') j Hj).
    destruct i; try (destruct Pi as [[] _]); try contradiction Ti. destruct j; try (destruct Pj as [[] _]); try contradiction Tj. cbn in Ti, Tj. subst. eapply DJ; eauto.
  - split; [intros; lia|auto].
  - intros g rg' sh' out' Hg [P1 P2]. cbn [run_prog fold_left run_step].
    assert (Q : forall n, n <= nT -> forall m, let o := snd (fold_left (turn1 (k_in k) (k_code k g)) (seq 0 n) m) in
      (forall t a, t < n -> mine g t a -> vl g a (o a)) /\ (forall a, (forall t, t < n -> ~ mine g t a) -> o a = snd m a)).
    { induction n as [|n IH]; intros Hn m o; [split; [intros; lia|reflexivity]|]. destruct (IH ltac:(lia) m) as [Q1 Q2]. unfold o. rewrite seq_S, fold_left_app. cbn [fold_left plus].
      set (m1 := fold_left _ (seq 0 n) m) in *. destruct m1 as [[rg1 sh1] out1] eqn:E1. cbn [snd] in Q1, Q2. unfold turn1. specialize (EF g n (rg1 n) sh1 out1 Hg ltac:(lia)). cbv zeta in EF.
      destruct (run_instrs _ _ _) as [[r2 sh2] out2]. cbn [snd] in *. destruct EF as [E2 E3]. split.
      - intros t a Ht M. destruct (Nat.eq_dec t n) as [->|Nt]; [now apply E2|]. rewrite E3; [apply (Q1 t); auto; lia|]. intros M'. assert (X := DJ g t g n a Hg ltac:(lia) Hg ltac:(lia) M M'). congruence.
      - intros a Ha. rewrite E3; [apply Q2; intros; apply Ha; lia|apply Ha; lia]. }
    destruct (Q nT (le_n _) (rg', sh', out')) as [Q1 Q2]. cbn [snd] in Q2. split.
    + intros g' t a Hg' Ht M. destruct (Nat.eq_dec g' g) as [->|Ng]; [now apply (Q1 t)|]. rewrite Q2; [apply (P1 g' t); auto; lia|]. intros t' Ht' M'. assert (X := DJ g' t g t' a ltac:(lia) Ht Hg Ht' M M'). congruence.
    + intros a Ha. rewrite Q2; [apply P2; intros; apply Ha; auto; lia|]. intros t Ht. apply Ha; auto.
Qed.
End Owners.

(** ** Straight-line pieces *)
Section Pieces.
Variable inp : nat -> R.
Lemma run_app : forall p q m, run_instrs inp (p ++ q) m = run_instrs inp q (run_instrs inp p m).
Proof. intros. unfold run_instrs. apply fold_left_app. Qed.
Lemma run_gets : forall X (l : list X) (rr aa : X -> nat) rg sh out, exists rg', run_instrs inp (map (fun x => IGet (rr x) (aa x)) l) (rg, sh, out) = (rg', sh, out) /\
  (forall r, (forall x, In x l -> rr x <> r) -> rg' r = rg r) /\ (forall x, In x l -> (forall y, In y l -> rr y = rr x -> aa y = aa x) -> rg' (rr x) = inp (aa x)).
Proof.
  intros X l rr aa. induction l as [|x l IH]; intros rg sh out; cbn [map run_instrs fold_left]; [exists rg; repeat split; auto; intros ? []|].
  fold (run_instrs inp (map (fun x => IGet (rr x) (aa x)) l) (run1 inp (rg, sh, out) (IGet (rr x) (aa x)))). cbn [run1 reg_of sh_of out_of].
  destruct (IH (put (rr x) (inp (aa x)) rg) sh out) as (rg' & E & A & B). exists rg'. split; [exact E|]. split.
  - intros r H. rewrite A by (intros y Hy; apply H; now right). apply put_ne. intros ->. apply (H x); [now left|reflexivity].
  - intros y Hy U. assert (D : (exists z, In z l /\ rr z = rr y) \/ (forall z, In z l -> rr z <> rr y)).
    { clear. induction l as [|z l IH]; [right; intros ? []|]. destruct (Nat.eq_dec (rr z) (rr y)) as [E|E]; [left; exists z; split; [now left|auto]|]. destruct IH as [(w & Hw & Ew)|H]; [left; exists w; split; [now right|auto]|right; intros w [<-|Hw]; auto]. }
    destruct D as [(z & Hz & Ez)|D].
    + rewrite <- Ez. rewrite B; auto; [f_equal; apply U; [now right|auto]|]. intros w Hw Ew. rewrite (U w), (U z); auto; try (now right). congruence.
    + destruct Hy as [<-|Hy]; [|destruct (D y Hy eq_refl)]. rewrite A by exact D. apply put_eq.
Qed.
Lemma run_scales : forall X (l : list X) (rr : X -> nat) c rg sh out, (forall x, In x l -> rr x <> c) -> NoDup (map rr l) ->
  exists rg', run_instrs inp (map (fun x => ISet (rr x) (fun r => r c * r (rr x))%R) l) (rg, sh, out) = (rg', sh, out) /\
  (forall r, (forall x, In x l -> rr x <> r) -> rg' r = rg r) /\ (forall x, In x l -> rg' (rr x) = rg c * rg (rr x))%R.
Proof.
  intros X l rr c. induction l as [|x l IH]; intros rg sh out Nc ND; cbn [map run_instrs fold_left]; [exists rg; repeat split; auto; intros ? []|].
  fold (run_instrs inp (map (fun x => ISet (rr x) (fun r => r c * r (rr x))%R) l) (run1 inp (rg, sh, out) (ISet (rr x) (fun r => r c * r (rr x))%R))). cbn [run1 reg_of sh_of out_of].
  cbn [map] in ND. inversion ND as [|? ? N1 N2]; subst.
  destruct (IH (put (rr x) (rg c * rg (rr x))%R rg) sh out) as (rg' & E & A & B); [intros; apply Nc; now right|auto|]. exists rg'. split; [exact E|]. split.
  - intros r H. rewrite A by (intros y Hy; apply H; now right). apply put_ne. intros ->. apply (H x); [now left|reflexivity].
  - intros y [<-|Hy].
    + rewrite A; [apply put_eq|]. intros z Hz Ez. apply N1. rewrite <- Ez. now apply in_map.
    + rewrite B by auto. rewrite (put_ne _ (rr x) c) by (intros Q; apply (Nc x); [now left|auto]). rewrite put_ne; [reflexivity|]. intros Q. apply N1. rewrite <- Q. now apply in_map.
Qed.
Lemma run_outs : forall X (l : list X) (aa rr : X -> nat) rg sh out, (forall x y, In x l -> In y l -> aa x = aa y -> rr x = rr y) ->
  exists out', run_instrs inp (map (fun x => IOut (aa x) (fun r => r (rr x))) l) (rg, sh, out) = (rg, sh, out') /\
  (forall a, (forall x, In x l -> aa x <> a) -> out' a = out a) /\ (forall x, In x l -> out' (aa x) = rg (rr x)).
Proof.
  intros X l aa rr. induction l as [|x l IH]; intros rg sh out U; cbn [map run_instrs fold_left]; [exists out; repeat split; auto; intros ? []|].
  fold (run_instrs inp (map (fun x => IOut (aa x) (fun r => r (rr x))) l) (run1 inp (rg, sh, out) (IOut (aa x) (fun r => r (rr x))))). cbn [run1 reg_of sh_of out_of].
  destruct (IH rg sh (put (aa x) (rg (rr x)) out)) as (out' & E & A & B); [intros; apply U; auto; now right|]. exists out'. split; [exact E|]. split.
  - intros a H. rewrite A by (intros y Hy; apply H; now right). apply put_ne. intros ->. apply (H x); [now left|reflexivity].
  - intros y Hy. assert (D : (exists z, In z l /\ aa z = aa y) \/ (forall z, In z l -> aa z <> aa y)).
    { clear. induction l as [|z l IH]; [right; intros ? []|]. destruct (Nat.eq_dec (aa z) (aa y)) as [E|E]; [left; exists z; split; [now left|auto]|]. destruct IH as [(w & Hw & Ew)|H]; [left; exists w; split; [now right|auto]|right; intros w [<-|Hw]; auto]. }
    destruct D as [(z & Hz & Ez)|D].
    + rewrite <- Ez. rewrite B by auto. f_equal. apply U; auto. now right.
    + destruct Hy as [<-|Hy]; [|destruct (D y Hy eq_refl)]. rewrite A by exact D. apply put_eq.
Qed.
End Pieces.

(** ** Reads in front of writes *)
Definition rbw (base : nat) (code : list instr) : Prop := forall p a f c, code = p ++ IOut a f :: c -> forall r, ~ In (IGet r (base + a)) c.
Lemma rbw_app : forall base x y, rbw base x -> rbw base y -> (forall a f r, In (IOut a f) x -> ~ In (IGet r (base + a)) y) -> rbw base (x ++ y).
Proof.
  intros base x y Hx Hy C p a f c E r Hin. revert p E. induction x as [|i x IH]; intros p E; [cbn in E; exact (Hy p a f c E r Hin)|].
  destruct p as [|j p]; cbn [app] in E; injection E as -> E.
  - rewrite <- E in Hin. apply in_app_iff in Hin. destruct Hin as [Hin|Hin]; [exact (Hx [] a f x eq_refl r Hin)|]. apply (C a f r); [now left|exact Hin].
  - apply (IH) with (p := p); auto.
    + intros p' a' f' c' E' r'. apply (Hx (j :: p') a' f' c'). cbn. now rewrite E'.
    + intros a' f' r' H'. apply (C a' f'). now right.
Qed.
Lemma rbw_nowrite : forall base x, (forall a f, ~ In (IOut a f) x) -> rbw base x.
Proof. intros base x H p a f c E. exfalso. apply (H a f). rewrite E. apply in_app_iff. right. now left. Qed.
Lemma rbw_noread : forall base x, (forall r a, ~ In (IGet r a) x) -> rbw base x.
Proof. intros base x H p a f c E r Hin. apply (H r (base + a)). rewrite E. apply in_app_iff. right. now right. Qed.
Lemma rbw_order : forall base code p a f c p' r c', rbw base code -> code = p ++ IOut a f :: c -> code = p' ++ IGet r (base + a) :: c' -> length p' < length p.
Proof.
  intros base code p a f c p' r c' H E E'. destruct (Nat.lt_ge_cases (length p') (length p)) as [L|L]; [exact L|exfalso]. assert (Q := E). rewrite E' in Q. clear E'.
  assert (G : forall p p' : list instr, length p <= length p' -> p' ++ IGet r (base + a) :: c' = p ++ IOut a f :: c -> In (IGet r (base + a)) c).
  { clear. induction p as [|i p IH]; intros [|j p'] L E; cbn [app length] in *; try lia.
    - discriminate E.
    - injection E as _ E. rewrite <- E. apply in_app_iff. right. now left.
    - injection E as _ E. apply (IH p'); auto. lia. }
  exact (H p a f c E r (G p p' L Q)).
Qed.
Lemma split_before : forall (x y p c : list instr) i, x ++ y = p ++ i :: c -> ~ In i y -> length p < length x.
Proof.
  induction x as [|j x IH]; intros y p c i E N; cbn [app length] in *.
  - exfalso. apply N. rewrite E. apply in_app_iff. right. now left.
  - destruct p as [|j' p]; cbn [length]; [lia|]. injection E as _ E. specialize (IH y p c i E N). lia.
Qed.
Lemma split_after : forall (x y p c : list instr) i, x ++ y = p ++ i :: c -> ~ In i x -> length x <= length p.
Proof.
  induction x as [|j x IH]; intros y p c i E N; cbn [app length] in *; [lia|].
  destruct p as [|j' p]; cbn [app length] in *; injection E as E1 E2; [exfalso; apply N; left; auto|]. specialize (IH y p c i E2 ltac:(intros H; apply N; now right)). lia.
Qed.
