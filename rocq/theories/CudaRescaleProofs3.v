(** The rescale kernel of the upsampling direction, and the launches. *)
From Coq Require Import List Arith Lia Bool Reals Lra FunctionalExtensionality.
From Verif Require Import TensorModel TensorProofs GpuModel GpuSpec GpuProofs GpuProofs2 GpuRwModel GpuRwSpec GpuRwProofs CudaWarpModel CudaAttnModel CudaAttnProofs CudaRescaleModel CudaRescaleProofs CudaRescaleProofs2.
Import ListNotations.
Local Open Scope nat_scope.

Section Up.
Variables (cells n nT : nat) (own : nat -> nat) (chans : nat -> list nat) (ninf : R) (k : kernel).
Hypothesis CH : covers nT n own chans.
Hypotheses (Kin : k_insize k = cells + state_size cells n 1 1) (Kout : k_outsize k = state_size cells n 1 1).
Notation uc := (up_code ninf cells n 1 chans).
Notation vec := (vec_at cells n 1 0).
Notation scal := (scal_at cells 0).
Lemma up_pairs : forall inp c cr rg sh out l, rg r_corr = cr -> c < cells -> NoDup l -> (forall ch, In ch l -> ch < n) ->
  exists rg' out', run_instrs inp (flat_map (fun ch => [IGet (r_sc 0) (rd cells (vec c ch)); IOut (vec c ch) (fun r => r (r_sc 0) * r r_corr)%R]) l) (rg, sh, out) = (rg', sh, out') /\
  rg' r_corr = cr /\ rg' r_new = rg r_new /\ (forall ch, In ch l -> out' (vec c ch) = cr * inp (rd cells (vec c ch)))%R /\ (forall a, (forall ch, In ch l -> a <> vec c ch) -> out' a = out a).
Proof.
  intros inp c cr rg sh out l. revert rg out. induction l as [|ch l IH]; intros rg out C Hc ND B; [exists rg, out; repeat split; auto; intros ? []|].
  inversion ND as [|? ? N1 N2]; subst. cbn [flat_map]. rewrite run_app.
  set (rg1 := put (r_sc 0) (inp (rd cells (vec c ch))) rg).
  replace (run_instrs inp [IGet (r_sc 0) (rd cells (vec c ch)); IOut (vec c ch) (fun r => (r (r_sc 0) * r r_corr)%R)] (rg, sh, out)) with (rg1, sh, put (vec c ch) (inp (rd cells (vec c ch)) * rg r_corr)%R out) by reflexivity.
  destruct (IH rg1 (put (vec c ch) (inp (rd cells (vec c ch)) * rg r_corr)%R out)) as (rg' & out' & E & A1 & A2 & A3 & A4); auto; [intros; apply B; now right|]. exists rg', out'. split; [exact E|]. split; [exact A1|]. split; [exact A2|]. split.
  - intros x [<-|Hx]; [|now apply A3]. rewrite A4; [rewrite put_eq; ring|]. intros y Hy E'. apply vec_inj in E'; auto; [|apply B; now left|apply B; now right]. destruct E' as (_ & _ & ->). auto.
  - intros a H. rewrite A4 by (intros; apply H; now right). apply put_ne. apply H. now left.
Qed.
Lemma up_ok : rescales cells n 1 1 nT own ninf k uc 3.
Proof.
  assert (LE : forall c, c < cells -> max_at c < state_size cells n 1 1 /\ scal c < state_size cells n 1 1 /\ cells <= scal c /\ scal c < 2 * cells) by (intros; unfold max_at, scal_at, state_size; lia).
  assert (CHi : forall t ch, t < nT -> (In ch (chans t) <-> ch < n /\ own ch = t)). { intros t ch Ht. destruct (CH t Ht) as [_ Q]. apply Q. }
  assert (VL : forall c ch, c < cells -> ch < n -> vec c ch < state_size cells n 1 1) by (intros; apply vec_lt; lia).
  assert (VG : forall c ch, 2 * cells <= vec c ch) by (intros; apply (vec_ge cells n 1 0)).
  constructor.
  - intros c t Hc Ht. destruct (LE c Hc) as (L1 & L2 & _). apply Forall_forall. intros i Hi. unfold up_code in Hi. rewrite !in_app_iff in Hi. destruct Hi as [Hi|[Hi|Hi]].
    + cbn [resc_head] in Hi. destruct Hi as [<-|[<-|[<-|[]]]]; (split; [exact I|]); cbn [in_bounds]; rewrite ?Kin; try reflexivity; apply Nat.ltb_lt; unfold rd; lia.
    + apply in_flat_map in Hi. destruct Hi as (ch & Hx & Hi). apply CHi in Hx; auto. specialize (VL c ch Hc (proj1 Hx)). destruct Hi as [<-|[<-|[]]]; (split; [exact I|]); cbn [in_bounds]; rewrite ?Kin, ?Kout; apply Nat.ltb_lt; unfold rd; lia.
    + destruct (t =? 0); [|destruct Hi]. destruct Hi as [<-|[<-|[<-|[]]]]; (split; [exact I|]); cbn [in_bounds]; rewrite ?Kin, ?Kout; apply Nat.ltb_lt; unfold rd; lia.
  - intros inp rg sh out c t Hc Ht o. destruct (LE c Hc) as (L1 & L2 & L3 & L4). unfold o, up_code. rewrite !run_app.
    set (cr := corr_of ninf (inp (rd cells (max_at c))) (inp c)). set (rg1 := put r_corr cr (put r_new (inp c) (put r_old (inp (rd cells (max_at c))) rg))).
    replace (run_instrs inp (resc_head ninf cells c) (rg, sh, out)) with (rg1, sh, out) by reflexivity.
    destruct (up_pairs inp c cr rg1 sh out (chans t)) as (rg2 & out2 & E & A1 & A2 & A3 & A4); auto; [apply (CH t Ht)|intros ch H; apply CHi in H; tauto|]. rewrite E. clear E.
    assert (N2 : rg2 r_new = inp c) by (rewrite A2; reflexivity).
    assert (V : forall ch, ch < n -> own ch = t -> out2 (vec c ch) = newval cells ninf inp c (vec c ch)). { intros ch H1 H2. rewrite A3 by (apply CHi; auto). unfold newval. specialize (VG c ch). destruct (Nat.ltb_spec (vec c ch) cells); [lia|]. reflexivity. }
    assert (K : forall a, (forall ch, ch < n -> own ch = t -> a <> vec c ch) -> out2 a = out a). { intros a H. apply A4. intros ch Hch. apply CHi in Hch; auto. apply H; tauto. }
    destruct (Nat.eqb_spec t 0) as [->|Nt].
    + match goal with |- context [run_instrs inp ?l (rg2, sh, out2)] => replace (run_instrs inp l (rg2, sh, out2)) with (put (r_sc 0) (inp (rd cells (scal c))) rg2, sh, put (max_at c) (rg2 r_new) (put (scal c) (inp (rd cells (scal c)) * rg2 r_corr)%R out2)) by reflexivity end.
      cbn [snd]. split.
      * intros a [_ [[_ [->|(i & Hi & ->)]]|(j & ch & Hj & Hch & Ho & ->)]].
        -- rewrite put_eq, N2. unfold newval, max_at. now rewrite (proj2 (Nat.ltb_lt _ _) Hc).
        -- assert (i = 0) by lia. subst i. rewrite put_ne, put_eq by (unfold max_at; lia). unfold newval. destruct (Nat.ltb_spec (scal c) cells); [lia|]. rewrite A1. fold cr. ring.
        -- assert (j = 0) by lia. subst j. specialize (VG c ch). rewrite !put_ne by (unfold max_at; lia). now apply V.
      * intros a Na. rewrite !put_ne.
        -- apply K. intros ch H1 H2 ->. apply Na. split; [auto|]. right. exists 0, ch. repeat split; auto.
        -- intros ->. apply Na. split; [auto|]. left. split; [auto|]. right. exists 0. auto.
        -- intros ->. apply Na. split; [auto|]. left. auto.
    + cbn [run_instrs fold_left snd]. split.
      * intros a [_ [[-> _]|(j & ch & Hj & Hch & Ho & ->)]]; [congruence|]. assert (j = 0) by lia. subst j. now apply V.
      * intros a Na. apply K. intros ch H1 H2 ->. apply Na. split; [auto|]. right. exists 0, ch. repeat split; auto.
  - intros c t a f Hc Ht Hi. unfold up_code in Hi. rewrite !in_app_iff in Hi. split; [auto|]. destruct Hi as [Hi|[Hi|Hi]].
    + destruct Hi as [Q|[Q|[Q|[]]]]; discriminate Q.
    + apply in_flat_map in Hi. destruct Hi as (ch & Hx & [Q|[Q|[]]]); [discriminate Q|]. injection Q as <- _. apply CHi in Hx; auto. right. exists 0, ch. repeat split; try tauto. lia.
    + destruct (Nat.eqb_spec t 0) as [->|]; [|destruct Hi]. left. split; [auto|]. destruct Hi as [Q|[[= <- _]|[[= <- _]|[]]]]; [discriminate Q|right; exists 0; auto|now left].
  - intros c t a r Hc Ht Hi. unfold up_code in Hi. rewrite !in_app_iff in Hi. destruct Hi as [Hi|[Hi|Hi]].
    + right. split; [auto|]. left. split; [auto|]. left. destruct Hi as [Q|[Q|[Q|[]]]]; try discriminate Q; injection Q as _ Q; unfold rd in Q; lia.
    + left. split; [auto|]. right. apply in_flat_map in Hi. destruct Hi as (ch & Hx & [Q|[Q|[]]]); [|discriminate Q]. injection Q as _ Q. apply CHi in Hx; auto. exists 0, ch. unfold rd in Q. repeat split; try tauto; lia.
    + right. split; [auto|]. left. split; [auto|]. right. exists 0. destruct (t =? 0); [|destruct Hi]. destruct Hi as [Q|[Q|[Q|[]]]]; try discriminate Q. injection Q as _ Q. unfold rd in Q. split; lia.
  - intros c t Hc Ht. destruct (LE c Hc) as (L1 & L2 & L3 & L4). unfold up_code. apply rbw_app; [apply rbw_nowrite; intros a f [Q|[Q|[Q|[]]]]; discriminate Q| |intros a f r [Q|[Q|[Q|[]]]]; discriminate Q].
    apply rbw_app.
    + destruct (CH t Ht) as [ND _]. assert (B : forall ch, In ch (chans t) -> ch < n) by (intros ch H; apply CHi in H; tauto). induction ND as [|ch l N1 ND IH]; [apply rbw_nowrite; intros ? ? []|]. cbn [flat_map].
      apply rbw_app; [|apply IH; intros; apply B; now right|].
      * intros p a f c' E r Hin. destruct p as [|i1 [|i2 p]]; [discriminate E| |].
        -- injection E as _ _ _ <-. destruct Hin.
        -- injection E as _ _ E. destruct p; discriminate E.
      * intros a f r [Q|[Q|[]]] Hin; [discriminate Q|]. injection Q as <- _. apply in_flat_map in Hin. destruct Hin as (ch' & Hch & [Q|[Q|[]]]); [|discriminate Q]. injection Q as _ Q. unfold rd in Q. assert (E : vec c ch' = vec c ch) by lia.
        apply vec_inj in E; auto; [|apply B; now right|apply B; now left]. destruct E as (_ & _ & ->). auto.
    + destruct (t =? 0); [|apply rbw_nowrite; intros ? ? []]. intros p a f c' E r Hin. destruct p as [|i1 [|i2 [|i3 p]]]; [discriminate E| | |].
      * injection E as _ _ _ <-. destruct Hin as [Q|[]]. discriminate Q.
      * injection E as _ _ _ _ <-. destruct Hin.
      * injection E as _ _ _ E. destruct p; discriminate E.
    + intros a f r Hi Hin. apply in_flat_map in Hi. destruct Hi as (ch & Hx & [Q|[Q|[]]]); [discriminate Q|]. injection Q as <- _. destruct (t =? 0); [|destruct Hin]. destruct Hin as [Q|[Q|[Q|[]]]]; try discriminate Q. injection Q as _ Q. unfold rd in Q. specialize (VG c ch). lia.
  - intros c t a r p c' Hc Ht Nt [_ M] E. unfold up_code in E. apply (split_before (resc_head ninf cells c)) in E; [exact E|].
    intros Hi. rewrite !in_app_iff in Hi. destruct Hi as [Hi|Hi].
    + apply in_flat_map in Hi. destruct Hi as (ch & Hx & [Q|[Q|[]]]); [|discriminate Q]. injection Q as _ Q. unfold rd in Q. apply CHi in Hx; auto. assert (a = vec c ch) by lia. subst a. specialize (VG c ch). destruct (LE c Hc) as (L1 & L2 & L3 & L4).
      destruct M as [[_ [M|(i & Hi & M)]]|(j' & ch' & Hj' & Hch' & Ho & M)]; [unfold max_at in M; lia|assert (i = 0) by lia; subst i; lia|]. apply vec_inj in M; try tauto. destruct M as (_ & _ & ->). destruct Hx as (_ & Hx). congruence.
    + destruct (Nat.eqb_spec t 0); [congruence|destruct Hi].
  - intros c a f p c' Hc Ht E. unfold up_code in E. apply (split_after (resc_head ninf cells c)) in E; [exact E|]. intros [Q|[Q|[Q|[]]]]; discriminate Q.
Qed.
End Up.

(** ** A launch *)
Section Launch.
Variables (ninf : R) (cells n nv ns G nT hl : nat) (own : nat -> nat) (key : nat -> option (option nat)) (cd : nat -> nat -> list instr) (cur : nat -> R).
Notation K := (resc_kernel cells n nv ns G nT key cd cur).
Hypothesis RS : rescales cells n nv ns nT own ninf K cd hl.
Hypothesis KL : forall g o, g < G -> key g = Some o -> exists c, o = Some c /\ c < cells.
Hypothesis KI : forall g g' c, g < G -> g' < G -> key g = Some (Some c) -> key g' = Some (Some c) -> g = g'.
Variable act : nat -> bool.
Notation KA := (only act K).
Definition gmine (g t a : nat) : Prop := act t = true /\ exists c, key g = Some (Some c) /\ minec cells n nv ns own c t a.
Definition gval (inp : nat -> R) (g a : nat) (x : R) : Prop := forall c, key g = Some (Some c) -> x = newval cells ninf inp c a.
Lemma code_cases : forall g t, g < G -> (k_code KA g t = []) \/ exists c, act t = true /\ key g = Some (Some c) /\ c < cells /\ k_code KA g t = cd c t.
Proof.
  intros g t Hg. cbn [only resc_kernel k_code]. destruct (act t); [|now left]. destruct (key g) as [o|] eqn:E; [|now left]. destruct (KL g o Hg E) as (c & -> & Hc). right. eauto.
Qed.
Lemma act_plain : all_plain KA.
Proof. intros g t Hg Ht. destruct (code_cases g t Hg) as [->|(c & _ & _ & Hc & ->)]; [constructor|]. apply (rs_plain _ _ _ _ _ _ _ _ _ _ RS c t Hc Ht). Qed.
Lemma act_settles : forall out rg sh, 1 <= nT -> let k := alias cells KA out in settles k (start k rg sh out) (owned_result k gmine (gval (k_in k)) out).
Proof.
  intros out rg sh HT k. apply owners_settle; auto.
  - intros g t Hg Ht. apply (act_plain g t Hg Ht).
  - intros g t a f Hg Ht Hi. change (k_code k g t) with (k_code KA g t) in Hi. destruct (code_cases g t Hg) as [E|(c & A & E1 & Hc & E)]; rewrite E in Hi; [destruct Hi|]. split; [auto|]. exists c. split; [auto|]. eapply (rs_out _ _ _ _ _ _ _ _ _ _ RS); eauto.
  - intros g t g' t' a Hg Ht Hg' Ht' (_ & c & E & M) (_ & c' & E' & M'). destruct (minec_one _ _ _ _ _ _ _ _ _ _ M M') as [-> ->]. rewrite (KI g g' c') by auto. reflexivity.
  - intros g t rg' sh' out' Hg Ht o. unfold o. change (k_code k g t) with (k_code KA g t). destruct (code_cases g t Hg) as [E|(c & A & E1 & Hc & E)].
    + rewrite E. cbn [run_instrs fold_left snd]. split; [|reflexivity]. intros a (A & c & E1 & M). exfalso. assert (Mo := M). destruct M as [Hc _].
      cbn [only resc_kernel k_code] in E. rewrite A, E1 in E.
      destruct (rs_eff _ _ _ _ _ _ _ _ _ _ RS (fun _ => 1%R) (fun _ => 0%R) (fun _ => 0%R) (fun a' => newval cells ninf (fun _ => 1%R) c a' + 1)%R c t Hc Ht) as [Q _].
      specialize (Q a Mo). rewrite E in Q. cbn [run_instrs fold_left snd] in Q. lra.
    + rewrite E. destruct (rs_eff _ _ _ _ _ _ _ _ _ _ RS (k_in k) rg' sh' out' c t Hc Ht) as [Q1 Q2]. split.
      * intros a (_ & c' & E' & M). rewrite E1 in E'. injection E' as <-. intros c' E'. rewrite E1 in E'. injection E' as <-. now apply Q1.
      * intros a Na. apply Q2. intros M. apply Na. split; [auto|]. eauto.
Qed.
Lemma act_reads : forall ws, (act 0 = true -> forall t, t < nT -> act t = true -> t / ws = 0) -> reads_first ws cells KA.
Proof.
  intros ws HA g t p a f c g' t' p' r c' Hg Ht Hg' Ht' E E'. cbn [only resc_kernel k_groups k_threads] in Hg, Ht, Hg', Ht'.
  destruct (code_cases g t Hg) as [Q|(x & A & Kg & Hx & Q)]; rewrite Q in E; [destruct p; discriminate E|].
  destruct (code_cases g' t' Hg') as [Q'|(x' & A' & Kg' & Hx' & Q')]; rewrite Q' in E'; [destruct p'; discriminate E'|].
  assert (M : minec cells n nv ns own x t a). { eapply (rs_out _ _ _ _ _ _ _ _ _ _ RS); eauto. rewrite E. apply in_app_iff. right. now left. }
  assert (Ms : minec cells n nv ns own x' t' a \/ minec cells n nv ns own x' 0 a). { eapply (rs_get _ _ _ _ _ _ _ _ _ _ RS); eauto. rewrite E'. apply in_app_iff. right. now left. }
  assert (Same : x = x' -> t = t' -> g = g' /\ t / ws = t' / ws /\ length p' < length p).
  { intros <- <-. rewrite (KI g g' x) by auto. repeat split; auto. eapply rbw_order; [apply (rs_rbw _ _ _ _ _ _ _ _ _ _ RS x t); auto|exact E|exact E']. }
  destruct Ms as [M'|M']; destruct (minec_one _ _ _ _ _ _ _ _ _ _ M M') as [Ex Et]; [auto|].
  destruct (Nat.eq_dec t' 0) as [Z|NZ]; [apply Same; congruence|]. subst x'. subst t.
  split; [now apply (KI g g' x)|]. split; [rewrite (HA A t' Ht' A'), (HA A 0 ltac:(lia) A); reflexivity|].
  assert (L1 := rs_head _ _ _ _ _ _ _ _ _ _ RS x t' a r p' c' Hx Ht' NZ M' E'). assert (L2 := rs_tail _ _ _ _ _ _ _ _ _ _ RS x a f p c Hx ltac:(lia) E). lia.
Qed.
End Launch.
