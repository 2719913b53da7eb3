(** The rescale kernels: the codes of the threads, and the launches. *)
From Coq Require Import List Arith Lia Bool Reals Lra FunctionalExtensionality.
From Verif Require Import TensorModel TensorProofs GpuModel GpuSpec GpuProofs GpuProofs2 GpuRwModel GpuRwSpec GpuRwProofs CudaWarpModel CudaAttnModel CudaAttnProofs CudaRescaleModel CudaRescaleProofs.
Import ListNotations.
Local Open Scope nat_scope.

Lemma flat2 : forall N i c i' c', c < N -> c' < N -> i * N + c = i' * N + c' -> i = i' /\ c = c'.
Proof. intros N i c i' c' H H' E. assert (i = i') by nia. subst. lia. Qed.

Lemma nodup_cat : forall X (l m : list X), NoDup l -> NoDup m -> (forall x, In x l -> In x m -> False) -> NoDup (l ++ m).
Proof.
  intros X l m Hl Hm D. induction Hl as [|x l Nx Hl IH]; [exact Hm|]. cbn [app]. constructor; [|apply IH; intros y Hy; apply D; now right].
  intros H. apply in_app_iff in H. destruct H; [auto|]. apply (D x); [now left|auto].
Qed.
Section Layout.
Variables (cells n nv ns nT : nat) (own : nat -> nat) (chans : nat -> list nat).
Hypothesis CH : covers nT n own chans.
Notation vec := (vec_at cells n ns).
Notation scal := (scal_at cells).
(** the addresses thread t of cell c writes *)
Definition minec (c t a : nat) : Prop := c < cells /\
  (t = 0 /\ (a = max_at c \/ exists i, i < ns /\ a = scal i c) \/ exists j ch, j < nv /\ ch < n /\ own ch = t /\ a = vec j c ch).
Lemma vec_inj : forall j c ch j' c' ch', c < cells -> c' < cells -> ch < n -> ch' < n -> vec j c ch = vec j' c' ch' -> j = j' /\ c = c' /\ ch = ch'.
Proof.
  intros j c ch j' c' ch' Hc Hc' H H' E. unfold vec_at in E. assert (E' : (j * cells + c) * n + ch = (j' * cells + c') * n + ch') by lia.
  apply flat2 in E'; auto. destruct E' as [E1 E2]. apply flat2 in E1; auto. tauto.
Qed.
Lemma vec_ge : forall j c ch, (1 + ns) * cells <= vec j c ch. Proof. intros. unfold vec_at. lia. Qed.
Lemma scal_ge : forall i c, cells <= scal i c. Proof. intros. unfold scal_at. lia. Qed.
Lemma scal_lt : forall i c, i < ns -> c < cells -> scal i c < (1 + ns) * cells. Proof. intros. unfold scal_at. nia. Qed.
Lemma vec_lt : forall j c ch, j < nv -> c < cells -> ch < n -> vec j c ch < state_size cells n nv ns.
Proof. intros. unfold vec_at, state_size. assert ((j * cells + c) * n + ch < nv * cells * n); [|lia]. assert (j * cells + c + 1 <= nv * cells) by nia. nia. Qed.
Lemma minec_one : forall c t c' t' a, minec c t a -> minec c' t' a -> c = c' /\ t = t'.
Proof.
  intros c t c' t' a [Hc H] [Hc' H'].
  destruct H as [[-> [->|(i & Hi & ->)]]|(j & ch & Hj & Hch & <- & ->)]; destruct H' as [[-> [E|(i' & Hi' & E)]]|(j' & ch' & Hj' & Hch' & <- & E)].
  - unfold max_at in E. auto.
  - exfalso. pose proof (scal_ge i' c'). unfold max_at in E. lia.
  - exfalso. pose proof (vec_ge j' c' ch'). unfold max_at in E. lia.
  - exfalso. pose proof (scal_ge i c). unfold max_at in E. lia.
  - unfold scal_at in E. apply flat2 in E; auto. tauto.
  - exfalso. pose proof (vec_ge j' c' ch'). pose proof (scal_lt i c Hi Hc). lia.
  - exfalso. pose proof (vec_ge j c ch). unfold max_at in E. lia.
  - exfalso. pose proof (vec_ge j c ch). pose proof (scal_lt i' c' Hi' Hc'). lia.
  - apply vec_inj in E; auto. destruct E as (_ & -> & ->). auto.
Qed.
Lemma minec_size : forall c t a, minec c t a -> a < state_size cells n nv ns.
Proof.
  intros c t a [Hc [[_ [->|(i & Hi & ->)]]|(j & ch & Hj & Hch & _ & ->)]].
  - unfold max_at, state_size. nia.
  - pose proof (scal_lt i c Hi Hc). unfold state_size. nia.
  - now apply vec_lt.
Qed.
Definition newval (ninf : R) (inp : nat -> R) (c a : nat) : R := if a <? cells then inp c else (corr_of ninf (inp (rd cells (max_at c))) (inp c) * inp (rd cells a))%R.
(** what the proofs need to know about the code of the threads *)
Record rescales (ninf : R) (k : kernel) (cd : nat -> nat -> list instr) (hl : nat) : Prop := mkRS {
  rs_plain : forall c t, c < cells -> t < nT -> Forall (plain_in k) (cd c t);
  rs_eff : forall inp rg sh out c t, c < cells -> t < nT -> let o := snd (run_instrs inp (cd c t) (rg, sh, out)) in
    (forall a, minec c t a -> o a = newval ninf inp c a) /\ (forall a, ~ minec c t a -> o a = out a);
  rs_out : forall c t a f, c < cells -> t < nT -> In (IOut a f) (cd c t) -> minec c t a;
  rs_get : forall c t a r, c < cells -> t < nT -> In (IGet r (cells + a)) (cd c t) -> minec c t a \/ minec c 0 a;
  rs_rbw : forall c t, c < cells -> t < nT -> rbw cells (cd c t);
  rs_head : forall c t a r p c', c < cells -> t < nT -> t <> 0 -> minec c 0 a -> cd c t = p ++ IGet r (cells + a) :: c' -> length p < hl;
  rs_tail : forall c a f p c', c < cells -> 0 < nT -> cd c 0 = p ++ IOut a f :: c' -> hl <= length p }.

Lemma in_mine : forall t j ch, t < nT -> (In (j, ch) (list_prod (seq 0 nv) (chans t)) <-> j < nv /\ ch < n /\ own ch = t).
Proof. intros t j ch Ht. rewrite in_prod_iff, in_seq. destruct (CH t Ht) as [_ C]. rewrite C. split; intros; [lia|]. split; [lia|tauto]. Qed.
Lemma nodup_mine : forall t, t < nT -> NoDup (list_prod (seq 0 nv) (chans t)).
Proof.
  intros t Ht. destruct (CH t Ht) as [ND _]. assert (G : forall l : list nat, NoDup l -> NoDup (list_prod l (chans t))); [|apply G, seq_NoDup].
  induction 1 as [|x l Nx Nl IH]; cbn [list_prod]; [constructor|]. apply nodup_cat; auto.
  - apply FinFun.Injective_map_NoDup; [|auto]. intros u v [= ->]. reflexivity.
  - intros [u v] Hu Hv. apply in_map_iff in Hu. destruct Hu as (w & [= <- <-] & _). apply in_prod_iff in Hv. tauto.
Qed.
Section Long.
Variables (ninf : R) (k : kernel).
Hypotheses (Kin : k_insize k = cells + state_size cells n nv ns) (Kout : k_outsize k = state_size cells n nv ns).
Notation lc := (long_code ninf cells n nv ns chans).
Lemma long_head_len : forall c, length (resc_head ninf cells c ++ flat_map (fun i => [IGet (r_sc i) (rd cells (scal i c)); ISet (r_sc i) (fun r => r r_corr * r (r_sc i))%R]) (seq 0 ns)) = 3 + 2 * ns.
Proof.
  intros c. rewrite app_length. change (length (resc_head ninf cells c)) with 3. f_equal.
  assert (Q : forall m b, length (flat_map (fun i => [IGet (r_sc i) (rd cells (scal i c)); ISet (r_sc i) (fun r => r r_corr * r (r_sc i))%R]) (seq b m)) = 2 * m); [|apply Q].
  induction m as [|m IH]; intros b; [reflexivity|]. cbn [seq flat_map]. rewrite app_length, IH. cbn [length]. lia.
Qed.
Lemma long_ok : rescales ninf k lc (3 + 2 * ns).
Proof.
  constructor.
  - intros c t Hc Ht. apply Forall_forall. intros i Hi. unfold long_code in Hi. cbv zeta in Hi. rewrite !in_app_iff in Hi.
    assert (Lmax : max_at c < state_size cells n nv ns) by (unfold max_at, state_size; nia).
    assert (Lsc : forall i, i < ns -> scal i c < state_size cells n nv ns). { intros i0 Hi0. pose proof (scal_lt i0 c Hi0 Hc). unfold state_size. nia. }
    destruct Hi as [Hi|[Hi|[Hi|[Hi|[Hi|Hi]]]]].
    + cbn [resc_head] in Hi. destruct Hi as [<-|[<-|[<-|[]]]]; (split; [exact I|]); cbn [in_bounds]; rewrite ?Kin; try reflexivity; apply Nat.ltb_lt; unfold rd; lia.
    + apply in_flat_map in Hi. destruct Hi as (x & Hx & Hi). apply in_seq in Hx. destruct Hi as [<-|[<-|[]]]; (split; [exact I|]); cbn [in_bounds]; rewrite ?Kin; try reflexivity. apply Nat.ltb_lt. unfold rd. specialize (Lsc x ltac:(lia)). lia.
    + apply in_map_iff in Hi. destruct Hi as ([j ch] & <- & Hx). apply in_mine in Hx; auto. split; [exact I|]. cbn [in_bounds fst snd]. rewrite Kin. apply Nat.ltb_lt. unfold rd. pose proof (vec_lt j c ch ltac:(tauto) Hc ltac:(tauto)). lia.
    + apply in_map_iff in Hi. destruct Hi as (x & <- & _). split; [exact I|reflexivity].
    + apply in_map_iff in Hi. destruct Hi as ([j ch] & <- & Hx). apply in_mine in Hx; auto. split; [exact I|]. cbn [in_bounds fst snd]. rewrite Kout. apply Nat.ltb_lt. apply vec_lt; tauto.
    + destruct (t =? 0); [|destruct Hi]. destruct Hi as [<-|Hi]; [split; [exact I|cbn [in_bounds]; rewrite Kout; now apply Nat.ltb_lt]|].
      apply in_map_iff in Hi. destruct Hi as (x & <- & Hx). apply in_seq in Hx. split; [exact I|]. cbn [in_bounds]. rewrite Kout. apply Nat.ltb_lt. apply Lsc. lia.
  - intros inp rg sh out c t Hc Ht o. unfold o, long_code. cbv zeta. set (mine := list_prod (seq 0 nv) (chans t)).
    rewrite !run_app. set (rg1 := put r_corr (corr_of ninf (inp (rd cells (max_at c))) (inp c)) (put r_new (inp c) (put r_old (inp (rd cells (max_at c))) rg))).
    replace (run_instrs inp (resc_head ninf cells c) (rg, sh, out)) with (rg1, sh, out) by reflexivity.
    assert (C1 : rg1 r_corr = corr_of ninf (inp (rd cells (max_at c))) (inp c)) by reflexivity. assert (N1 : rg1 r_new = inp c) by reflexivity. clearbody rg1. set (cr := corr_of ninf (inp (rd cells (max_at c))) (inp c)) in *.
    (* the sums *)
    assert (S : forall m b, exists rg2, run_instrs inp (flat_map (fun i => [IGet (r_sc i) (rd cells (scal i c)); ISet (r_sc i) (fun r => r r_corr * r (r_sc i))%R]) (seq b m)) (rg1, sh, out) = (rg2, sh, out) /\
      rg2 r_corr = cr /\ rg2 r_new = inp c /\ forall i, b <= i < b + m -> rg2 (r_sc i) = (cr * inp (rd cells (scal i c)))%R).
    { induction m as [|m IH]; intros b; [exists rg1; repeat split; auto; intros; lia|]. destruct (IH b) as (rg2 & E & A & B & D).
      rewrite seq_S, flat_map_app, run_app, E. cbn [flat_map app run_instrs fold_left run1 reg_of sh_of out_of]. eexists. split; [reflexivity|].
      split; [rewrite !put_ne by (unfold r_corr, r_sc; lia); exact A|]. split; [rewrite !put_ne by (unfold r_new, r_sc; lia); exact B|].
      intros i Hi. destruct (Nat.eq_dec i (b + m)) as [->|Ni]; [rewrite !put_eq, put_ne by (unfold r_corr, r_sc; lia); now rewrite A|]. rewrite !put_ne by (unfold r_sc; lia). apply D. lia. }
    destruct (S ns 0) as (rg2 & E2 & C2 & N2 & S2). rewrite E2. clear S E2.
    assert (Rl : forall x, In x mine -> snd x < n). { intros [j ch] Hx. apply in_mine in Hx; auto. cbn. tauto. }
    assert (Ri : forall x y, In x mine -> In y mine -> r_loc n ns (fst x) (snd x) = r_loc n ns (fst y) (snd y) -> x = y).
    { intros [j ch] [j' ch'] Hx Hy E. apply Rl in Hx, Hy. cbn [fst snd] in *. unfold r_loc in E. assert (E' : j * n + ch = j' * n + ch') by lia. apply flat2 in E'; auto. destruct E'. now subst. }
    destruct (run_gets inp _ mine (fun x => r_loc n ns (fst x) (snd x)) (fun x => rd cells (vec (fst x) c (snd x))) rg2 sh out) as (rg3 & E3 & A3 & B3). rewrite E3. clear E3.
    assert (B3' : forall x, In x mine -> rg3 (r_loc n ns (fst x) (snd x)) = inp (rd cells (vec (fst x) c (snd x)))). { intros x Hx. apply B3; auto. intros y Hy E. apply Ri in E; auto. now subst. }
    destruct (run_scales inp _ mine (fun x => r_loc n ns (fst x) (snd x)) r_corr rg3 sh out) as (rg4 & E4 & A4 & B4); [intros x _; unfold r_corr, r_loc; lia| |].
    { assert (ND := nodup_mine t Ht). fold mine in ND. clear - ND Ri. induction mine as [|x l IH]; [constructor|]. inversion ND; subst. cbn [map]. constructor; [|apply IH; auto; intros; apply Ri; auto; now right]. intros H. apply in_map_iff in H. destruct H as (y & E & Hy). apply Ri in E; [subst; auto|now right|now left]. }
    rewrite E4. clear E4.
    assert (Lo : forall r, r < 3 + ns -> rg4 r = rg2 r). { intros r Hr. rewrite A4, A3; auto; intros x _; unfold r_loc; lia. }
    assert (L4 : forall x, In x mine -> rg4 (r_loc n ns (fst x) (snd x)) = (cr * inp (rd cells (vec (fst x) c (snd x))))%R). { intros x Hx. rewrite B4, B3' by auto. f_equal. rewrite A3 by (intros y _; unfold r_corr, r_loc; lia). exact C2. }
    destruct (run_outs inp _ mine (fun x => vec (fst x) c (snd x)) (fun x => r_loc n ns (fst x) (snd x)) rg4 sh out) as (out5 & E5 & A5 & B5).
    { intros [j ch] [j' ch'] Hx Hy E. cbn [fst snd] in *. apply Rl in Hx, Hy. cbn [snd] in *. apply vec_inj in E; auto. destruct E as (-> & _ & ->). reflexivity. }
    rewrite E5. clear E5.
    assert (V5 : forall j ch, j < nv -> ch < n -> own ch = t -> out5 (vec j c ch) = newval ninf inp c (vec j c ch)).
    { intros j ch Hj Hch Ho. assert (M : In (j, ch) mine) by (apply in_mine; auto). specialize (B5 _ M). cbn [fst snd] in B5. rewrite B5. specialize (L4 _ M). cbn [fst snd] in L4. rewrite L4. unfold newval.
      pose proof (vec_ge j c ch). destruct (Nat.ltb_spec (vec j c ch) cells); [lia|]. reflexivity. }
    assert (K5 : forall a, (forall j ch, j < nv -> ch < n -> own ch = t -> a <> vec j c ch) -> out5 a = out a).
    { intros a H. apply A5. intros [j ch] M. apply in_mine in M; auto. cbn [fst snd]. intros E. symmetry in E. revert E. apply H; tauto. }
    destruct (Nat.eqb_spec t 0) as [->|Nt].
    + match goal with |- context [run_instrs inp (IOut _ _ :: ?l) _] => change (run_instrs inp (IOut (max_at c) (fun r => r r_new) :: l) (rg4, sh, out5)) with (run_instrs inp l (rg4, sh, put (max_at c) (rg4 r_new) out5)) end.
      destruct (run_outs inp _ (seq 0 ns) (fun i => scal i c) r_sc rg4 sh (put (max_at c) (rg4 r_new) out5)) as (out6 & E6 & A6 & B6). { intros i i' _ _ E. unfold scal_at in E. apply flat2 in E; auto. destruct E. f_equal. lia. }
      rewrite E6. cbn [snd]. split.
      * intros a [_ [[_ [->|(i & Hi & ->)]]|(j & ch & Hj & Hch & Ho & ->)]].
        -- rewrite A6, put_eq, Lo, N2 by (try (unfold r_new; lia); intros i _ E; pose proof (scal_ge i c); unfold max_at in E; lia). unfold newval, max_at. now rewrite (proj2 (Nat.ltb_lt _ _) Hc).
        -- rewrite B6 by (apply in_seq; lia). rewrite Lo, S2 by (unfold r_sc; lia). unfold newval. pose proof (scal_ge i c). destruct (Nat.ltb_spec (scal i c) cells); [lia|]. reflexivity.
        -- rewrite A6, put_ne; [now apply V5| |].
           ++ pose proof (vec_ge j c ch). unfold max_at. lia.
           ++ intros i Hi E. apply in_seq in Hi. pose proof (vec_ge j c ch). pose proof (scal_lt i c ltac:(lia) Hc). lia.
      * intros a Na. rewrite A6, put_ne.
        -- apply K5. intros j ch Hj Hch Ho E. apply Na. split; [auto|]. right. eauto 8.
        -- intros ->. apply Na. split; [auto|]. left. auto.
        -- intros i Hi E. apply in_seq in Hi. apply Na. split; [auto|]. left. split; [auto|]. right. exists i. split; [lia|auto].
    + cbn [run_instrs fold_left snd]. split.
      * intros a [_ [[-> _]|(j & ch & Hj & Hch & Ho & ->)]]; [congruence|now apply V5].
      * intros a Na. apply K5. intros j ch Hj Hch Ho E. apply Na. split; [auto|]. right. eauto 8.
  - intros c t a f Hc Ht Hi. unfold long_code in Hi. cbv zeta in Hi. rewrite !in_app_iff in Hi. split; [auto|]. destruct Hi as [Hi|[Hi|[Hi|[Hi|[Hi|Hi]]]]].
    + destruct Hi as [Q|[Q|[Q|[]]]]; discriminate Q.
    + apply in_flat_map in Hi. destruct Hi as (x & _ & [Q|[Q|[]]]); discriminate Q.
    + apply in_map_iff in Hi. destruct Hi as (x & Q & _). discriminate Q.
    + apply in_map_iff in Hi. destruct Hi as (x & Q & _). discriminate Q.
    + apply in_map_iff in Hi. destruct Hi as ([j ch] & [= <- _] & Hx). apply in_mine in Hx; auto. right. exists j, ch. tauto.
    + destruct (Nat.eqb_spec t 0) as [->|]; [|destruct Hi]. left. split; [auto|]. destruct Hi as [[= <- _]|Hi]; [now left|right]. apply in_map_iff in Hi. destruct Hi as (i & [= <- _] & Hi). apply in_seq in Hi. exists i. split; [lia|auto].
  - intros c t a r Hc Ht Hi. unfold long_code in Hi. cbv zeta in Hi. rewrite !in_app_iff in Hi. destruct Hi as [Hi|[Hi|[Hi|[Hi|[Hi|Hi]]]]].
    + right. split; [auto|]. left. split; [auto|]. left. destruct Hi as [Q|[Q|[Q|[]]]]; try discriminate Q; injection Q as _ Q; unfold rd in Q; lia.
    + right. split; [auto|]. left. split; [auto|]. right. apply in_flat_map in Hi. destruct Hi as (x & Hx & [Q|[Q|[]]]); [|discriminate Q]. injection Q as _ Q. apply in_seq in Hx. exists x. unfold rd in Q. split; lia.
    + left. split; [auto|]. right. apply in_map_iff in Hi. destruct Hi as ([j ch] & Q & Hx). injection Q as _ Q. apply in_mine in Hx; auto. exists j, ch. unfold rd in Q. cbn [fst snd] in Q. repeat split; try tauto. lia.
    + apply in_map_iff in Hi. destruct Hi as (x & Q & _). discriminate Q.
    + apply in_map_iff in Hi. destruct Hi as (x & Q & _). discriminate Q.
    + destruct (t =? 0); [|destruct Hi]. destruct Hi as [Q|Hi]; [discriminate Q|]. apply in_map_iff in Hi. destruct Hi as (x & Q & _). discriminate Q.
  - intros c t Hc Ht. unfold long_code. cbv zeta. rewrite !app_assoc. rewrite <- (app_assoc _ (map (fun x => IOut _ _) _)).
    apply rbw_app.
    + apply rbw_nowrite. intros a f Hi. rewrite !in_app_iff in Hi. destruct Hi as [[[Hi|Hi]|Hi]|Hi].
      * destruct Hi as [Q|[Q|[Q|[]]]]; discriminate Q.
      * apply in_flat_map in Hi. destruct Hi as (x & _ & [Q|[Q|[]]]); discriminate Q.
      * apply in_map_iff in Hi. destruct Hi as (x & Q & _). discriminate Q.
      * apply in_map_iff in Hi. destruct Hi as (x & Q & _). discriminate Q.
    + apply rbw_noread. intros r a Hi. rewrite in_app_iff in Hi. destruct Hi as [Hi|Hi].
      * apply in_map_iff in Hi. destruct Hi as (x & Q & _). discriminate Q.
      * destruct (t =? 0); [|destruct Hi]. destruct Hi as [Q|Hi]; [discriminate Q|]. apply in_map_iff in Hi. destruct Hi as (x & Q & _). discriminate Q.
    + intros a f r _ Hi. rewrite in_app_iff in Hi. destruct Hi as [Hi|Hi].
      * apply in_map_iff in Hi. destruct Hi as (x & Q & _). discriminate Q.
      * destruct (t =? 0); [|destruct Hi]. destruct Hi as [Q|Hi]; [discriminate Q|]. apply in_map_iff in Hi. destruct Hi as (x & Q & _). discriminate Q.
  - intros c t a r p c' Hc Ht Nt [_ M] E. unfold long_code in E. cbv zeta in E. rewrite app_assoc in E. rewrite <- (long_head_len c). eapply split_before; [exact E|].
    intros Hi. rewrite !in_app_iff in Hi. destruct Hi as [Hi|[Hi|[Hi|Hi]]].
    + apply in_map_iff in Hi. destruct Hi as ([j ch] & Q & Hx). injection Q as _ Q. apply in_mine in Hx; auto. unfold rd in Q. cbn [fst snd] in Q. assert (a = vec j c ch) by lia. subst a. pose proof (vec_ge j c ch).
      destruct M as [[_ [M|(i & Hi & M)]]|(j' & ch' & Hj' & Hch' & Ho & M)]; [unfold max_at in M; lia|pose proof (scal_lt i c Hi Hc); lia|]. apply vec_inj in M; try tauto. destruct M as (_ & _ & ->). destruct Hx as (_ & _ & Hx). congruence.
    + apply in_map_iff in Hi. destruct Hi as (x & Q & _). discriminate Q.
    + apply in_map_iff in Hi. destruct Hi as (x & Q & _). discriminate Q.
    + destruct (t =? 0); [|destruct Hi]. destruct Hi as [Q|Hi]; [discriminate Q|]. apply in_map_iff in Hi. destruct Hi as (x & Q & _). discriminate Q.
  - intros c a f p c' Hc Ht E. unfold long_code in E. cbv zeta in E. rewrite app_assoc in E. rewrite <- (long_head_len c). eapply split_after; [exact E|].
    intros Hi. rewrite in_app_iff in Hi. destruct Hi as [Hi|Hi].
    + destruct Hi as [Q|[Q|[Q|[]]]]; discriminate Q.
    + apply in_flat_map in Hi. destruct Hi as (x & _ & [Q|[Q|[]]]); discriminate Q.
Qed.
End Long.
End Layout.
