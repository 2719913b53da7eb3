(** The launches of the rescale kernels: right when all threads of a cell proceed together,
    wrong for some execution when they do not. *)
From Coq Require Import List Arith Lia Bool Reals Lra FunctionalExtensionality.
From Verif Require Import TensorModel TensorProofs GpuModel GpuSpec GpuProofs GpuProofs2 GpuRwModel GpuRwSpec GpuRwProofs CudaWarpModel CudaAttnModel CudaAttnProofs CudaAttnFwdProofs2 DistAttnModel CudaRescaleModel CudaRescaleSpec CudaRescaleProofs CudaRescaleProofs2 CudaRescaleProofs3.
Import ListNotations.
Local Open Scope nat_scope.

Lemma corr_times : forall ninf old new y, times_exp ninf old new y (corr_of ninf old new * y)%R.
Proof. intros. unfold corr_of, times_exp. destruct (Req_EM_T old new), (Req_EM_T old ninf); repeat split; intros; try contradiction; ring. Qed.
Lemma corr_same : forall ninf x, corr_of ninf x x = 1%R.
Proof. intros. unfold corr_of. now destruct (Req_EM_T x x). Qed.
Lemma rescaled_ext : forall cells n ns nv ninf cov cov' ok ok' cur out o, (forall c, cov c <-> cov' c) -> (forall ch, ch < n -> (ok ch <-> ok' ch)) -> rescaled cells n ns nv ninf cov ok cur out o -> rescaled cells n ns nv ninf cov' ok' cur out o.
Proof. intros cells n ns nv ninf cov cov' ok ok' cur out o E E' [A B C D F]. constructor; intros; rewrite <- ?E, <- ?E' in * by auto; auto. Qed.

Section Launch.
Variables (ninf : R) (cells n nv ns G nT hl : nat) (own : nat -> nat) (key : nat -> option (option nat)) (cd : nat -> nat -> list instr) (cur : nat -> R).
Notation K := (resc_kernel cells n nv ns G nT key cd cur).
Hypothesis RS : rescales cells n nv ns nT own ninf K cd hl.
Hypothesis KL : forall g o, g < G -> key g = Some o -> exists c, o = Some c /\ c < cells.
Hypothesis KI : forall g g' c, g < G -> g' < G -> key g = Some (Some c) -> key g' = Some (Some c) -> g = g'.
Hypothesis OW : forall ch, ch < n -> own ch < nT.
Definition cov (c : nat) : Prop := exists g, g < G /\ key g = Some (Some c).
Lemma cov_lt : forall c, cov c -> c < cells.
Proof. intros c (g & Hg & E). destruct (KL g _ Hg E) as (c' & [= <-] & H). exact H. Qed.
Lemma max_eq : forall o c, the_max o c = o (max_at c). Proof. reflexivity. Qed.
Lemma sum_eq : forall o i c, the_sum cells o i c = o (scal_at cells i c). Proof. intros. unfold the_sum, scal_at. f_equal; try lia. Qed.
Lemma acc_eq : forall o j c ch, the_acc cells n ns o j c ch = o (vec_at cells n ns j c ch). Proof. intros. unfold the_acc, vec_at. f_equal; try lia. Qed.

Section Act.
Variable act : nat -> bool.
Notation KA := (only act K).
Lemma gm_vec : forall g t c j ch, c < cells -> j < nv -> ch < n -> (gmine cells n nv ns own key act g t (vec_at cells n ns j c ch) <-> act t = true /\ key g = Some (Some c) /\ own ch = t).
Proof.
  intros g t c j ch Hc Hj Hch. unfold gmine. split.
  - intros (A & c' & E & M). assert (M0 : minec cells n nv ns own c (own ch) (vec_at cells n ns j c ch)) by (split; [auto|]; right; exists j, ch; auto). destruct (minec_one _ _ _ _ _ _ _ _ _ _ M M0) as [-> ->]. auto.
  - intros (A & E & <-). split; [auto|]. exists c. split; [auto|]. split; [auto|]. right. exists j, ch. auto.
Qed.
Lemma gm_max : forall g t c, c < cells -> (gmine cells n nv ns own key act g t (max_at c) <-> act t = true /\ key g = Some (Some c) /\ t = 0).
Proof.
  intros g t c Hc. unfold gmine. split.
  - intros (A & c' & E & M). assert (M0 : minec cells n nv ns own c 0 (max_at c)) by (split; [auto|]; left; auto). destruct (minec_one _ _ _ _ _ _ _ _ _ _ M M0) as [-> ->]. auto.
  - intros (A & E & ->). split; [auto|]. exists c. split; [auto|]. split; [auto|]. left. auto.
Qed.
Lemma gm_scal : forall g t c i, c < cells -> i < ns -> (gmine cells n nv ns own key act g t (scal_at cells i c) <-> act t = true /\ key g = Some (Some c) /\ t = 0).
Proof.
  intros g t c i Hc Hi. unfold gmine. split.
  - intros (A & c' & E & M). assert (M0 : minec cells n nv ns own c 0 (scal_at cells i c)) by (split; [auto|]; left; split; [auto|]; right; eauto). destruct (minec_one _ _ _ _ _ _ _ _ _ _ M M0) as [-> ->]. auto.
  - intros (A & E & ->). split; [auto|]. exists c. split; [auto|]. split; [auto|]. left. split; [auto|]. right. eauto.
Qed.
(** what the threads of [act] leave behind *)
Definition part_result (out o : nat -> R) : Prop := forall c, c < cells ->
  (cov c -> (act 0 = true -> o (max_at c) = cur c /\ forall i, i < ns -> o (scal_at cells i c) = (corr_of ninf (out (max_at c)) (cur c) * out (scal_at cells i c))%R) /\
            (act 0 = false -> o (max_at c) = out (max_at c) /\ forall i, i < ns -> o (scal_at cells i c) = out (scal_at cells i c)) /\
            forall j ch, j < nv -> ch < n -> o (vec_at cells n ns j c ch) = if act (own ch) then (corr_of ninf (out (max_at c)) (cur c) * out (vec_at cells n ns j c ch))%R else out (vec_at cells n ns j c ch)) /\
  (~ cov c -> o (max_at c) = out (max_at c) /\ (forall i, i < ns -> o (scal_at cells i c) = out (scal_at cells i c)) /\ forall j ch, j < nv -> ch < n -> o (vec_at cells n ns j c ch) = out (vec_at cells n ns j c ch)).
Lemma part_of : forall out o, 1 <= nT -> owned_result (alias cells KA out) (gmine cells n nv ns own key act) (gval ninf cells key (k_in (alias cells KA out))) out o -> part_result out o.
Proof.
  intros out o HT [O1 O2] c Hc. cbn [alias only resc_kernel k_groups k_threads k_in] in O1, O2. set (inp := fun j => if j <? cells then cur j else out (j - cells)) in *.
  assert (I1 : forall a, inp (rd cells a) = out a). { intros a. unfold inp, rd. destruct (Nat.ltb_spec (cells + a) cells); [lia|]. f_equal. lia. }
  assert (I2 : inp c = cur c). { unfold inp. now rewrite (proj2 (Nat.ltb_lt _ _) Hc). }
  assert (NVm : newval cells ninf inp c (max_at c) = cur c). { unfold newval, max_at. now rewrite (proj2 (Nat.ltb_lt _ _) Hc). }
  assert (NVo : forall a, cells <= a -> newval cells ninf inp c a = (corr_of ninf (out (max_at c)) (cur c) * out a)%R). { intros a Ha. unfold newval. destruct (Nat.ltb_spec a cells); [lia|]. now rewrite !I1, I2. }
  split.
  - intros (g & Hg & Kg). split; [|split].
    + intros A. split; [rewrite <- NVm; apply (O1 g 0); auto; apply gm_max; auto|]. intros i Hi. rewrite <- NVo by apply scal_ge. apply (O1 g 0); auto. apply gm_scal; auto.
    + intros A. split; [|intros i Hi]; apply O2; intros g' t' Hg' Ht' M; [apply gm_max in M; auto|apply gm_scal in M; auto]; destruct M as (M1 & _ & ->); congruence.
    + intros j ch Hj Hch. destruct (act (own ch)) eqn:A.
      * rewrite <- NVo by (pose proof (vec_ge cells n ns j c ch); lia). apply (O1 g (own ch)); auto. apply gm_vec; auto.
      * apply O2. intros g' t' Hg' Ht' M. apply gm_vec in M; auto. destruct M as (M1 & _ & <-). congruence.
  - intros NC. assert (Q : forall g, g < G -> key g <> Some (Some c)) by (intros g Hg E; apply NC; exists g; auto). split; [|split].
    + apply O2. intros g t Hg Ht M. apply gm_max in M; auto. apply (Q g Hg). tauto.
    + intros i Hi. apply O2. intros g t Hg Ht M. apply gm_scal in M; auto. apply (Q g Hg). tauto.
    + intros j ch Hj Hch. apply O2. intros g t Hg Ht M. apply gm_vec in M; auto. apply (Q g Hg). tauto.
Qed.
Lemma settles_mono : forall k s (P Q : (nat -> R) -> Prop), (forall o, P o -> Q o) -> settles k s P -> settles k s Q.
Proof. intros k s P Q H [m S]. exists m. intros j u Pa. destruct (S j u Pa) as [A B]. split; [exact A|]. intros St. destruct (B St). auto. Qed.
Lemma part_settles : forall out rg sh, 1 <= nT -> settles (alias cells KA out) (start (alias cells KA out) rg sh out) (part_result out).
Proof. intros out rg sh HT. eapply settles_mono; [|apply (act_settles ninf cells n nv ns G nT hl own key cd cur RS KL KI act out rg sh HT)]. intros o. apply part_of; auto. Qed.
End Act.

Lemma full_rescaled : forall out o, part_result (fun _ => true) out o -> rescaled cells n ns nv ninf cov (fun _ => True) cur out o.
Proof.
  intros out o H. constructor.
  - intros c C. destruct (H c (cov_lt c C)) as [Q _]. destruct (Q C) as [Q1 _]. now apply Q1.
  - intros c i C Hi. destruct (H c (cov_lt c C)) as [Q _]. destruct (Q C) as [Q1 _]. destruct (Q1 eq_refl) as [_ Q2]. rewrite !sum_eq, Q2 by auto. apply corr_times.
  - intros c j ch C Hj Hch _. destruct (H c (cov_lt c C)) as [Q _]. destruct (Q C) as (_ & _ & Q2). rewrite !acc_eq, Q2 by auto. apply corr_times.
  - intros c j ch _ _ _ N. destruct (N I).
  - intros c Hc NC. destruct (H c Hc) as [_ Q]. destruct (Q NC) as (Q1 & Q2 & Q3). split; [exact Q1|]. split; intros; rewrite ?sum_eq, ?acc_eq; auto.
Qed.
Theorem together : forall ws out rg sh, 1 <= nT -> nT <= ws -> lsettles ws cells K (start K rg sh out) (rescaled cells n ns nv ninf cov (fun _ => True) cur out).
Proof.
  intros ws out rg sh HT HW. set (act := fun _ : nat => true).
  assert (S : lsettles ws cells (only act K) (start (only act K) rg sh out) (rescaled cells n ns nv ninf cov (fun _ => True) cur out)); [|exact S].
  apply snapshot_settles.
  - eapply act_plain; eauto.
  - eapply act_reads; eauto. intros _ t Ht _. apply Nat.div_small. lia.
  - change (start (only act K) rg sh out) with (start (alias cells (only act K) out) rg sh out). eapply settles_mono; [|apply part_settles; auto]. apply full_rescaled.
Qed.
Theorem apart_wrong : forall ws out rg sh, 1 <= ws -> 1 <= nT -> may_end ws cells K (start K rg sh out) (rescaled cells n ns nv ninf cov (fun ch => own ch < ws) cur out).
Proof.
  intros ws out rg sh HW HT. set (act := fun t : nat => t <? ws).
  assert (PL : all_plain K) by (apply (act_plain ninf cells n nv ns G nT hl own key cd cur RS KL (fun _ => true))).
  apply (may_split ws cells K act rg sh out (part_result act out)); auto.
  - intros t t' E. unfold act. assert (Q : forall x, (x <? ws) = (x / ws =? 0)). { intros x. destruct (Nat.ltb_spec x ws), (Nat.eqb_spec (x / ws) 0) as [Z|Z]; auto; [rewrite Nat.div_small in Z; auto; lia|]. apply Nat.div_small_iff in Z; lia. } now rewrite !Q, E.
  - apply may_from; [eapply act_plain; eauto|eapply act_reads; eauto|].
    + intros _ t Ht A. unfold act in A. apply Nat.ltb_lt in A. now apply Nat.div_small.
    + change (start (only act K) rg sh out) with (start (alias cells (only act K) out) rg sh out). apply part_settles; auto.
  - intros rg' sh' out' P1. set (nact := fun t => negb (act t)). apply may_from; [eapply act_plain; eauto|eapply act_reads; eauto|].
    + unfold nact, act. intros A. destruct (Nat.ltb_spec 0 ws); [discriminate A|lia].
    + change (start (only nact K) rg' sh' out') with (start (alias cells (only nact K) out') rg' sh' out'). eapply settles_mono; [|apply part_settles; auto]. intros o P2.
      assert (A0 : act 0 = true) by (apply Nat.ltb_lt; lia). assert (N0 : nact 0 = false) by (unfold nact; now rewrite A0).
      assert (V : forall c j ch, cov c -> j < nv -> ch < n -> o (vec_at cells n ns j c ch) = if act (own ch) then (corr_of ninf (out (max_at c)) (cur c) * out (vec_at cells n ns j c ch))%R else out (vec_at cells n ns j c ch)).
      { intros c j ch C Hj Hch. destruct (P1 c (cov_lt c C)) as [Q1 _]. destruct (P2 c (cov_lt c C)) as [Q2 _]. destruct (Q1 C) as (X1 & _ & Y1). destruct (Q2 C) as (_ & _ & Y2). rewrite Y2, Y1 by auto. destruct (X1 A0) as [-> _]. rewrite corr_same. unfold nact. destruct (act (own ch)); cbn [negb]; ring. }
      constructor.
      * intros c C. destruct (P1 c (cov_lt c C)) as [Q1 _]. destruct (P2 c (cov_lt c C)) as [Q2 _]. destruct (Q1 C) as (X1 & _ & _). destruct (Q2 C) as (_ & Y2 & _). rewrite max_eq. destruct (Y2 N0) as [-> _]. now apply X1.
      * intros c i C Hi. destruct (P1 c (cov_lt c C)) as [Q1 _]. destruct (P2 c (cov_lt c C)) as [Q2 _]. destruct (Q1 C) as (X1 & _ & _). destruct (Q2 C) as (_ & Y2 & _). rewrite !sum_eq. destruct (Y2 N0) as [_ Y]. rewrite Y by auto. destruct (X1 A0) as [_ X]. rewrite X by auto. apply corr_times.
      * intros c j ch C Hj Hch O. rewrite !acc_eq, V by auto. unfold act. rewrite (proj2 (Nat.ltb_lt _ _) O). apply corr_times.
      * intros c j ch C Hj Hch O. rewrite !acc_eq, V by auto. unfold act. rewrite (proj2 (Nat.ltb_ge _ _)) by lia. reflexivity.
      * intros c Hc NC. destruct (P1 c Hc) as [_ Q1]. destruct (P2 c Hc) as [_ Q2]. destruct (Q1 NC) as (X1 & X2 & X3). destruct (Q2 NC) as (Y1 & Y2 & Y3). split; [|split].
        -- rewrite !max_eq. congruence.
        -- intros i Hi. rewrite !sum_eq, Y2, X2 by auto. reflexivity.
        -- intros j ch Hj Hch. rewrite !acc_eq, Y3, X3 by auto. reflexivity.
Qed.
End Launch.

(** ** The cells of the groups *)
Section Long.
Variables (B Ho Wo BY nl : nat) (rows : list nat).
Hypotheses (HBY : 1 <= BY) (Hnl : nl <= length rows) (ND : NoDup rows) (HR : forall r, In r rows -> r < Ho).
Notation wd := (long_width BY nl Wo).
Lemma long_wd : nl * Wo <= wd. Proof. apply div_up_ge. lia. Qed.
Lemma long_key_at : forall g, g < B * wd -> long_key BY nl Ho Wo rows g = None \/
  exists b h ho wo, b < B /\ h < nl /\ wo < Wo /\ nth_error rows h = Some ho /\ g = b * wd + (h * Wo + wo) /\ long_key BY nl Ho Wo rows g = Some (Some ((b * Ho + ho) * Wo + wo)).
Proof.
  intros g Hg. unfold long_key. cbv zeta. set (x := g mod wd). destruct (Nat.leb_spec (nl * Wo) x) as [L|L]; [now left|right].
  assert (W1 : 1 <= Wo) by (destruct Wo; [rewrite Nat.mul_0_r in L; lia|lia]). assert (Wd : 0 < wd) by (pose proof long_wd; lia).
  assert (Hh : x / Wo < nl) by (apply Nat.div_lt_upper_bound; lia).
  destruct (nth_error rows (x / Wo)) as [ho|] eqn:E; [|apply nth_error_None in E; lia].
  assert (Hb : g / wd < B) by (apply Nat.div_lt_upper_bound; [lia|rewrite Nat.mul_comm; exact Hg]).
  pose proof (Nat.div_mod g wd ltac:(lia)) as D1. pose proof (Nat.div_mod x Wo ltac:(lia)) as D2. pose proof (Nat.mod_upper_bound x Wo ltac:(lia)) as D3. fold x in D1.
  exists (g / wd), (x / Wo), ho, (x mod Wo). repeat split; auto; [lia|]. cbn [bindo]. f_equal. f_equal. replace (x - x / Wo * Wo) with (x mod Wo) by lia. lia.
Qed.
Lemma long_lt : forall g o, g < B * wd -> long_key BY nl Ho Wo rows g = Some o -> exists c, o = Some c /\ c < B * Ho * Wo.
Proof.
  intros g o Hg E. destruct (long_key_at g Hg) as [Q|(b & h & ho & wo & Hb & Hh & Hw & Er & -> & Q)]; rewrite E in Q; [discriminate|]. injection Q as ->. eexists. split; [reflexivity|].
  assert (ho < Ho) by (apply HR; eapply nth_error_In; eauto). assert (b * Ho + ho + 1 <= B * Ho) by nia. nia.
Qed.
Lemma long_inj : forall g g' c, g < B * wd -> g' < B * wd -> long_key BY nl Ho Wo rows g = Some (Some c) -> long_key BY nl Ho Wo rows g' = Some (Some c) -> g = g'.
Proof.
  intros g g' c Hg Hg' E E'. destruct (long_key_at g Hg) as [Q|(b & h & ho & wo & Hb & Hh & Hw & Er & Eg & Q)]; rewrite E in Q; [discriminate|]. destruct (long_key_at g' Hg') as [Q'|(b' & h' & ho' & wo' & Hb' & Hh' & Hw' & Er' & Eg' & Q')]; rewrite E' in Q'; [discriminate|].
  injection Q as ->. injection Q' as Q'. apply flat2 in Q'; auto. destruct Q' as [Q1 ->]. assert (ho < Ho) by (apply HR; eapply nth_error_In; eauto). assert (ho' < Ho) by (apply HR; eapply nth_error_In; eauto). apply flat2 in Q1; auto. destruct Q1 as [-> ->].
  assert (h = h'); [|subst; reflexivity]. apply (proj1 (NoDup_nth_error rows) ND); [lia|congruence].
Qed.
Lemma long_cov : forall c, cov (B * wd) (long_key BY nl Ho Wo rows) c <-> row_cells B Ho Wo (firstn nl rows) c.
Proof.
  intros c. split.
  - intros (g & Hg & E). destruct (long_key_at g Hg) as [Q|(b & h & ho & wo & Hb & Hh & Hw & Er & Eg & Q)]; rewrite E in Q; [discriminate|]. injection Q as ->. exists b, ho, wo. repeat split; auto.
    rewrite <- (firstn_skipn nl rows) in Er. rewrite nth_error_app1 in Er by (rewrite firstn_length; lia). eapply nth_error_In; eauto.
  - intros (b & ho & wo & Hb & Hi & Hw & ->). apply In_nth_error in Hi. destruct Hi as (h & Eh). assert (Lh : h < nl). { assert (h < length (firstn nl rows)) by (apply nth_error_Some; congruence). rewrite firstn_length in H. lia. }
    assert (Er : nth_error rows h = Some ho). { rewrite <- (firstn_skipn nl rows). rewrite nth_error_app1 by (rewrite firstn_length; lia). exact Eh. }
    assert (Lx : h * Wo + wo < nl * Wo) by nia. pose proof long_wd as Wd. exists (b * wd + (h * Wo + wo)). split; [nia|].
    unfold long_key. cbv zeta. destruct (split_div wd b (h * Wo + wo) ltac:(lia)) as [-> ->]. rewrite (proj2 (Nat.leb_gt _ _)) by lia. destruct (split_div Wo h wo Hw) as [-> _]. rewrite Er. cbn [bindo]. f_equal. f_equal. lia.
Qed.
End Long.
Section UpKey.
Variables (B Ho Wo : nat).
Notation wd := (up_width Ho Wo).
Lemma up_wd : Ho * Wo <= wd. Proof. apply div_up_ge. lia. Qed.
Lemma up_key_at : forall g, g < B * wd -> up_rkey Ho Wo g = None \/ exists b x, b < B /\ x < Ho * Wo /\ g = b * wd + x /\ up_rkey Ho Wo g = Some (Some (b * (Ho * Wo) + x)).
Proof.
  intros g Hg. unfold up_rkey. cbv zeta. destruct (Nat.leb_spec (Ho * Wo) (g mod wd)) as [L|L]; [now left|right]. assert (0 < wd) by (pose proof up_wd; lia).
  pose proof (Nat.div_mod g wd ltac:(lia)). exists (g / wd), (g mod wd). repeat split; auto; [apply Nat.div_lt_upper_bound; [lia|rewrite Nat.mul_comm; exact Hg]|lia|]. f_equal. f_equal. lia.
Qed.
Lemma up_lt : forall g o, g < B * wd -> up_rkey Ho Wo g = Some o -> exists c, o = Some c /\ c < B * Ho * Wo.
Proof. intros g o Hg E. destruct (up_key_at g Hg) as [Q|(b & x & Hb & Hx & -> & Q)]; rewrite E in Q; [discriminate|]. injection Q as ->. eexists. split; [reflexivity|]. assert ((b + 1) * (Ho * Wo) <= B * (Ho * Wo)) by (apply Nat.mul_le_mono_r; lia). lia. Qed.
Lemma up_inj : forall g g' c, g < B * wd -> g' < B * wd -> up_rkey Ho Wo g = Some (Some c) -> up_rkey Ho Wo g' = Some (Some c) -> g = g'.
Proof.
  intros g g' c Hg Hg' E E'. destruct (up_key_at g Hg) as [Q|(b & x & Hb & Hx & Eg & Q)]; rewrite E in Q; [discriminate|]. destruct (up_key_at g' Hg') as [Q'|(b' & x' & Hb' & Hx' & Eg' & Q')]; rewrite E' in Q'; [discriminate|].
  injection Q as ->. injection Q' as Q'. apply flat2 in Q'; auto. destruct Q' as [-> ->]. congruence.
Qed.
Lemma up_cov : forall c, cov (B * wd) (up_rkey Ho Wo) c <-> c < B * Ho * Wo.
Proof.
  intros c. split; [intros (g & Hg & E); destruct (up_lt g _ Hg E) as (c' & [= <-] & H); exact H|]. intros Hc. assert (P : 0 < Ho * Wo) by (destruct (Ho * Wo) eqn:E; [rewrite <- Nat.mul_assoc, E in Hc; lia|lia]).
  pose proof (Nat.div_mod c (Ho * Wo) ltac:(lia)) as D. pose proof (Nat.mod_upper_bound c (Ho * Wo) ltac:(lia)) as D2. assert (Hb : c / (Ho * Wo) < B) by (apply Nat.div_lt_upper_bound; lia). pose proof up_wd.
  exists (c / (Ho * Wo) * wd + c mod (Ho * Wo)). split; [nia|]. unfold up_rkey. cbv zeta. destruct (split_div wd (c / (Ho * Wo)) (c mod (Ho * Wo)) ltac:(lia)) as [-> ->]. rewrite (proj2 (Nat.leb_gt _ _)) by lia. f_equal. f_equal. lia.
Qed.
End UpKey.

(** ** The state of the sequential kernels *)
Lemma rescaled_holds : forall cells n ninf cov' cur out o c st m', rescaled cells n 1 1 ninf cov' (fun _ => True) cur out o -> cov' c -> holds cells n 1 ninf out c st -> cur c = as_num ninf m' ->
  (forall m, r_max st = Some m -> m <> ninf) -> (forall m, m' = Some m -> m <> ninf) -> (m' = None -> r_max st = None) -> holds cells n 1 ninf o c (rescale m' st).
Proof.
  intros cells n ninf cov' cur out o c st m' [A B C _ _] Cv (H1 & H2 & H3) E N1 N2 N3. specialize (A c Cv). specialize (B c 0 Cv ltac:(lia)). assert (C' := fun ch Hc => C c 0 ch Cv ltac:(lia) Hc I). clear C. rewrite H1, E in *.
  unfold rescale. destruct m' as [m'|].
  - specialize (N2 m' eq_refl). destruct (r_max st) as [m|] eqn:Em; cbn [as_num] in *.
    + specialize (N1 m eq_refl). destruct (Req_EM_T m m') as [->|Ne].
      * split; [rewrite A, Em; reflexivity|]. destruct B as (B1 & _). split; [rewrite B1; auto|]. intros ch Hc. destruct (C' ch Hc) as (C1 & _). rewrite C1; auto.
      * split; [rewrite A; reflexivity|]. cbn [r_sum r_acc]. destruct B as (_ & _ & B1). split; [rewrite B1, H2 by auto; ring|]. intros ch Hc. destruct (C' ch Hc) as (_ & _ & C1). rewrite C1, H3 by auto. ring.
    + split; [rewrite A; reflexivity|]. cbn [r_sum r_acc]. destruct B as (_ & B1 & _). split; [rewrite B1 by auto; ring|]. intros ch Hc. destruct (C' ch Hc) as (_ & C1 & _). rewrite C1 by auto. ring.
  - rewrite (N3 eq_refl) in *. cbn [as_num] in *. split; [rewrite A, (N3 eq_refl); reflexivity|]. destruct B as (B1 & _). split; [rewrite B1; auto|]. intros ch Hc. destruct (C' ch Hc) as (C1 & _). rewrite C1; auto.
Qed.
