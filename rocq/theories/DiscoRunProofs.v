(** Runs of the preprocessed filter: one per (kernel, output row). *)
From Coq Require Import List Arith Lia Bool Reals Permutation Sorted.
From Verif Require Import TensorModel TensorProofs BigSum DiscoModel DiscoSpec DiscoSortProofs.
Import ListNotations.
Local Open Scope nat_scope.

Definition key (e : entry) : nat * nat := (ker e, row e).
Definition lexle (e e' : entry) : Prop := ker e < ker e' \/ (ker e = ker e' /\ row e <= row e').

Lemma StronglySorted_app : forall A (Rl : A -> A -> Prop) a b, StronglySorted Rl a -> StronglySorted Rl b ->
  (forall x y, In x a -> In y b -> Rl x y) -> StronglySorted Rl (a ++ b).
Proof.
  induction a; intros; simpl; auto. inversion H; subst. constructor.
  - apply IHa; auto. intros; apply H1; [right|]; auto.
  - apply Forall_app. split; auto. apply Forall_forall. intros. apply H1; [left|]; auto.
Qed.
Lemma in_kfilter : forall k es e, In e (kfilter k es) <-> In e es /\ ker e = k.
Proof. intros. unfold kfilter. rewrite filter_In, Nat.eqb_eq. tauto. Qed.
Lemma in_ksorted : forall K es e, In e (ksorted K es) <-> In e es /\ ker e < K.
Proof.
  intros. unfold ksorted. rewrite in_flat_map. split.
  - intros (k & Hk & H). apply in_seq in Hk. apply in_kfilter in H. destruct H; subst. split; auto; lia.
  - intros (H & Hk). exists (ker e). rewrite in_seq, in_kfilter. repeat split; auto; lia.
Qed.

Lemma ksorted_lex : forall K es, rows_sorted es -> StronglySorted lexle (ksorted K es).
Proof.
  intros K es RS. induction K; [constructor|].
  unfold ksorted. rewrite seq_S, flat_map_app. fold (ksorted K es). simpl. rewrite app_nil_r.
  apply StronglySorted_app; auto.
  - specialize (RS K). fold (kfilter K es) in RS.
    assert (Q : forall e, In e (kfilter K es) -> ker e = K) by (intros e He; apply in_kfilter in He; tauto).
    apply Sorted_StronglySorted in RS; [|intros x y z; lia].
    clear IHK. induction (kfilter K es); [constructor|]. simpl in RS. inversion RS; subst. constructor.
    + apply IHl; auto. intros; apply Q; right; auto.
    + apply Forall_forall. intros x Hx. right. rewrite (Q a), (Q x) by (simpl; auto). split; auto.
      rewrite Forall_forall in H2. apply H2, in_map; auto.
  - intros x y Hx Hy. apply in_ksorted in Hx. apply in_kfilter in Hy. left. lia.
Qed.

Definition heads (rs : list (list entry)) : list (nat * nat) := map (fun r => match r with e :: _ => key e | [] => (0, 0) end) rs.

Lemma cuts_heads_first : forall l e, StronglySorted lexle (e :: l) -> ~ In (key e) (heads (tl (cuts (e :: l)))).
Proof.
  induction l as [|e' l IH]; intros e SS; [simpl; tauto|].
  inversion SS as [|? ? S' F]; subst. specialize (IH e' S').
  inversion F as [|? ? Hee' F']; subst.
  assert (Hl : forall h, In h (heads (tl (cuts (e' :: l)))) -> exists x, In x l /\ key x = h).
  { intros h Hh. apply in_map_iff in Hh. destruct Hh as (r & <- & Hr).
    pose proof (cuts_concat (e' :: l)) as CC. pose proof (cuts_nonempty (e' :: l)) as NE. pose proof (cuts_head (e' :: l)) as CH.
    destruct (cuts (e' :: l)) as [|r0 rs]; [destruct Hr|]. simpl in *.
    destruct r as [|x r]; [exfalso; apply (NE []); auto|]. exists x. split; [|reflexivity].
    destruct r0; [exfalso; apply (NE []); auto|]. simpl in CC. injection CC as _ <-.
    apply in_or_app. right. apply in_concat. exists (x :: r). split; [auto|left; reflexivity]. }
  assert (No : ~ In (key e) (heads (tl (cuts (e' :: l))))).
  { intro Hin. destruct (Hl _ Hin) as (x & Hx & Kx).
    inversion S' as [|? ? S'' F'']; subst. rewrite Forall_forall in F''. specialize (F'' _ Hx).
    unfold key in Kx. injection Kx as K1 K2. apply IH. replace (key e') with (key e); auto.
    unfold key. unfold lexle in *. f_equal; lia. }
  pose proof (cuts_head (e' :: l)) as CH. pose proof (cuts_nonempty (e' :: l)) as NE.
  change (cuts (e :: e' :: l)) with (match cuts (e' :: l) with
                | (e'0 :: r) :: rs => if row e =? row e'0 then (e :: e'0 :: r) :: rs else [e] :: (e'0 :: r) :: rs
                | _ => [[e]] end).
  destruct (cuts (e' :: l)) as [|[|x q] rs]; [simpl; tauto|simpl; tauto|].
  simpl in CH. injection CH as ->. simpl in No.
  destruct (Nat.eqb_spec (row e) (row e')); simpl; auto.
  intros [E|E]; auto. unfold key in E. injection E as _ E. congruence.
Qed.
Lemma cuts_heads_NoDup : forall l, StronglySorted lexle l -> NoDup (heads (cuts l)).
Proof.
  induction l as [|e l IH]; intros SS; [constructor|].
  pose proof (cuts_heads_first l e SS) as F. inversion SS; subst. specialize (IH H1).
  simpl in *. destruct (cuts l) as [|[|x q] rs]; simpl in *; try (constructor; [tauto|constructor]).
  destruct (row e =? row x); simpl in *.
  - constructor; auto. inversion IH; auto.
  - constructor; auto.
Qed.

Lemma heads_in : forall es k, In k (heads (cuts es)) -> exists e, In e es /\ key e = k.
Proof.
  intros es k H. apply in_map_iff in H. destruct H as (r & <- & Hr).
  assert (r <> []) by (apply (cuts_nonempty es); auto). destruct r as [|e r]; [congruence|].
  exists e. split; [|reflexivity]. rewrite <- (cuts_concat es). apply in_concat. exists (e :: r). split; [auto|left; auto].
Qed.
Lemma cuts_bound : forall K Ho l, StronglySorted lexle l -> (forall e, In e l -> ker e < K /\ row e < Ho) -> length (cuts l) <= Ho * K.
Proof.
  intros K Ho l SS W. rewrite <- (map_length (fun r => match r with e :: _ => key e | [] => (0, 0) end)). fold (heads (cuts l)).
  transitivity (length (list_prod (seq 0 K) (seq 0 Ho))).
  - apply NoDup_incl_length; [apply cuts_heads_NoDup; auto|].
    intros k Hk. destruct (heads_in _ _ Hk) as (e & He & <-). apply in_prod; apply in_seq; destruct (W e He); simpl; lia.
  - rewrite prod_length, !seq_length. lia.
Qed.

(** kernels do not mix inside a run *)
Definition adj_ok (l : list entry) : Prop := forall a b x y, l = a ++ x :: y :: b -> ker x = ker y \/ row x <> row y.
Definition same_key (r : list entry) : Prop := forall e e', In e r -> In e' r -> key e = key e'.
Lemma cuts_same_key : forall l, adj_ok l -> forall r, In r (cuts l) -> same_key r.
Proof.
  induction l as [|e l IH]; intros A r Hr; [destruct Hr|].
  assert (A' : adj_ok l).
  { intros a b x y E. apply (A (e :: a) b x y). rewrite E. reflexivity. }
  specialize (IH A').
  assert (S1 : forall e : entry, same_key [e]) by (intros z x y [<-|[]] [<-|[]]; reflexivity).
  simpl in Hr. pose proof (cuts_head l) as CH. pose proof (cuts_concat l) as CC.
  destruct (cuts l) as [|[|x q] rs] eqn:E; simpl in *; try (destruct Hr as [<-|[]]; auto; fail).
  destruct l as [|x' l']; [discriminate|]. simpl in CH. injection CH as <-.
  destruct (Nat.eqb_spec (row e) (row x)) as [Er|Er]; simpl in Hr.
  - destruct Hr as [<-|Hr]; [|apply IH; auto].
    assert (Sq : same_key (x :: q)) by (apply IH; auto).
    assert (Kx : key e = key x).
    { destruct (A [] l' e x) as [K|K]; [reflexivity| |congruence]. unfold key. congruence. }
    intros y z [<-|Hy] [<-|Hz]; try reflexivity.
    + rewrite Kx. apply Sq; [left; reflexivity|auto].
    + rewrite Kx. apply Sq; [auto|left; reflexivity].
    + apply Sq; auto.
  - destruct Hr as [<-|Hr]; [auto|]. apply IH; auto.
Qed.

Lemma kfilter_none : forall k l, (forall e, In e l -> ker e <> k) -> kfilter k l = [].
Proof.
  intros. destruct (kfilter k l) as [|e r] eqn:E; [reflexivity|]. exfalso.
  assert (In e (kfilter k l)) by (rewrite E; left; reflexivity). apply in_kfilter in H0. destruct H0. apply (H e); auto.
Qed.
Lemma sep_adj : forall K es, rows_sorted es -> kernels_separated K es -> adj_ok (ksorted K es).
Proof.
  intros K es RS SP a b x y E.
  assert (SS := ksorted_lex K es RS). rewrite E in SS.
  assert (Hx : ker x < K) by (apply (in_ksorted K es); rewrite E; apply in_or_app; right; left; reflexivity).
  assert (Hy : ker y < K) by (apply (in_ksorted K es); rewrite E; apply in_or_app; right; right; left; reflexivity).
  assert (Sx : StronglySorted lexle (x :: y :: b) /\ (forall z, In z a -> lexle z x)).
  { clear -SS. induction a; simpl in *; [split; [auto|intros; tauto]|]. inversion SS; subst. destruct (IHa H1).
    split; auto. intros z [<-|Hz]; auto. rewrite Forall_forall in H2. apply H2. apply in_or_app. right; left; reflexivity. }
  destruct Sx as [Sx Ha]. inversion Sx as [|? ? Sy Fx]; subst. inversion Sy as [|? ? Sb Fy]; subst.
  rewrite Forall_forall in Fx, Fy. pose proof (Fx y (or_introl eq_refl)) as Lxy.
  destruct (Nat.eq_dec (ker x) (ker y)) as [|NE]; [left; auto|right].
  assert (Lt : ker x < ker y) by (unfold lexle in Lxy; lia).
  assert (Ba : forall z, In z a -> ker z <= ker x) by (intros z Hz; specialize (Ha z Hz); unfold lexle in Ha; lia).
  assert (Bb : forall z, In z b -> ker y <= ker z) by (intros z Hz; specialize (Fy z Hz); unfold lexle in Fy; lia).
  apply (SP (ker x) (ker y) x y (kfilter (ker x) a) (kfilter (ker y) b)); [lia| | |].
  - intros j Hj. change (kfilter j es = []). rewrite <- (kfilter_ksorted K) by lia. rewrite E.
    apply kfilter_none. intros z Hz. apply in_app_or in Hz. destruct Hz as [Hz|[<-|[<-|Hz]]]; try lia.
    + specialize (Ba _ Hz). lia.
    + specialize (Bb _ Hz). lia.
  - change (kfilter (ker x) es = kfilter (ker x) a ++ [x]). rewrite <- (kfilter_ksorted K) by lia. rewrite E.
    rewrite kfilter_app. f_equal. change (x :: y :: b) with ([x] ++ (y :: b)). rewrite kfilter_app.
    rewrite (kfilter_none (ker x) (y :: b)).
    + unfold kfilter; simpl. rewrite Nat.eqb_refl. reflexivity.
    + intros z [<-|Hz]; [lia|]. specialize (Bb _ Hz). lia.
  - change (kfilter (ker y) es = y :: kfilter (ker y) b). rewrite <- (kfilter_ksorted K) by lia. rewrite E.
    change (a ++ x :: y :: b) with (a ++ [x] ++ y :: b). rewrite app_assoc, kfilter_app.
    rewrite (kfilter_none (ker y) (a ++ [x])).
    + unfold kfilter; simpl. rewrite Nat.eqb_refl. reflexivity.
    + intros z Hz. apply in_app_or in Hz. destruct Hz as [Hz|[<-|[]]]; [specialize (Ba _ Hz)|]; lia.
Qed.

(** The filter as the kernels receive it. *)
Lemma preprocess_spec : forall junk K Ho N es, 1 <= K -> psi_wf K Ho N es -> rows_sorted es -> es <> [] ->
  preprocess_psi junk K Ho es = Some (starts 0 (cuts (ksorted K es)), ksorted K es).
Proof.
  intros junk K Ho N es HK W RS NE. unfold preprocess_psi.
  assert (G : forallb (fun e => ker e <? K) es && (1 <=? K) = true).
  { apply andb_true_iff. split; [|apply Nat.leb_le; auto]. apply forallb_forall. intros e He. apply Nat.ltb_lt. apply (W e He). }
  rewrite G. cbn [guard bindo].
  rewrite psi_sort_spec by (intros e He; apply (W e He)).
  rewrite psi_row_offsets_spec.
  assert (B : length (cuts (ksorted K es)) <= Ho * K).
  { apply cuts_bound; [apply ksorted_lex; auto|]. intros e He. apply in_ksorted in He. destruct (W e (proj1 He)) as (?&?&?). auto. }
  apply Nat.leb_le in B. rewrite B, orb_true_r. cbn [bindo].
  destruct (ksorted K es) eqn:E; [|reflexivity].
  exfalso. assert (P := ksorted_perm K es (fun e He => proj1 (W e He))). rewrite E in P.
  apply Permutation_nil in P. auto.
Qed.
