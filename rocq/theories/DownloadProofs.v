From Coq Require Import List Arith Lia Bool String.
From Verif Require Import DownloadModel DownloadSpec.
Import ListNotations.

Section D.
Context {byte digest : Type} (sha : list byte -> digest) (deqb : digest -> digest -> bool).
Hypothesis deqb_ok : forall a b, deqb a b = true <-> a = b.
Notation dl := (download sha deqb).

Lemma download_verified : forall e server w w', dl (Some e) server w = (w', Done) -> exists c, f_final w' = Some c /\ sha c = e.
Proof.
  intros e server [p f] w' E. unfold download in E. simpl in E. destruct f as [c|].
  - inversion E; subst. exists c. split; auto. unfold verify in H1. destruct (deqb (sha c) e) eqn:D; [|discriminate]. now apply deqb_ok.
  - destruct (server _) as [|pa body co]; [discriminate|]. destruct co; [|discriminate]. inversion E; subst. simpl. eexists. split; [reflexivity|].
    unfold verify in H1. destruct (deqb _ e) eqn:D; [|discriminate]. now apply deqb_ok.
Qed.
Lemma download_final : forall e server w c, f_final w = Some c -> dl e server w = (w, verify sha deqb e c).
Proof. intros e server w c E. unfold download. now rewrite E. Qed.
Lemma downloads_rejected : forall e servers w c, f_final w = Some c -> sha c <> e ->
  downloads sha deqb (Some e) servers w = (w, repeat Raised (List.length servers)).
Proof.
  induction servers as [|s l IH]; intros w c E N; auto. simpl. rewrite (download_final _ _ _ _ E). simpl.
  replace (deqb (sha c) e) with false. 2:{ symmetry. apply not_true_is_false. intros T. now apply N, deqb_ok. }
  rewrite (IH w c); auto.
Qed.

(** Honest servers. *)
Definition good (D : list byte) (w : files) : Prop :=
  match f_final w with Some c => c = D | None => match f_part w with Some p => starts p D | None => True end end.
Lemma starts_skip : forall (p b D : list byte), starts p D -> starts b (skipn (List.length p) D) -> starts (p ++ b) D.
Proof.
  intros p b D [r ->] [s E]. rewrite skipn_app, skipn_all, Nat.sub_diag in E. simpl in E. exists s. now rewrite E, app_assoc.
Qed.
Lemma download_good : forall D e server w, honest D server -> good D w -> let '(w', r) := dl e server w in
  good D w' /\ (r = Done -> f_final w' = Some D) /\ (f_final w = Some D -> f_final w' = Some D).
Proof.
  intros D e server [p f] HS G. unfold download. cbn [f_final f_part]. unfold good in G. cbn [f_final f_part] in G. destruct f as [c|].
  { subst. split; [exact eq_refl|]. auto. }
  specialize (HS (option_map (@List.length byte) p)). destruct (server (option_map (@List.length byte) p)) as [|pa body co].
  { split; auto. split; discriminate. }
  assert (K : starts ((match p with Some p => if pa then p else [] | None => [] end) ++ body) D /\
             (co = true -> (match p with Some p => if pa then p else [] | None => [] end) ++ body = D)).
  { destruct pa.
    - destruct HS as (n & En & Hn & Sb & Cb). destruct p as [p|]; [|discriminate]. injection En as <-. split. now apply starts_skip.
      intros C. rewrite (Cb C). destruct G as [r ->]. now rewrite skipn_app, skipn_all, Nat.sub_diag.
    - destruct p; simpl; exact HS. }
  destruct K as [K1 K2]. destruct co.
  - split. unfold good. simpl. auto. simpl. rewrite K2 by auto. auto.
  - split. unfold good. simpl. auto. split; discriminate.
Qed.
Lemma downloads_good : forall D e servers w, Forall (honest D) servers -> good D w -> let '(w', rs) := downloads sha deqb e servers w in
  good D w' /\ (In Done rs -> f_final w' = Some D) /\ (f_final w = Some D -> f_final w' = Some D).
Proof.
  induction servers as [|s l IH]; intros w F G. { simpl. split; auto. split; [tauto|auto]. }
  inversion F; subst. simpl. pose proof (download_good D e s w H1 G) as K. destruct (dl e s w) as [w1 r]. destruct K as (K1 & K2 & K3).
  pose proof (IH w1 H2 K1) as J. destruct (downloads sha deqb e l w1) as [w2 rs]. destruct J as (J1 & J2 & J3).
  split; auto. split; auto. intros [->|Hi]; auto.
Qed.
Lemma downloads_stuck : forall D e servers, Forall (refuses_past_end D) servers ->
  downloads sha deqb e servers (mkfiles (Some D) None) = (mkfiles (Some D) None, repeat Raised (List.length servers)).
Proof.
  induction servers as [|s l IH]; intros F; auto. inversion F; subst. simpl. unfold download. simpl. rewrite (H1 (List.length D)) by lia. rewrite IH; auto.
Qed.

(** The folder. *)
Context {member : Type} (unpack : list byte -> list member).
Lemma fetch_step : forall e server stop s s' r, fetch sha deqb unpack e server stop s = (s', r) ->
  (exists l, s_folder s = Some l /\ s' = s /\ r = Done) \/
  (s_folder s = None /\ s_files s' = fst (dl e server (s_files s)) /\ r = Raised /\
    (s_folder s' = None \/ exists n c, stop = Some n /\ dl e server (s_files s) = (s_files s', Done) /\ f_final (s_files s') = Some c /\ s_folder s' = Some (firstn n (unpack c)))) \/
  (s_folder s = None /\ stop = None /\ r = Done /\ exists w c, dl e server (s_files s) = (w, Done) /\ f_final w = Some c /\ s_folder s' = Some (unpack c)).
Proof.
  intros e server stop s s' r E. unfold fetch in E. destruct (s_folder s) as [l|] eqn:F. { left. inversion E; subst. eauto. }
  right. destruct (dl e server (s_files s)) as [w q] eqn:D. destruct q.
  2:{ inversion E; subst. left. simpl. auto. }
  destruct (f_final w) as [c|] eqn:C. 2:{ inversion E; subst. left. simpl. auto. }
  destruct stop as [n|].
  - inversion E; subst. left. simpl. split; auto. split; auto. split; auto. unfold folder_of. destruct (firstn n (unpack c)) eqn:G; auto.
    right. exists n, c. rewrite G. auto.
  - destruct (unpack c) as [|m l] eqn:U; inversion E; subst.
    + left. simpl. auto.
    + right. split; auto. split; auto. split; auto. exists w, c. rewrite U. auto.
Qed.
Lemma fetches_verified : forall e calls s s' rs, s_folder s = None -> Forall (fun c => snd c = None) calls ->
  fetches sha deqb unpack (Some e) calls s = (s', rs) ->
  (s_folder s' = None /\ ~ In Done rs) \/ (exists c, sha c = e /\ s_folder s' = Some (unpack c)).
Proof.
  intros e calls.
  assert (K : forall calls s s' rs l, s_folder s = Some l -> fetches sha deqb unpack (Some e) calls s = (s', rs) -> s_folder s' = Some l).
  { clear. induction calls as [|[sv st] k IH]; intros s s' rs l F E; simpl in E. inversion E; subst; auto.
    unfold fetch in E. rewrite F in E. destruct (fetches sha deqb unpack (Some e) k s) as [s2 q] eqn:G. inversion E; subst. eapply IH; eauto. }
  induction calls as [|[sv st] k IH]; intros s s' rs F A E; simpl in E.
  { inversion E; subst. left. split; auto. }
  inversion A; subst. simpl in H1. subst. destruct (fetch sha deqb unpack (Some e) sv None s) as [s1 r] eqn:G.
  destruct (fetches sha deqb unpack (Some e) k s1) as [s2 q] eqn:G2. inversion E; subst.
  apply fetch_step in G as [(l & B & _)|[(_ & _ & B & [C|(n & c & C & _)])|(_ & _ & B & w & c & Dw & Fw & C)]]; try congruence.
  - destruct (IH _ _ _ C H2 G2) as [[J1 J2]|J]; [left|right; exact J]. split; auto. intros [I|I]; [congruence|auto].
  - right. exists c. split. destruct (download_verified _ _ _ _ Dw) as (c' & P & Q); congruence. eapply K; eauto.
Qed.
Lemma fetches_honest : forall D e calls s s' rs, s_folder s = None -> good D (s_files s) -> Forall (fun c => honest D (fst c) /\ snd c = None) calls ->
  fetches sha deqb unpack e calls s = (s', rs) -> In Done rs -> s_folder s' = Some (unpack D).
Proof.
  intros D e calls.
  assert (K : forall calls s s' rs l, s_folder s = Some l -> fetches sha deqb unpack e calls s = (s', rs) -> s_folder s' = Some l).
  { clear. induction calls as [|[sv st] k IH]; intros s s' rs l F E; simpl in E. inversion E; subst; auto.
    unfold fetch in E. rewrite F in E. destruct (fetches sha deqb unpack e k s) as [s2 q] eqn:G. inversion E; subst. eapply IH; eauto. }
  induction calls as [|[sv st] k IH]; intros s s' rs F W A E I; simpl in E.
  { inversion E; subst. destruct I. }
  inversion A as [|? ? [Hh Hn] Ak]; subst. simpl in Hh, Hn. subst. destruct (fetch sha deqb unpack e sv None s) as [s1 r] eqn:G.
  destruct (fetches sha deqb unpack e k s1) as [s2 q] eqn:G2. inversion E; subst.
  pose proof (download_good D e sv (s_files s) Hh W) as J.
  apply fetch_step in G as [(l & B & _)|[(_ & Q & B & [C|(n & c & C & _)])|(_ & _ & B & w & c & Dw & Fw & C)]]; try congruence.
  - destruct I as [I|I]; [congruence|]. eapply IH; eauto. rewrite Q. destruct (dl e sv (s_files s)). apply J.
  - rewrite Dw in J. destruct J as (_ & J & _). rewrite (J eq_refl) in Fw. injection Fw as <-. eapply K; eauto.
Qed.
End D.

(** ** Paths *)
Lemma path_eqb_eq : forall p q, path_eqb p q = true <-> p = q.
Proof. intros. unfold path_eqb. destruct (list_eq_dec string_dec p q); split; congruence. Qed.
Lemma prefixb_inside : forall p q, prefixb p q = true -> inside p q.
Proof.
  induction p as [|a p IH]; intros q E. exists q. auto. destruct q as [|b q]; simpl in E; [discriminate|]. apply andb_true_iff in E as [E1 E2].
  apply String.eqb_eq in E1. subst. destruct (IH q E2) as [r ->]. exists r. auto.
Qed.
Lemma allowed_inside : forall base p, allowed base p = true -> inside base p.
Proof.
  intros base p E. unfold allowed in E. apply orb_true_iff in E as [E|E].
  - apply path_eqb_eq in E. subst. exists []. now rewrite app_nil_r.
  - apply andb_true_iff in E as [_ E]. now apply prefixb_inside.
Qed.
Lemma walk_norm : forall limit fs parts cur p, linkless fs -> walk limit fs cur parts = Some p -> p = norm cur parts.
Proof.
  induction limit as [|n IH]; intros fs parts cur p L E; destruct parts as [|c r]; simpl in E; try (inversion E; reflexivity); try discriminate.
  unfold norm. cbn [fold_left]. unfold norm_step at 2. destruct (String.eqb c "" || String.eqb c ".")%string. { now apply IH in E. }
  destruct (String.eqb c ".."). { now apply IH in E. }
  destruct (fs (cur ++ [c])) as [[| |t]|] eqn:F; try (now apply IH in E). exfalso. eapply L; eauto.
Qed.
Lemma linkless_update : forall fs p n, linkless fs -> (forall t, n <> NLink t) -> linkless (update fs p n).
Proof. intros fs p n L N q t E. unfold update in E. destruct (path_eqb q p). congruence. eapply L; eauto. Qed.

Lemma extract_all_inside : forall limit base l fs fs' ps, linkless fs -> Forall plain l -> check_members base l = true ->
  extract_all limit base fs l = Some (fs', ps) -> Forall (inside base) ps /\ linkless fs'.
Proof.
  induction l as [|m l IH]; intros fs fs' ps L P C E. { simpl in E. inversion E; subst. auto. }
  simpl in E, C. inversion P as [|? ? Pm Pl]; subst. apply andb_true_iff in C as [Cm Cl].
  destruct (extract limit base fs m) as [[fs1 a]|] eqn:X; [|discriminate].
  assert (K : Forall (inside base) a /\ linkless fs1).
  { unfold check_member in Cm. apply andb_true_iff in Cm as [Cm _]. unfold abs_join in Cm. unfold extract, walk_name in X.
    destruct Pm as [Pm|Pm]; rewrite Pm in X; destruct (walk limit fs _ _) as [p|] eqn:W; try discriminate; inversion X; subst;
      (split; [constructor; [|constructor]; apply walk_norm in W; auto; subst; now apply allowed_inside | apply linkless_update; auto; discriminate]). }
  destruct K as [Ka L1]. destruct (extract_all limit base fs1 l) as [[fs2 b]|] eqn:Y; [|discriminate]. inversion E; subst.
  destruct (IH fs1 fs' b L1 Pl Cl Y) as [Kb L2]. split; auto. apply Forall_app; auto.
Qed.

(** Names without "..", whatever links lie outside of the directory. *)
Definition safe_part (c : string) : Prop := c <> ".."%string.
Definition links_outside (base : path) (fs : fsys) : Prop := forall r t, fs (base ++ r) <> Some (NLink t).
Lemma walk_inside : forall limit fs base parts r p, links_outside base fs -> Forall safe_part parts ->
  walk limit fs (base ++ r) parts = Some p -> inside base p.
Proof.
  induction limit as [|n IH]; intros fs base parts r p L S E; destruct parts as [|c q]; simpl in E; try discriminate; try (inversion E; exists r; reflexivity).
  inversion S; subst. destruct (String.eqb c "" || String.eqb c ".")%string. { eapply IH; eauto. }
  destruct (String.eqb_spec c ".."). { now elim H1. }
  destruct (fs ((base ++ r) ++ [c])) as [[| |t]|] eqn:F; try (rewrite <- app_assoc in E; eapply IH; eauto; fail).
  rewrite <- app_assoc in F. exfalso. eapply L; eauto.
Qed.
Lemma extract_all_relative : forall limit base l fs fs' ps, links_outside base fs ->
  Forall (fun m => plain m /\ n_abs (t_name m) = false /\ Forall safe_part (n_parts (t_name m))) l ->
  extract_all limit base fs l = Some (fs', ps) -> Forall (inside base) ps.
Proof.
  induction l as [|m l IH]; intros fs fs' ps L P E. { simpl in E. inversion E; subst. auto. }
  simpl in E. inversion P as [|? ? (Pm & Pa & Ps) Pl]; subst. destruct (extract limit base fs m) as [[fs1 a]|] eqn:X; [|discriminate].
  assert (K : Forall (inside base) a /\ links_outside base fs1).
  { unfold extract, walk_name in X. rewrite Pa in X.
    destruct Pm as [Pm|Pm]; rewrite Pm in X; destruct (walk limit fs base (n_parts (t_name m))) as [p|] eqn:W; try discriminate; inversion X; subst;
      (rewrite <- (app_nil_r base) in W; apply walk_inside in W; auto; split; [auto|]; intros r t; unfold update; destruct (path_eqb _ _); [discriminate|apply L]). }
  destruct K as [Ka L1]. destruct (extract_all limit base fs1 l) as [[fs2 b]|] eqn:Y; [|discriminate]. inversion E; subst. apply Forall_app; split; auto. eapply IH; eauto.
Qed.
