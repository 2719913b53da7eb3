(** Proofs about moved samplers. *)
From Coq Require Import List Arith Bool.
From Verif Require Import MixedPrecModel GrfMoveModel GrfMoveSpec.
Import ListNotations.

Lemma same_dev_eq a b : same_dev a b = true <-> a = b.
Proof.
  destruct a, b; cbn; split; intro H; try congruence.
  - apply Nat.eqb_eq in H. congruence.
  - injection H as ->. apply Nat.eqb_refl.
Qed.
Lemma same_dev_refl a : same_dev a a = true.
Proof. now apply same_dev_eq. Qed.

Lemma last_snoc_list {A} (l m : list A) d : last (l ++ m) d = last m (last l d).
Proof.
  revert d. induction m as [|x m IH] using rev_ind; intros d.
  - now rewrite app_nil_r.
  - now rewrite app_assoc, !last_last.
Qed.

Lemma device_snoc h a : device_asked (h ++ [a]) = match g_dev (target_of a) with Some d => d | None => device_asked h end.
Proof.
  unfold device_asked, devices. rewrite flat_map_app, last_snoc_list. cbn. destruct (g_dev (target_of a)); reflexivity.
Qed.
Lemma type_snoc t h a : type_asked t (h ++ [a]) = match g_dt (target_of a) with Some u => u | None => type_asked t h end.
Proof.
  unfold type_asked, types. rewrite flat_map_app, last_snoc_list. cbn. destruct (g_dt (target_of a)); reflexivity.
Qed.

Lemma history_snoc t h a : history t (h ++ [a]) = do_step (history t h) a.
Proof. unfold history. now rewrite fold_left_app. Qed.

(** The buffers are where, and as, the history asked. *)
Lemma buffers t h :
  s_pct (history t h) = mkt (device_asked h) (type_asked t h) /\
  s_eig (history t h) = mkt (device_asked h) (type_asked F32 h) /\
  s_mean (history t h) = mkt (device_asked h) (type_asked t h).
Proof.
  induction h as [|a h IH] using rev_ind.
  - now cbn.
  - destruct IH as (P & E & M). rewrite history_snoc, device_snoc, !type_snoc.
    destruct a as [g|g]; cbn; rewrite P, E, M; unfold move_tens; cbn; auto.
Qed.

Lemma noise_own t h : ends_own h -> s_noise (history t h) = mkt (device_asked h) (type_asked t h).
Proof.
  intros [->|(h' & g & ->)]; [reflexivity|].
  destruct (buffers t (h' ++ [Own g])) as (_ & _ & M). rewrite <- M. now rewrite history_snoc.
Qed.
Lemma noise_other t h1 h2 : only_other h2 -> s_noise (history t (h1 ++ h2)) = s_noise (history t h1).
Proof.
  induction h2 as [|a h2 IH] using rev_ind; intros O.
  - now rewrite app_nil_r.
  - rewrite app_assoc, history_snoc. destruct (O a) as (g & ->). apply in_or_app; right; now left.
    cbn. apply IH. intros b I. apply O. apply in_or_app. now left.
Qed.
Lemma split_history h : exists h1 h2, h = h1 ++ h2 /\ ends_own h1 /\ only_other h2.
Proof.
  induction h as [|a h (h1 & h2 & E & O1 & O2)] using rev_ind.
  - exists [], []. repeat split. now left. intros a [].
  - destruct a as [g|g].
    + exists (h ++ [Own g]), []. split. now rewrite app_nil_r. split. right. now exists h, g. intros a [].
    + exists h1, (h2 ++ [Other g]). rewrite E, app_assoc. split; auto. split; auto.
      intros a I. apply in_app_or in I. destruct I as [I|[<-|[]]]; eauto.
Qed.

Lemma forward_given t h x : forward (history t h) (Some x) =
  if same_dev (t_dev x) (device_asked h) then Some (mkt (t_dev x) (promote (t_dt x) (type_asked F32 h))) else None.
Proof.
  destruct (buffers t h) as (P & E & _). unfold forward, product, inverse_transform. rewrite E. cbn.
  destruct (same_dev (t_dev x) (device_asked h)) eqn:D; auto.
  rewrite P. cbn. unfold product. cbn. rewrite D. f_equal. f_equal. destruct (t_dt x), (type_asked F32 h); reflexivity.
Qed.
Lemma forward_drawn t h : forward (history t h) None =
  match view_as_complex (s_noise (history t h)) with None => None | Some x => forward (history t h) (Some x) end.
Proof. unfold forward. destruct (view_as_complex _); reflexivity. Qed.
