(** C82: moving and converting a random field sampler. *)
From Coq Require Import List Arith.
From Verif Require Import MixedPrecModel GrfMoveModel GrfMoveSpec GrfMoveProofs.
Import ListNotations.

(** After any history that ends with a call of the sampler's own to or cuda, whatever came before, a draw is a field on the device last
    asked for; it is in the type last asked for if one was.  Only bfloat16 is refused. *)
Theorem C82_own : forall t h g, let h' := h ++ [Own g] in
  (type_asked t h' <> BF16 -> exists u, forward (history t h') None = Some (mkt (device_asked h') u) /\ (types h' <> [] -> u = type_asked t h')) /\
  (type_asked t h' = BF16 -> forward (history t h') None = None).
Proof.
  intros t h g h'. assert (N : s_noise (history t h') = mkt (device_asked h') (type_asked t h')).
  { apply noise_own. right. now exists h, g. }
  rewrite forward_drawn, N. split.
  - intros B. assert (V : view_as_complex (mkt (device_asked h') (type_asked t h')) = Some (mkt (device_asked h') (type_asked t h'))).
    { unfold view_as_complex. cbn. destruct (type_asked t h'); congruence. }
    rewrite V, forward_given. cbn. rewrite same_dev_refl. eexists. split. reflexivity.
    intros T. assert (Q : type_asked F32 h' = type_asked t h').
    { unfold type_asked. destruct (types h') as [|x l] using rev_ind; [congruence|]. now rewrite !last_last. }
    rewrite Q. destruct (type_asked t h'); reflexivity.
  - intros B. rewrite B. reflexivity.
Qed.
Print Assumptions C82_own.

(** Every history is one that ends with a call of the sampler's own to or cuda (or none), followed by other moves; a draw succeeds exactly
    if the other moves left the device alone and the noise is not in bfloat16. *)
Theorem C82_draw : forall t h, exists h1 h2, h = h1 ++ h2 /\ ends_own h1 /\ only_other h2 /\
  forward (history t h) None =
    match type_asked t h1 with
    | BF16 => None
    | u => if same_dev (device_asked h1) (device_asked h) then Some (mkt (device_asked h) (promote u (type_asked F32 h))) else None
    end.
Proof.
  intros t h. destruct (split_history h) as (h1 & h2 & -> & O1 & O2). exists h1, h2. split; auto. split; auto. split; auto.
  rewrite forward_drawn, (noise_other t h1 h2 O2), (noise_own t h1 O1). unfold view_as_complex. cbn [t_dt].
  destruct (type_asked t h1); auto; rewrite forward_given; cbn; destruct (same_dev _ _) eqn:D; auto; apply same_dev_eq in D; now rewrite D.
Qed.
Print Assumptions C82_draw.

(** The decomposition does not depend on the choice: for each one the draw fails if the devices differ. *)
Theorem C82_left_behind : forall t h1 h2, ends_own h1 -> only_other h2 -> device_asked (h1 ++ h2) <> device_asked h1 ->
  forward (history t (h1 ++ h2)) None = None.
Proof.
  intros t h1 h2 O1 O2 D. rewrite forward_drawn, (noise_other t h1 h2 O2), (noise_own t h1 O1). unfold view_as_complex. cbn [t_dt].
  destruct (type_asked t h1); auto; rewrite forward_given; cbn; destruct (same_dev _ _) eqn:E; auto; apply same_dev_eq in E; congruence.
Qed.
Print Assumptions C82_left_behind.

(** Noise given by the caller on the device last asked for is always accepted, on another refused. *)
Theorem C82_given : forall t h x,
  match forward (history t h) (Some x) with
  | Some u => t_dev x = device_asked h /\ t_dev u = device_asked h /\ t_dt u = promote (t_dt x) (type_asked F32 h)
  | None => t_dev x <> device_asked h
  end.
Proof.
  intros t h x. rewrite forward_given. destruct (same_dev _ _) eqn:E.
  - apply same_dev_eq in E. cbn. auto.
  - intros H. rewrite H, same_dev_refl in E. discriminate.
Qed.
Print Assumptions C82_given.

(** The expectation: whichever way the sampler was moved, it can be drawn from on the device it was moved to. *)
Theorem C82_moved_refuted : ~ forall h, exists u, forward (history F32 h) None = Some (mkt (device_asked h) u).
Proof.
  intros H. destruct (H [Other (mkg (Some (Some 0)) None)]) as (u & E). discriminate.
Qed.
Print Assumptions C82_moved_refuted.
(** The case of cpu() after cuda() *)
Theorem C82_back_refuted : forall t k, forward (history t [Own (mkg (Some (Some k)) None); Other (mkg (Some None) None)]) None = None.
Proof. intros [] k; reflexivity. Qed.
Print Assumptions C82_back_refuted.

(** The expectation: a sampler constructed with a type draws in that type, from eigenvalues of that type. *)
Theorem C82_type_refuted : ~ (forall t, exists d, forward (history t []) None = Some (mkt d t)) /\ ~ (forall t, t_dt (s_eig (history t [])) = t).
Proof.
  split; intros H.
  - destruct (H F16) as (d & E). discriminate.
  - specialize (H F64). discriminate.
Qed.
Print Assumptions C82_type_refuted.
(** What holds: single and double precision are drawn in their type, half precision in single, bfloat16 not at all. *)
Theorem C82_constructed : forall t, forward (history t []) None = match t with F64 => Some (mkt None F64) | BF16 => None | _ => Some (mkt None F32) end.
Proof. intros []; reflexivity. Qed.
Print Assumptions C82_constructed.

(** Cases: moved by its own to after a parent's move, in double precision; half precision in single; a parent's move back. *)
Example C82_own_ex : forward (history F32 [Other (mkg (Some (Some 1)) None); Own (mkg (Some (Some 0)) (Some F64))]) None = Some (mkt (Some 0) F64).
Proof. reflexivity. Qed.
Example C82_left_ex : let h1 := [Own (mkg (Some (Some 1)) None)] in let h2 := [Other (mkg None (Some F64)); Other (mkg (Some None) None)] in
  ends_own h1 /\ only_other h2 /\ device_asked (h1 ++ h2) <> device_asked h1.
Proof.
  cbn. split. right. now exists [], (mkg (Some (Some 1)) None). split.
  intros a [<-|[<-|[]]]; eauto. discriminate.
Qed.
Example C82_draw_ex : forward (history F32 [Own (mkg (Some (Some 1)) None); Other (mkg (Some None) None); Other (mkg (Some (Some 1)) (Some F64))]) None = Some (mkt (Some 1) F64).
Proof. reflexivity. Qed.
