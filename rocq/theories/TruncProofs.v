From Coq Require Import List Arith Lia Bool.
From Verif Require Import TruncModel TruncSpec.

Lemma unset_iff : forall x, unset x <-> x = None \/ x = Some 0.
Proof.
  intros x. split; intros H.
  - destruct x as [[|k]|]; auto. exfalso. apply (H (S k)). split; auto.
  - intros k [E N]. destruct H; subst; congruence.
Qed.
Lemma unset_or_default : forall x d, unset x -> or_default x d = d.
Proof. intros x d H. apply unset_iff in H. destruct H; subst; auto. Qed.
Lemma requested_or_default : forall x d k, requested x k -> or_default x d = k.
Proof. intros x d k [-> H]. destruct k; simpl; auto; lia. Qed.

Lemma truncate_sht_cases : forall nlat nlon lmax mmax g L,
  (requested lmax L \/ (unset lmax /\ default_lmax g nlat = Some L)) ->
  truncate_sht nlat nlon lmax mmax g =
  Some (Nat.min L (or_default mmax (nlon / 2 + 1)), Nat.min L (or_default mmax (nlon / 2 + 1))).
Proof.
  intros nlat nlon lmax mmax g L H. unfold truncate_sht, default_mmax. destruct H as [[-> N]|[U E]].
  - destruct L; auto; lia.
  - apply unset_iff in U. destruct U; subst; rewrite E; auto.
Qed.

Lemma truncate_sht_none : forall nlat nlon lmax mmax g,
  truncate_sht nlat nlon lmax mmax g = None <-> (unset lmax /\ default_lmax g nlat = None).
Proof.
  intros. rewrite unset_iff. unfold truncate_sht. destruct lmax as [[|k]|]; simpl.
  - destruct (default_lmax g nlat); split; intros H; try discriminate; try (destruct H; discriminate); auto.
  - split; intros H; try discriminate. destruct H as [[H|H] _]; discriminate.
  - destruct (default_lmax g nlat); split; intros H; try discriminate; try (destruct H; discriminate); auto.
Qed.

Lemma default_square_exact : forall g nlat L, default_lmax g nlat = Some L -> g <> GTrapezoidal -> 1 <= L -> 2 * (L - 1) <= exact_degree g nlat.
Proof.
  intros g nlat L H Hg HL. destruct g; cbn [default_lmax exact_degree] in *; try congruence.
  - inversion H; subst. lia.
  - destruct (Nat.eqb_spec nlat 0); inversion H; subst. lia.
  - assert (E : L = (nlat + 1) / 2) by congruence. pose proof (Nat.div_mod (nlat + 1) 2 ltac:(lia)) as D. rewrite <- E in D. lia.
Qed.

Lemma truncate_sht_triangular : forall nlat nlon lmax mmax g l m,
  truncate_sht nlat nlon lmax mmax g = Some (l, m) -> l = m.
Proof. intros *. unfold truncate_sht. destruct (match lmax with Some (S k) => _ | _ => _ end); congruence. Qed.

Lemma truncate_sht_bounds : forall nlat nlon lmax mmax g l m,
  truncate_sht nlat nlon lmax mmax g = Some (l, m) ->
  (forall k, requested lmax k -> l <= k) /\ (forall k, requested mmax k -> m <= k) /\
  (unset mmax -> m <= nlon / 2 + 1) /\
  (unset lmax -> exists d, default_lmax g nlat = Some d /\ l <= d).
Proof.
  intros nlat nlon lmax mmax g l m H.
  destruct (match lmax with Some (S k) => Some (S k) | _ => default_lmax g nlat end) as [L|] eqn:EL;
    unfold truncate_sht, default_mmax in H; rewrite EL in H; [|discriminate]. assert (El : l = Nat.min L (or_default mmax (nlon / 2 + 1))) by congruence.
  assert (Em : m = Nat.min L (or_default mmax (nlon / 2 + 1))) by congruence. clear H. subst l m.
  repeat split.
  - intros k [-> N]. destruct k; [lia|]. inversion EL; subst. lia.
  - intros k R. rewrite (requested_or_default _ _ k R). lia.
  - intros U. rewrite unset_or_default by auto. apply Nat.le_min_r.
  - intros U. apply unset_iff in U. exists L. split; [|lia]. destruct U; subst; auto.
Qed.

Lemma truncate_sht_square : forall nlat nlon lmax mmax g l m,
  truncate_sht nlat nlon lmax mmax g = Some (l, m) -> unset lmax -> g <> GTrapezoidal -> 1 <= l ->
  2 * (l - 1) <= exact_degree g nlat.
Proof.
  intros nlat nlon lmax mmax g l m H U Hg Hl. destruct (truncate_sht_bounds _ _ _ _ _ _ _ H) as (_ & _ & _ & B).
  destruct (B U) as (d & E & L). pose proof (default_square_exact g nlat d E Hg ltac:(lia)). lia.
Qed.

(** Requests are met exactly when they do not exceed the other bound. *)
Lemma truncate_sht_honours : forall nlat nlon g k j, k <> 0 -> j <> 0 ->
  truncate_sht nlat nlon (Some k) (Some j) g = Some (Nat.min k j, Nat.min k j).
Proof. intros. rewrite (truncate_sht_cases _ _ _ _ _ k); [|left; split; auto]. rewrite (requested_or_default _ _ j); [auto|split; auto]. Qed.
