(** The hypotheses of CudaRankProofs2 can be met: a sort, a number below all scores, launches. *)
From Coq Require Import List Arith Lia Bool ZArith Reals Lra Permutation Sorted.
From Verif Require Import TensorModel BigSum DistSHTModel AttnSpec AttnModel AttnLayerModel AttnLayerSpec AttnLayerProofs AttnExProofs DistAttnModel CudaUtilsModel CudaRingUpSpec CudaRingBwdProofs5 CudaRankModel.
Import ListNotations.
Local Open Scope nat_scope.

Fixpoint put (l : list nat) (x : nat) (s : list nat) : list nat := match s with [] => [x] | y :: s' => if nth y l 0 <=? nth x l 0 then x :: s else y :: put l x s' end.
Definition down (l : list nat) : list nat := fold_right (put l) [] (seq 0 (length l)).
Lemma put_perm : forall l x s, Permutation (put l x s) (x :: s).
Proof. intros l x. induction s as [|y s IH]; [reflexivity|]. cbn [put]. destruct (_ <=? _); [reflexivity|]. rewrite IH. apply perm_swap. Qed.
Lemma put_sorted : forall l x s, StronglySorted (fun x y => nth y l 0 <= nth x l 0) s -> StronglySorted (fun x y => nth y l 0 <= nth x l 0) (put l x s).
Proof.
  intros l x. induction s as [|y s IH]; intros H; [repeat constructor|]. cbn [put]. inversion H as [|? ? H1 H2]; subst. destruct (Nat.leb_spec (nth y l 0) (nth x l 0)) as [E|E].
  - constructor; [exact H|]. constructor; [exact E|]. eapply Forall_impl; [|exact H2]. cbv beta. intros z Hz. lia.
  - constructor; [now apply IH|]. apply Forall_forall. intros z Hz. apply (Permutation_in _ (put_perm l x s)) in Hz. destruct Hz as [<-|Hz]; [lia|]. rewrite Forall_forall in H2. now apply H2.
Qed.
Lemma down_ok : forall l, Permutation (down l) (seq 0 (length l)) /\ StronglySorted (fun x y => nth y l 0 <= nth x l 0) (down l).
Proof.
  intros l. unfold down. generalize (seq 0 (length l)). induction l0 as [|x s [IH1 IH2]]; [split; constructor|]. cbn [fold_right]. split; [|now apply put_sorted]. rewrite put_perm. now constructor.
Qed.
Lemma low_all : forall n (Q : nat -> R -> Prop), (forall i m m', (m' <= m)%R -> Q i m -> Q i m') -> (forall i, i < n -> exists m, Q i m) -> exists m, forall i, i < n -> Q i m.
Proof.
  intros n Q Hm. induction n as [|n IH]; intros H; [exists 0%R; intros; lia|]. destruct IH as [m1 H1]; [intros; apply H; lia|]. destruct (H n ltac:(lia)) as [m2 H2].
  exists (Rmin m1 m2). intros i Hi. destruct (Nat.eq_dec i n) as [->|Hn]; [eapply Hm; [apply Rmin_r|exact H2]|]. eapply Hm; [apply Rmin_l|apply H1; lia].
Qed.
Theorem some_below : forall B H W Ho Wo C kf qf, exists ninf, scores_above ninf B H W Ho Wo C kf qf.
Proof.
  intros. unfold scores_above. assert (M : forall x m m', (m' <= m)%R -> (m < x)%R -> (m' < x)%R) by (intros; lra).
  destruct (low_all B (fun b m => forall h, h < H -> forall w, w < W -> forall ho, ho < Ho -> forall wo, wo < Wo -> (m < AttnModel.dot C (qf b ho wo) (kf b h w))%R)) as [m Hm]; [intros; eapply M; eauto| |exists m; auto].
  intros b _. apply (low_all H (fun h m => forall w, w < W -> forall ho, ho < Ho -> forall wo, wo < Wo -> (m < AttnModel.dot C (qf b ho wo) (kf b h w))%R)); [intros; eapply M; eauto|].
  intros h _. apply (low_all W (fun w m => forall ho, ho < Ho -> forall wo, wo < Wo -> (m < AttnModel.dot C (qf b ho wo) (kf b h w))%R)); [intros; eapply M; eauto|].
  intros w _. apply (low_all Ho (fun ho m => forall wo, wo < Wo -> (m < AttnModel.dot C (qf b ho wo) (kf b h w))%R)); [intros; eapply M; eauto|].
  intros ho _. apply (low_all Wo (fun wo m => (m < AttnModel.dot C (qf b ho wo) (kf b h w))%R)); [intros; eapply M; eauto|].
  intros wo _. exists (AttnModel.dot C (qf b ho wo) (kf b h w) - 1)%R. lra.
Qed.
(** rank (0, 1) of 2 x 2 ranks, downsampling from 2x4 to 2x2 with two heads *)
Definition ex_obj : pfam dattn := dist_na_init down 2 2 (na_layer ex_W 2 4 2 2 2 ex_quad ex_P).
Lemma some_ne : forall X (x : option X), match x with Some _ => True | None => False end -> x <> None.
Proof. intros X [x|] H; [discriminate|contradiction]. Qed.
Theorem ex_launch : exists o, ex_obj 0 1 = Some o /\ (forall t, In t [2; 512] -> split_cpu (fun _ => t) (da_row o) (da_roff o) 1 = (0, 0, 3)) /\
  forall n mx md, (n, mx, md) = (1, 3, 0) \/ (n, mx, md) = (0, 0, 3) ->
  forall vec old ninf qn dyn fo bo s, fwd_launches odd_dev vec ninf o 0 1 qn 2 1 2 n mx md s <> None /\ p1_launches odd_dev vec ninf o 0 1 qn dyn 2 1 2 n mx md s <> None /\ p2_launches odd_dev vec old o 0 1 qn dyn 2 1 2 n mx md fo bo s <> None.
Proof.
  assert (D : exists o, ex_obj 0 1 = Some o /\ da_row o = [0] /\ da_roff o = [0; 3] /\ nth 0 (da_lat_out o) 0 = 1 /\ nth 1 (da_lon_out o) 0 = 1) by (eexists; split; [reflexivity|]; vm_compute; auto).
  destruct D as (o & E & D1 & D2 & D3 & D4). exists o. split; [exact E|]. rewrite D1, D2. split; [intros t [<-|[<-|[]]]; vm_compute; reflexivity|]. intros n mx md H.
  intros vec old ninf qn dyn fo bo s. unfold fwd_launches, p1_launches, p2_launches. cbv zeta. rewrite D3, D4. destruct H as [E'|E']; injection E' as -> -> ->; repeat split; apply some_ne; destruct vec; try destruct old; vm_compute; exact I.
Qed.
