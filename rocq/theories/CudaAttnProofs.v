(** Channels of a thread, loops of a thread, sums over a block, and addresses in the arrays
    of the CUDA attention kernels. *)
From Coq Require Import List Arith Lia Bool Reals Lra Permutation FunctionalExtensionality.
From Verif Require Import TensorModel TensorProofs BigSum AttnModel AttnSpec AttnCoreProofs GpuModel GpuSpec GpuProofs GpuProofs2 WarpProofs CudaDiscoModel CudaWarpModel WarpSumProofs CudaFwdProofs CudaAttnModel DistSpectralProofs.
Import ListNotations.
Local Open Scope nat_scope.

(** ** Loops *)
Lemma lrun_loop : forall X inp (f : X -> list instr) (tr : X -> list (nat * uop * R)) (Inv : list X -> (nat -> R) * (nat -> R) -> Prop) l m, Inv [] m ->
  (forall d x r m, l = d ++ x :: r -> Inv d m -> Inv (d ++ [x]) (fst (lrun inp (f x) m)) /\ snd (lrun inp (f x) m) = tr x) ->
  Inv l (fst (lrun inp (flat_map f l) m)) /\ snd (lrun inp (flat_map f l) m) = flat_map tr l.
Proof.
  intros X inp f tr Inv l m H0 HS.
  assert (G : forall r d m, l = d ++ r -> Inv d m -> Inv l (fst (lrun inp (flat_map f r) m)) /\ snd (lrun inp (flat_map f r) m) = flat_map tr r).
  { induction r as [|x r IH]; intros d m0 E HI.
    - rewrite app_nil_r in E. subst. split; [exact HI|reflexivity].
    - cbn [flat_map]. rewrite lrun_app. cbn [fst snd]. destruct (HS d x r m0 E HI) as [H1 H2]. destruct (IH (d ++ [x]) (fst (lrun inp (f x) m0))) as [H3 H4]; [now rewrite <- app_assoc|exact H1|].
      split; [exact H3|]. now rewrite H2, H4. }
  exact (G l [] m eq_refl H0).
Qed.
Lemma map_flat : forall X Y (f : X -> Y) l, map f l = flat_map (fun x => [f x]) l.
Proof. induction l; cbn; [reflexivity|]. now rewrite IHl. Qed.

(** ** Channels *)
Lemma nodup_app : forall a b : list nat, NoDup a -> NoDup b -> (forall x, In x a -> ~ In x b) -> NoDup (a ++ b).
Proof.
  induction a as [|x a IH]; intros b Ha Hb D; [exact Hb|]. inversion Ha; subst. cbn. constructor; [rewrite in_app_iff; intros [?|?]; [auto|apply (D x); [now left|auto]]|].
  apply IH; auto. intros y Hy. apply D. now right.
Qed.
(** N channels divided among nT threads *)
Definition covers (nT N : nat) (own : nat -> nat) (ch : nat -> list nat) : Prop := forall t, t < nT -> NoDup (ch t) /\ forall c, In c (ch t) <-> c < N /\ own c = t.
Lemma covers_sum : forall nT N own ch (f : nat -> R), covers nT N own ch -> (forall c, c < N -> own c < nT) -> rsum nT (fun t => rlsum f (ch t)) = rsum N f.
Proof.
  intros nT N own ch f C O. rewrite <- (lsum_seq RT N f), <- (lsum_seq RT nT). rewrite <- (lsum_flat_map RT).
  apply (lsum_perm RT). apply NoDup_Permutation.
  - assert (G : forall l, NoDup l -> (forall t, In t l -> t < nT) -> NoDup (flat_map ch l)).
    { induction l as [|t l IH]; intros ND B; [constructor|]. inversion ND; subst. cbn [flat_map]. assert (Ht : t < nT) by (apply B; now left). destruct (C t Ht) as [C1 C2].
      specialize (IH H2 ltac:(intros; apply B; now right)).
      apply nodup_app; auto. intros c Hc Hc'. apply in_flat_map in Hc'. destruct Hc' as (t' & Ht' & Hc'). apply C2 in Hc. apply (C t' ltac:(apply B; now right)) in Hc'. destruct Hc, Hc'. subst. auto. }
    apply G; [apply seq_NoDup|]. intros t Ht. apply in_seq in Ht. lia.
  - apply seq_NoDup.
  - intros c. rewrite in_flat_map, in_seq. split.
    + intros (t & Ht & Hc). apply in_seq in Ht. apply (C t ltac:(lia)) in Hc. lia.
    + intros Hc. exists (own c). pose proof (O c ltac:(lia)). split; [apply in_seq; lia|]. apply C; auto. split; [lia|reflexivity].
Qed.
Lemma strided_nodup : forall d n f a, 1 <= d -> NoDup (strided f a n d).
Proof.
  intros d n. induction f as [|f IH]; intros a Hd; cbn [strided]; [constructor|]. destruct (a <? n); [|constructor]. constructor; [|auto].
  intros H. assert (Q : forall f b j, In j (strided f b n d) -> b <= j). { clear. induction f as [|f IH]; intros b j; cbn [strided]; [intros []|]. destruct (b <? n); [|intros []]. intros [<-|H]; [lia|]. apply IH in H. lia. }
  apply Q in H. lia.
Qed.
Lemma loop_covers : forall BD n, 1 <= BD -> covers BD n (fun u => u mod BD) (loop_chans BD n).
Proof. intros BD n H t Ht. split; [now apply strided_nodup|]. intros c. now apply strided_mod. Qed.
Lemma unrolled_in : forall BD nloc n t u, t < BD -> 1 <= nloc -> (nloc - 1) * BD <= n <= nloc * BD -> (In u (unrolled_chans BD nloc n t) <-> u < n /\ u mod BD = t).
Proof.
  intros BD nloc n t u Ht Hl Hn. unfold unrolled_chans. rewrite in_app_iff, in_map_iff. split.
  - intros [(i & <- & Hi)|H].
    + apply in_seq in Hi. split; [nia|]. rewrite Nat.add_comm, Nat.mod_add by lia. now apply Nat.mod_small.
    + destruct (Nat.ltb_spec ((nloc - 1) * BD + t) n); [|destruct H]. destruct H as [<-|[]]. split; [lia|]. rewrite Nat.add_comm, Nat.mod_add by lia. now apply Nat.mod_small.
  - intros [Hu Hm]. pose proof (Nat.div_mod u BD ltac:(lia)) as E. rewrite Hm in E. destruct (Nat.lt_ge_cases (u / BD) (nloc - 1)) as [L|L].
    + left. exists (u / BD). split; [nia|]. apply in_seq. lia.
    + right. assert (u / BD = nloc - 1). { assert (u / BD < nloc) by (apply Nat.div_lt_upper_bound; nia). lia. }
      rewrite H in E. destruct (Nat.ltb_spec ((nloc - 1) * BD + t) n); [left; nia|nia].
Qed.
Lemma unrolled_nodup : forall BD nloc n t, t < BD -> NoDup (unrolled_chans BD nloc n t).
Proof.
  intros BD nloc n t Ht. unfold unrolled_chans. assert (A : forall m, NoDup (map (fun i => i * BD + t) (seq 0 m))).
  { intros m. apply FinFun.Injective_map_NoDup; [|apply seq_NoDup]. intros i j E. nia. }
  destruct (_ <? n); [|rewrite app_nil_r; apply A]. specialize (A (Datatypes.S (nloc - 1))). rewrite seq_S, map_app in A. exact A.
Qed.
Lemma unrolled_covers : forall BD nloc n, 1 <= nloc -> (nloc - 1) * BD <= n <= nloc * BD -> covers BD n (fun u => u mod BD) (unrolled_chans BD nloc n).
Proof. intros BD nloc n H1 H2 t Ht. split; [now apply unrolled_nodup|]. intros c. now apply unrolled_in. Qed.
Lemma floats_in : forall V us c, 1 <= V -> (In c (floats V us) <-> In (c / V) us).
Proof.
  intros V us c HV. unfold floats. rewrite in_flat_map. split.
  - intros (u & Hu & Hc). apply in_map_iff in Hc. destruct Hc as (j & <- & Hj). apply in_seq in Hj. replace ((V * u + j) / V) with u; [auto|]. rewrite (Nat.mul_comm V u), Nat.div_add_l by lia. rewrite Nat.div_small by lia. lia.
  - intros H. exists (c / V). split; [auto|]. apply in_map_iff. exists (c mod V). split; [symmetry; apply Nat.div_mod; lia|]. apply in_seq. pose proof (Nat.mod_upper_bound c V). lia.
Qed.
Lemma floats_nodup : forall V us, 1 <= V -> NoDup us -> NoDup (floats V us).
Proof.
  intros V us HV H. induction H as [|u us Hu H IH]; [constructor|]. unfold floats. cbn [flat_map]. fold (floats V us).
  apply nodup_app; auto.
  - apply FinFun.Injective_map_NoDup; [|apply seq_NoDup]. intros i j E. lia.
  - intros c Hc Hc'. apply floats_in in Hc'; auto. apply in_map_iff in Hc. destruct Hc as (j & <- & Hj). apply in_seq in Hj. rewrite (Nat.mul_comm V u), Nat.div_add_l, Nat.div_small in Hc' by lia. rewrite Nat.add_0_r in Hc'. auto.
Qed.
Definition chan_own (BD V c : nat) : nat := (c / V) mod BD.
Lemma floats_covers : forall BD V n ch, 1 <= V -> covers BD n (fun u => u mod BD) ch -> covers BD (V * n) (chan_own BD V) (fun t => floats V (ch t)).
Proof.
  intros BD V n ch HV C t Ht. destruct (C t Ht) as [C1 C2]. split; [now apply floats_nodup|]. intros c. rewrite floats_in by auto. rewrite C2. unfold chan_own. split; intros [H1 H2]; (split; [|exact H2]).
  - pose proof (Nat.div_mod c V ltac:(lia)). pose proof (Nat.mod_upper_bound c V ltac:(lia)). nia.
  - apply Nat.div_lt_upper_bound; lia.
Qed.
Lemma chan_own_lt : forall BD V c, 1 <= BD -> chan_own BD V c < BD.
Proof. intros. apply Nat.mod_upper_bound. lia. Qed.
(** the local array has an element for every channel of the thread *)
Lemma unrolled_all : forall BD nloc n t u, 1 <= nloc -> In u (unrolled_chans BD nloc n t) -> In u (all_chans BD nloc t).
Proof.
  intros BD nloc n t u Hl. unfold unrolled_chans, all_chans. replace (seq 0 nloc) with (seq 0 (nloc - 1) ++ [nloc - 1]) by (rewrite <- seq_S; f_equal; lia). rewrite map_app, !in_app_iff. intros [H|H]; [now left|]. destruct (_ <? n); [now right|destruct H].
Qed.

(** ** Sums over the block *)
Definition sum_bar (nT r : nat) : gstep := Bar (fun t all => put r (rsum nT (fun t' => all t' r)) (all t)).
Definition the_sum (BD sc r : nat) : list gstep := if BD =? 32 then warp_sum (fun _ => true) r else block_sum (BD / 32) sc r.
Lemma the_sum_block : forall NW sc r, the_sum (32 * NW) sc r = block_sum NW sc r.
Proof.
  intros. unfold the_sum. destruct (Nat.eqb_spec (32 * NW) 32) as [E|E].
  - assert (NW = 1) by lia. subst. unfold block_sum. cbn [Nat.ltb Nat.leb]. now rewrite app_nil_r.
  - rewrite Nat.mul_comm, Nat.div_mul by lia. reflexivity.
Qed.
(** the array of the block sum belongs to nobody *)
Definition own_of (BD V sc a : nat) : nat := if a <? sc then chan_own BD V a else BD.
Lemma sum_refines : forall inp NW V sc r, 1 <= NW <= 32 -> refines inp (32 * NW) (own_of (32 * NW) V sc) (the_sum (32 * NW) sc r) [sum_bar (32 * NW) r].
Proof.
  intros inp NW V sc r HN. rewrite the_sum_block. apply refines_regs. intros rg sh out. destruct (block_sum_run inp NW sc r rg sh out HN) as (rg' & sh' & E & Hs & Hr).
  exists sh', rg'. split; [exact E|]. split; [|exact Hr]. intros a Ha. apply Hs. unfold own_of in Ha. destruct (Nat.ltb_spec a sc); [now left|lia].
Qed.
Definition W0 (BD V sc t a : nat) : Prop := own_of BD V sc a = t \/ (a = sc + t / warp_size /\ t mod warp_size = 0).
Lemma W0_disciplined : forall k BD V sc, k_threads k = BD -> disciplined k (W0 BD V sc) (mine (own_of BD V sc)).
Proof.
  intros k BD V sc E t t' a Ht Ht' Ne H. unfold W0, mine in *. rewrite E in Ht, Ht'. unfold own_of in *. destruct (Nat.ltb_spec a sc) as [L|L].
  - destruct H as [H|[H _]]; [|lia]. split; [|congruence]. intros [H'|[H' _]]; [congruence|lia].
  - destruct H as [H|[H Hm]]; [lia|]. split; [|lia]. intros [H'|[H' Hm']]; [lia|]. apply Ne. rewrite (proj1 (split32 t)), (proj1 (split32 t')). lia.
Qed.
Lemma mine_conforms : forall BD V sc t p, Forall (conforms (mine (own_of BD V sc)) (mine (own_of BD V sc)) t) p -> Forall (conforms (W0 BD V sc) (mine (own_of BD V sc)) t) p.
Proof. intros BD V sc t p H. eapply Forall_impl; [|exact H]. intros i [H1 H2]. split; [exact H1|]. intros a. destruct (H2 a) as [A B]. split; [intros; left; now apply A|exact B]. Qed.
Lemma warp_sum_safe : forall k W Rd who r rest, safe k W Rd rest -> safe k W Rd (warp_sum who r ++ rest).
Proof. intros. exact H. Qed.
Lemma sum_safe : forall k NW V sc r rest, k_threads k = 32 * NW -> let W := W0 (32 * NW) V sc in let Rd := mine (own_of (32 * NW) V sc) in
  safe k W Rd rest -> safe k W Rd (the_sum (32 * NW) sc r ++ rest).
Proof.
  intros k NW V sc r rest E W Rd S. rewrite the_sum_block. unfold block_sum. rewrite <- app_assoc. apply warp_sum_safe. destruct (Nat.ltb_spec 1 NW) as [HN|HN]; [|exact S].
  rewrite <- app_assoc. cbn [app safe]. split.
  { intros t Ht. destruct (Nat.eqb_spec (t mod warp_size) 0); [|constructor]. cf. subst. now right. }
  exists (fun t a => t = 0 /\ a = sc), (fun t a => a = sc + t). split; [intros t t' a Ht Ht' Ne [-> ->]; split; [intros [? _]; auto|lia]|]. split.
  { intros t Ht. destruct (Nat.eqb_spec (t / warp_size) 0) as [E0|]; [|constructor]. assert (Em : t mod warp_size = t) by (rewrite (proj1 (split32 t)) at 2; lia).
    rewrite Em. clear Em E0. destruct (_ <? NW); cf. congruence. }
  rewrite <- app_assoc. apply warp_sum_safe. cbn [app safe]. split.
  { intros t Ht. destruct (Nat.eqb_spec (t / warp_size) 0) as [E0|]; [|constructor]. destruct (Nat.eqb_spec (t mod warp_size) 0) as [E1|]; [|constructor]. assert (t = 0) by (rewrite (proj1 (split32 t)); lia). cbn [andb]. clear E0 E1. cf. subst. auto. }
  exists (fun _ _ => False), (fun _ _ => True). split; [intros t t' a _ _ _ []|]. split.
  { intros t Ht. cf. }
  exists W, Rd. split; [|exact S]. now apply W0_disciplined.
Qed.
Lemma sum_bounds : forall k NW sc r, k_threads k = 32 * NW -> (1 < NW -> sc + NW <= k_shared k) -> Forall (step_bounds k) (the_sum (32 * NW) sc r).
Proof.
  intros k NW sc r E HS. rewrite the_sum_block. unfold block_sum. apply Forall_app. split; [repeat constructor|]. destruct (Nat.ltb_spec 1 NW) as [HN|]; [|constructor]. specialize (HS HN).
  assert (Hw : forall t, t < k_threads k -> t / warp_size < NW) by (intros t Ht; apply lt_warp; lia).
  apply Forall_app. split; [|apply Forall_app; split; [repeat constructor|]].
  - fl; try exact I.
    + intros t Ht. destruct (_ =? 0); fl. apply Nat.ltb_lt. specialize (Hw t Ht). lia.
    + intros t Ht. destruct (_ =? 0); fl. destruct (Nat.ltb_spec (t mod warp_size) NW); fl; [|reflexivity]. apply Nat.ltb_lt. lia.
  - fl; try exact I.
    + intros t Ht. destruct (_ && _); fl. apply Nat.ltb_lt. lia.
    + intros t Ht. fl. apply Nat.ltb_lt. lia.
Qed.
Lemma sum_segs : forall NW sc r p t, In (Seg p) (the_sum (32 * NW) sc r) -> Forall (fun i => match i with IOut _ _ | IAtom _ _ _ => False | _ => True end) (p t).
Proof.
  intros NW sc r p t H. rewrite the_sum_block in H. unfold block_sum in H. apply in_app_iff in H. destruct H as [H|H]; [exfalso; unfold warp_sum in H; apply in_map_iff in H; destruct H as (i & E & _); discriminate|].
  destruct (1 <? NW); [|destruct H]. apply in_app_iff in H. destruct H as [H|H]; [|apply in_app_iff in H; destruct H as [H|H]; [exfalso; unfold warp_sum in H; apply in_map_iff in H; destruct H as (i & E & _); discriminate|]].
  - cbn [In] in H. destruct H as [H|[H|[H|[]]]]; inversion H; clear H; subst; repeat match goal with |- context [if ?b then _ else _] => destruct b end; fl; exact I.
  - cbn [In] in H. destruct H as [H|[H|[H|[H|[H|[]]]]]]; inversion H; clear H; subst; repeat match goal with |- context [if ?b then _ else _] => destruct b end; fl; exact I.
Qed.

(** ** Addresses *)
Lemma joined_part : forall l i a, i < length l -> a < snd (part l i) -> joined l (fst (part l i) + a) = snd (nth i l (0, fun _ => 0%R)) a.
Proof.
  induction l as [|[n f] l IH]; intros i a Hi Ha; [cbn in Hi; lia|]. destruct i as [|i].
  - change (a < n) in Ha. change (joined ((n, f) :: l) a = f a). cbn [joined]. destruct (Nat.ltb_spec a n); [reflexivity|lia].
  - specialize (IH i a). unfold part in *. cbn [fst snd map firstn nth length list_sum fold_right] in *. cbn [joined].
    change (fold_right Nat.add 0 (map fst (firstn i l))) with (list_sum (map fst (firstn i l))) in *. rewrite (proj2 (Nat.ltb_ge _ _)) by lia. rewrite <- IH by (try lia; exact Ha). f_equal. lia.
Qed.
Lemma part_in : forall l i a, i < length l -> a < snd (part l i) -> fst (part l i) + a < list_sum (map fst l).
Proof.
  induction l as [|[n f] l IH]; intros i a Hi Ha; [cbn in Hi; lia|]. destruct i as [|i].
  - cbn in *. lia.
  - specialize (IH i a). unfold part in *. cbn [fst snd map firstn nth length list_sum fold_right] in *. specialize (IH ltac:(lia) Ha). unfold list_sum in *. lia.
Qed.
Lemma point_addr : forall V nh nc H W b hd h w c, at_point V (nh * nc) nc H W b hd h w + c = ((b * H + h) * W + w) * (nh * (V * nc)) + (hd * (V * nc) + c).
Proof. intros. unfold at_point. ring. Qed.
Lemma chan_lt : forall nh C hd c, hd < nh -> c < C -> hd * C + c < nh * C.
Proof. intros. nia. Qed.
Lemma addr4_lt : forall B H W D b h w d, b < B -> h < H -> w < W -> d < D -> ((b * H + h) * W + w) * D + d < B * H * W * D.
Proof.
  intros. assert (b * H + h < B * H) by nia. assert ((b * H + h) * W + w < B * H * W) by nia. nia.
Qed.
Lemma addr4_inj : forall H W D b h w d b' h' w' d', h < H -> w < W -> d < D -> h' < H -> w' < W -> d' < D ->
  ((b * H + h) * W + w) * D + d = ((b' * H + h') * W + w') * D + d' -> b = b' /\ h = h' /\ w = w' /\ d = d'.
Proof.
  intros H W D b h w d b' h' w' d' H1 H2 H3 H4 H5 H6 E.
  assert (Q : forall n a c a' c', c < n -> c' < n -> a * n + c = a' * n + c' -> a = a' /\ c = c').
  { clear. intros n a c a' c' Hc Hc' E. assert (a = a'). { assert (X := f_equal (fun x => x / n) E). cbv beta in X. rewrite !Nat.div_add_l, !Nat.div_small in X by lia. lia. } subst. lia. }
  apply Q in E; auto. destruct E as [E Ed]. apply Q in E; auto. destruct E as [E Ew]. apply Q in E; auto. destruct E as [Eb Eh]. auto.
Qed.
Lemma flat4 : forall x B H W D b h w d, shp x = [B; H; W; D] -> b < B -> h < H -> w < W -> d < D -> flat x (((b * H + h) * W + w) * D + d) = val x [b; h; w; d].
Proof.
  intros x B H W D b h w d E Hb Hh Hw Hd. unfold flat. rewrite E. f_equal. rewrite <- (unravel_ravel [B; H; W; D] [b; h; w; d]); [|apply valid4_intro; auto]. f_equal. cbn [ravel prod_list fold_right]. ring.
Qed.
