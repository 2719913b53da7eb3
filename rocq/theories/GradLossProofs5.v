(** The surface normal loss. *)
From Coq Require Import List Arith Lia Bool Reals Lra.
From Coquelicot Require Import Coquelicot.
From Verif Require Import TensorModel TensorProofs BigSum TruncModel QuadModel CCProofs QuadProofs QuadPropProofs FFTModel FFTProofs SHTSpec SHTValueProofs LossModel LossSpec LossProofs LossProofs2 LossProofs3 LossProofs4 GradLossModel GradLossSpec GradLossProofs GradLossProofs2 GradLossProofs3 GradLossProofs4.
Import ListNotations.
Local Open Scope R_scope.

(** ** cosine distance *)
Definition nsq (u v : R) : R := u * u + v * v + 1.
Lemma nsq_pos : forall u v, 1 <= nsq u v. Proof. intros. unfold nsq. nra. Qed.
Lemma lagrange : forall u v u' v', nsq u v * nsq u' v' - (u * u' + v * v' + 1) ^ 2 = (u - u') ^ 2 + (v - v') ^ 2 + (u * v' - v * u') ^ 2.
Proof. intros. unfold nsq. ring. Qed.
Lemma cos_form : forall u v u' v', cosine_distance u v u' v' = 1 - (u * u' + v * v' + 1) / sqrt (nsq u v * nsq u' v').
Proof. intros. unfold cosine_distance. rewrite sqrt_mult; auto; pose proof (nsq_pos u v); pose proof (nsq_pos u' v'); lra. Qed.
Lemma sq_between : forall d s n, 0 < s -> s * s = n -> 0 <= n - d ^ 2 -> - s <= d <= s.
Proof. intros d s n H E Q. split; [destruct (Rle_lt_dec (- s) d)|destruct (Rle_lt_dec d s)]; auto; exfalso; nra. Qed.
Lemma sq0 : forall a b c, a ^ 2 + b ^ 2 + c ^ 2 = 0 -> a = 0 /\ b = 0. Proof. intros. split; nra. Qed.
Lemma cos_range : forall u v u' v', 0 <= cosine_distance u v u' v' < 2 /\ (cosine_distance u v u' v' = 0 <-> u = u' /\ v = v').
Proof.
  intros u v u' v'. rewrite cos_form. pose proof (nsq_pos u v) as A. pose proof (nsq_pos u' v') as B. pose proof (lagrange u v u' v') as Lg. set (N := nsq u v * nsq u' v') in *. set (D := u * u' + v * v' + 1) in *.
  assert (HN : 1 <= N) by (unfold N; nra). set (S := sqrt N). assert (HS : S * S = N) by (apply sqrt_sqrt; lra). assert (S0 : 0 <= S) by apply sqrt_pos. assert (SP : 0 < S) by (apply sqrt_lt_R0; lra).
  assert (Q0 : 0 <= N - D ^ 2) by (rewrite Lg; pose proof (pow2_ge_0 (u - u')); pose proof (pow2_ge_0 (v - v')); pose proof (pow2_ge_0 (u * v' - v * u')); lra).
  destruct (sq_between D S N SP HS Q0) as [LE UP]. assert (ZE : D ^ 2 = N -> u = u' /\ v = v'). { intros E. rewrite E, Rminus_eq_0 in Lg. symmetry in Lg. apply sq0 in Lg. lra. }
  assert (LO : - S < D). { destruct (Rle_lt_dec D (- S)) as [H|H]; auto. exfalso. assert (H' : D = - S) by lra. assert (H0 : D ^ 2 = N) by (rewrite H', <- HS; ring). destruct (ZE H0) as [Eu Ev]. unfold D in H. rewrite Eu, Ev in H. nra. }
  assert (F : D / S <= 1). { apply Rmult_le_reg_r with S; auto. unfold Rdiv. rewrite Rmult_assoc, Rinv_l by lra. lra. }
  assert (G : - 1 < D / S). { apply Rmult_lt_reg_r with S; auto. unfold Rdiv. rewrite Rmult_assoc, Rinv_l by lra. lra. }
  split; [lra|]. split.
  - intros Z. apply ZE. assert (D / S = 1) by lra. assert (D = S). { apply (f_equal (fun z => z * S)) in H. unfold Rdiv in H. rewrite Rmult_assoc, Rinv_l in H by lra. lra. } rewrite H0, <- HS. ring.
  - intros [Eu Ev]. assert (D = S). { assert (D ^ 2 = N). { rewrite Eu, Ev in Lg. replace ((u' - u') ^ 2 + (v' - v') ^ 2 + (u' * v' - v' * u') ^ 2) with 0 in Lg by ring. lra. } assert (0 <= D) by (unfold D; rewrite Eu, Ev; nra). assert (K : (D - S) * (D + S) = 0) by (replace ((D - S) * (D + S)) with (D ^ 2 - S * S) by ring; lra). apply Rmult_integral in K. destruct K; lra. } rewrite H. field. lra.
Qed.

(** ** shapes: a missing batch dimension is added, a channel dimension of size 1 dropped *)
Definition view (lead : list nat) : list nat * (list nat -> list nat) :=
  match lead with [] => ([1%nat], fun _ => []) | [b; 1%nat] => ([b], fun i => [nth 0 i 0; 0]%nat) | _ => (lead, fun i => i) end.
Definition adjust (x : tensor R) : tensor R :=
  let x := if (ndim x =? 2)%nat then unsqueeze0 x else x in if ((ndim x =? 4) && (dimsz x 1 =? 1))%nat then squeeze1 x else x.
Lemma adjust_value : forall x lead h w, shp x = lead ++ [h; w] -> shp (adjust x) = fst (view lead) ++ [h; w] /\
  forall L k j, valid (fst (view lead)) L -> val (adjust x) (L ++ [k; j]) = val x (snd (view lead) L ++ [k; j]).
Proof.
  intros x lead h w Sx. unfold adjust. destruct lead as [|b lead].
  - unfold ndim at 3 4. rewrite Sx. cbn [app length Nat.eqb]. unfold ndim, unsqueeze0. cbn [shp]. rewrite Sx. cbn [app length Nat.eqb andb view fst snd]. split; auto. intros L k j HL. apply valid_len in HL. destruct L as [|a [|]]; try discriminate. reflexivity.
  - assert (N : (ndim x =? 2)%nat = false). { unfold ndim. rewrite Sx. cbn [app length]. apply Nat.eqb_neq. rewrite app_length. cbn. lia. } rewrite N.
    destruct ((ndim x =? 4) && (dimsz x 1 =? 1))%nat eqn:Q.
    + apply andb_true_iff in Q. destruct Q as [Q1 Q2]. apply Nat.eqb_eq in Q1. apply Nat.eqb_eq in Q2. unfold ndim, dimsz in *. rewrite Sx in Q1, Q2. destruct lead as [|c [|d lead]]; cbn [app length nth] in Q1, Q2; try lia. 2:{ rewrite app_length in Q1. cbn in Q1. lia. }
      subst c. cbn [view fst snd]. unfold squeeze1. cbn [shp val]. rewrite Sx. split; auto. intros L k j HL. apply valid_len in HL. destruct L as [|a [|]]; try discriminate. reflexivity.
    + assert (V : view (b :: lead) = (b :: lead, fun i => i)).
      { destruct lead as [|c [|d lead]]; auto. cbn [view]. destruct c as [|[|c]]; auto. exfalso. unfold ndim, dimsz in Q. rewrite Sx in Q. cbn in Q. discriminate. destruct c as [|[|c]]; auto. }
      rewrite V. cbn [fst snd]. split; auto.
Qed.
Lemma view_cons : forall lead, exists b rest, fst (view lead) = b :: rest.
Proof. intros [|b [|[|[|c]] [|d l]]]; cbn; eauto. Qed.
Lemma view_valid : forall lead L, valid (fst (view lead)) L -> valid lead (snd (view lead) L).
Proof.
  intros lead L H. destruct lead as [|b [|[|[|c]] [|d l]]]; cbn [view fst snd] in *; auto. apply valid_nil; auto.
  destruct L as [|a [|]]; try (apply valid_len in H; discriminate). apply valid_cons in H. destruct H. apply valid_cons. split; auto. apply valid_cons. split; auto.
Qed.
Lemma view_average : forall lead F, average (fst (view lead)) (fun i => F (snd (view lead) i)) = average lead F.
Proof.
  intros lead F. destruct lead as [|b [|[|[|c]] [|d l]]]; cbn [view fst snd]; try reflexivity.
  - unfold average. cbn [total count bsum_]. rewrite Rplus_0_l. f_equal.
  - unfold average. cbn [total count]. f_equal. apply bsum_ext. intros k Hk. cbn. ring.
Qed.
Definition squash (i : list nat) : list nat := firstn 1 i ++ skipn 2 i.
Definition spread (l : list nat) : list nat := firstn 1 l ++ 1%nat :: skipn 1 l.
Lemma spread_average : forall b rest F, average (spread (b :: rest)) (fun i => F (squash i)) = average (b :: rest) F.
Proof.
  intros b rest F. unfold average, spread. cbn [firstn skipn app total count]. replace (b * (1 * count rest))%nat with (b * count rest)%nat by lia. f_equal. apply bsum_ext. intros k Hk. cbn [bsum_ squash]. rewrite Rplus_0_l. apply total_ext. intros i Hi. reflexivity.
Qed.
Lemma spread_count : forall lead, (1 <= count lead)%nat -> (1 <= count (spread (fst (view lead))))%nat.
Proof.
  intros lead H. destruct lead as [|b [|[|[|c]] [|d l]]]; cbn [view fst snd spread firstn skipn app count] in *; lia.
Qed.
Lemma valid_spread : forall b rest i, valid (spread (b :: rest)) i -> exists a L, i = a :: 0%nat :: L /\ (a < b)%nat /\ valid rest L.
Proof.
  intros b rest i H. unfold spread in H. cbn [firstn skipn app] in H. destruct i as [|a [|c L]]; try (apply valid_len in H; discriminate). apply valid_cons in H. destruct H as [H1 H]. apply valid_cons in H. destruct H as [H2 H]. exists a, L. replace c with 0%nat by lia. auto.
Qed.

(** ** normals *)
Section O.
Variables (gl : nat -> rule) (nlat nlon : nat) (g : grid) (q kp kt : tensor R).
Hypothesis I : gradient_loss_init gl nlat nlon g = Some (q, kp, kt).
Definition ncomp (u v : R) (c : nat) : R := match c with 0%nat => - u | 1%nat => - v | _ => 1 end / sqrt (nsq u v).
Lemma normals_value : forall x b rest, shp x = (b :: rest) ++ [nlat; nlon] -> exists n, compute_normals kp kt x = Some n /\ shp n = b :: 3%nat :: rest ++ [nlat; nlon] /\
  forall a c L k j, (a < b)%nat -> (c < 3)%nat -> valid rest L -> (k < nlat)%nat -> (j < nlon)%nat -> val n (a :: c :: L ++ [k; j]) = ncomp (gphi nlon x (a :: L) k j) (gtheta nlat x (a :: L) k j) c.
Proof.
  intros x b rest Sx. unfold compute_normals, compute_gradients. assert (N : (ndim x =? 2)%nat = false). { unfold ndim. rewrite Sx. cbn [app length]. apply Nat.eqb_neq. rewrite app_length. cbn. lia. } rewrite N. rewrite N.
  destruct (gradient_phi gl nlat nlon g q kp kt I x (b :: rest) Sx) as (gp & -> & Sp & Vp). destruct (gradient_theta gl nlat nlon g q kp kt I x (b :: rest) Sx) as (gt & -> & St & Vt). cbn [bindo].
  unfold stack1, guard. cbn [map_t shp val]. rewrite Sp, St, Sx. rewrite (proj2 (shape_eqb_true _ _) eq_refl). unfold ndim. cbn [shp map_t]. rewrite Sp. cbn [app length Nat.leb andb bindo firstn skipn]. eexists. split; [reflexivity|]. split; [reflexivity|].
  intros a c L k j Ha Hc HL Hk Hj. assert (VL : valid (b :: rest) (a :: L)) by (apply valid_cons; auto). unfold normalize1. cbn [val shp dimsz nth app firstn skipn]. unfold dimsz. cbn [shp nth bsum_ app].
  set (u := gphi nlon x (a :: L) k j). set (v := gtheta nlat x (a :: L) k j).
  assert (EP : val gp (a :: L ++ [k; j]) = u) by (apply (Vp (a :: L)); auto). assert (ET : val gt (a :: L ++ [k; j]) = v) by (apply (Vt (a :: L)); auto). rewrite EP, ET.
  assert (E : Rmax (sqrt (0 + (- u) ^ 2 + (- v) ^ 2 + 1 ^ 2)) (/ 10 ^ 12) = sqrt (nsq u v)).
  { replace (0 + (- u) ^ 2 + (- v) ^ 2 + 1 ^ 2) with (nsq u v) by (unfold nsq; ring). apply Rmax_left. pose proof (nsq_pos u v). apply Rle_trans with 1. 2:{ rewrite <- sqrt_1. apply sqrt_le_1_alt. lra. } apply Rle_trans with (/ 1); [|lra]. apply Rinv_le_contravar; try lra. }
  rewrite E. unfold ncomp. destruct c as [|[|[|c]]]; auto.
Qed.
Definition normal_at (x y : tensor R) (L : list nat) (k j : nat) : R := cosine_distance (gphi nlon x L k j) (gtheta nlat x L k j) (gphi nlon y L k j) (gtheta nlat y L k j).
Lemma normal_term_value : forall x y lead, shp x = lead ++ [nlat; nlon] -> shp y = lead ++ [nlat; nlon] -> exists t, normal_term kp kt x y = Some t /\ shp t = spread (fst (view lead)) ++ [nlat; nlon] /\
  forall i k j, valid (spread (fst (view lead))) i -> (k < nlat)%nat -> (j < nlon)%nat -> val t (i ++ [k; j]) = normal_at x y (snd (view lead) (squash i)) k j.
Proof.
  intros x y lead Sx Sy. unfold normal_term. fold (adjust x) (adjust y). destruct (adjust_value x lead nlat nlon Sx) as [Ax Bx]. destruct (adjust_value y lead nlat nlon Sy) as [Ay By]. destruct (view_cons lead) as (b & rest & Ev).
  rewrite Ev in Ax, Ay. destruct (normals_value (adjust x) b rest Ax) as (nx & -> & Snx & Vnx). destruct (normals_value (adjust y) b rest Ay) as (ny & -> & Sny & Vny). cbn [bindo].
  destruct (bmap2_same _ _ _ Rmult nx ny _ Snx Sny) as (p & -> & Sp & Vp). cbn [bindo]. eexists. split; [reflexivity|]. rewrite Ev. cbn [map_t shp sum1_keep val]. rewrite Sp. cbn [firstn skipn app]. split; [reflexivity|].
  intros i k j Hi Hk Hj. destruct (valid_spread b rest i Hi) as (a & L & -> & Ha & HL). cbn [app firstn skipn squash]. unfold dimsz. rewrite Sp. cbn [nth].
  assert (VL : valid (b :: rest) (a :: L)) by (apply valid_cons; auto).
  assert (Wd : forall c, (c < 3)%nat -> valid (b :: 3%nat :: rest ++ [nlat; nlon]) (a :: c :: L ++ [k; j])). { intros c Hc. apply valid_cons. split; auto. apply valid_cons. split; auto. now apply valid_2'. }
  assert (GP : forall z, (forall L' k j, valid (fst (view lead)) L' -> val (adjust z) (L' ++ [k; j]) = val z (snd (view lead) L' ++ [k; j])) -> gphi nlon (adjust z) (a :: L) k j = gphi nlon z (snd (view lead) (a :: L)) k j /\ gtheta nlat (adjust z) (a :: L) k j = gtheta nlat z (snd (view lead) (a :: L)) k j).
  { intros z B. unfold gphi, gtheta. split; [|f_equal]; apply rd_ext; intros; apply B; rewrite Ev; auto. }
  destruct (GP x Bx) as [G1 G2]. destruct (GP y By) as [G3 G4].
  rewrite (bsum_ext 3 _ (fun c => ncomp (gphi nlon x (snd (view lead) (a :: L)) k j) (gtheta nlat x (snd (view lead) (a :: L)) k j) c * ncomp (gphi nlon y (snd (view lead) (a :: L)) k j) (gtheta nlat y (snd (view lead) (a :: L)) k j) c)).
  2:{ intros c Hc. rewrite Vp by (now apply Wd). rewrite Vnx, Vny by auto. now rewrite G1, G2, G3, G4. }
  unfold normal_at, cosine_distance, ncomp. fold (nsq (gphi nlon x (snd (view lead) (a :: L)) k j) (gtheta nlat x (snd (view lead) (a :: L)) k j)) (nsq (gphi nlon y (snd (view lead) (a :: L)) k j) (gtheta nlat y (snd (view lead) (a :: L)) k j)).
  cbn [bsum_]. pose proof (nsq_pos (gphi nlon x (snd (view lead) (a :: L)) k j) (gtheta nlat x (snd (view lead) (a :: L)) k j)) as P1. pose proof (nsq_pos (gphi nlon y (snd (view lead) (a :: L)) k j) (gtheta nlat y (snd (view lead) (a :: L)) k j)) as P2.
  apply Rlt_le_trans with (r1 := 0) in P1; [|lra]. apply Rlt_le_trans with (r1 := 0) in P2; [|lra]. apply sqrt_lt_R0 in P1. apply sqrt_lt_R0 in P2. field. lra.
Qed.
Variables (lat : rule) (lead : list nat).
Hypotheses (El : precompute_latitudes gl nlat g = Some lat) (C : (1 <= count lead)%nat).
Lemma normal_masked : forall x y lm m, shp x = lead ++ [nlat; nlon] -> shp y = lead ++ [nlat; nlon] -> option_mask nlat nlon lat (spread (fst (view lead))) lm m ->
  normal_loss (q, kp, kt) x y m = Some (average (spread (fst (view lead))) (fun i => mean_over (rw lat) nlat nlon lm m i (normal_at x y (snd (view lead) (squash i))))).
Proof.
  intros x y lm m Sx Sy GM. destruct (normal_term_value x y lead Sx Sy) as (t & Et & St & Vt). unfold normal_loss.
  apply (term_mean gl nlat nlon g q kp kt lat (spread (fst (view lead))) I El (spread_count lead C) (normal_term kp kt) x y t m lm (fun i => normal_at x y (snd (view lead) (squash i)))); auto.
Qed.
Lemma normal_value : forall x y, shp x = lead ++ [nlat; nlon] -> shp y = lead ++ [nlat; nlon] ->
  normal_loss (q, kp, kt) x y None = Some (average lead (fun i => mean_on_sphere (rw lat) nlat nlon (normal_at x y i))).
Proof.
  intros x y Sx Sy. rewrite (normal_masked x y [] None Sx Sy Logic.I). f_equal. cbn [mean_over]. destruct (view_cons lead) as (b & rest & Ev).
  rewrite <- (view_average lead (fun i => mean_on_sphere (rw lat) nlat nlon (normal_at x y i))). rewrite Ev. apply (spread_average b rest (fun i => mean_on_sphere (rw lat) nlat nlon (normal_at x y (snd (view lead) i)))).
Qed.
Hypothesis P : forall k, (k < nlat)%nat -> 0 < rw lat k.
Lemma normal_range : forall x y, shp x = lead ++ [nlat; nlon] -> shp y = lead ++ [nlat; nlon] -> exists v, normal_loss (q, kp, kt) x y None = Some v /\ 0 <= v < 2 /\
  (v = 0 <-> w11_loss (q, kp, kt) x y None = Some 0).
Proof.
  intros x y Sx Sy. rewrite normal_value by auto. eexists. split; [reflexivity|].
  assert (RG : forall i k j, 0 <= normal_at x y i k j < 2) by (intros; apply cos_range).
  pose proof (init_facts gl nlat nlon g q kp kt I) as (Hw & Hlat & Hlon & _).
  assert (N : forall i, valid lead i -> 0 <= mean_over (rw lat) nlat nlon [] None i (normal_at x y i)). { intros i Hi. apply (mo_nonneg gl nlat nlon g q kp kt lat lead I P [] None Logic.I Logic.I); auto. intros. apply RG. }
  assert (Z : forall i, valid lead i -> (mean_over (rw lat) nlat nlon [] None i (normal_at x y i) = 0 <-> forall k j, (k < nlat)%nat -> (j < nlon)%nat -> pixel_counts [] None i k j -> normal_at x y i k j = 0)).
  { intros i Hi. apply (mo_zero gl nlat nlon g q kp kt lat lead I P [] None Logic.I Logic.I); auto. intros. apply RG. }
  cbn [mean_over] in N, Z. split; [split|].
  - apply average_nonneg; auto.
  - assert (U : exists M, M < 2 /\ forall i, valid lead i -> mean_on_sphere (rw lat) nlat nlon (normal_at x y i) <= M).
    { assert (G : forall s (F : list nat -> R), (forall i, valid s i -> F i < 2) -> exists M, M < 2 /\ forall i, valid s i -> F i <= M).
      { intros s F HF. assert (Hin : forall l, (forall i, In i l -> F i < 2) -> exists M, M < 2 /\ forall i, In i l -> F i <= M). { induction l as [|i l IH]; intros H. exists 0. split; [lra|]. intros i []. destruct IH as (M & M1 & M2). intros; apply H; cbn; auto. exists (Rmax M (F i)). split. apply Rmax_lub_lt; auto. apply H; cbn; auto. intros i' [<-|Hi']. apply Rmax_r. apply Rle_trans with M; auto. apply Rmax_l. }
        destruct (Hin (indices s)) as (M & M1 & M2). intros i Hi. apply HF. now apply in_indices. exists M. split; auto. intros i Hi. apply M2. now apply in_indices. }
      apply G. intros i Hi. destruct (G [nlat; nlon] (fun p => normal_at x y i (nth 0 p 0%nat) (nth 1 p 0%nat))) as (M & M1 & M2). intros; apply RG.
      apply Rle_lt_trans with M; auto. rewrite <- (mo_const gl nlat nlon g q kp kt lat lead I P [] None Logic.I Logic.I i M Hi). change (mean_over (rw lat) nlat nlon [] None i (normal_at x y i) <= mean_over (rw lat) nlat nlon [] None i (fun _ _ => M)).
      apply (mo_le gl nlat nlon g q kp kt lat lead I P [] None Logic.I Logic.I); auto. intros k j Hk Hj. apply (M2 [k; j]). apply valid_cons. split; auto. apply valid_cons. split; auto. apply valid_nil; auto. }
    destruct U as (M & M1 & M2). apply Rle_lt_trans with M; auto. rewrite <- (average_const lead M C). now apply average_le.
  - rewrite average_zero by auto. destruct (w11_nonneg gl nlat nlon g q kp kt lat lead I El C P [] None Logic.I Logic.I x y Sx Sy) as (v & -> & _ & ZW). split.
    + intros H. f_equal. apply ZW. intros i k j Hi Hk Hj _. apply cos_range. apply (proj1 (Z i Hi) (H i Hi)); auto. exact Logic.I.
    + intros E i Hi. injection E as E. apply Z; auto. intros k j Hk Hj Hc. apply cos_range. apply (proj1 ZW E); auto.
Qed.
Lemma normal_sym : forall x y, shp x = lead ++ [nlat; nlon] -> shp y = lead ++ [nlat; nlon] -> normal_loss (q, kp, kt) x y None = normal_loss (q, kp, kt) y x None.
Proof.
  intros x y Sx Sy. rewrite !normal_value by auto. f_equal. apply average_ext. intros i Hi. apply bsum_ext. intros k Hk. apply bsum_ext. intros j Hj. f_equal. unfold normal_at. rewrite !cos_form. rewrite (Rmult_comm (nsq (gphi nlon y i k j) _)). do 2 f_equal. ring.
Qed.
Lemma normal_roll : forall x y s, shp x = lead ++ [nlat; nlon] -> shp y = lead ++ [nlat; nlon] -> normal_loss (q, kp, kt) (roll_last s x) (roll_last s y) None = normal_loss (q, kp, kt) x y None.
Proof.
  intros x y s Sx Sy. pose proof (init_facts gl nlat nlon g q kp kt I) as (Hw & Hlat & Hlon & _). rewrite !normal_value by auto. f_equal. apply average_ext. intros i Hi.
  pose proof (roll_mean_over nlat nlon lead (rw lat) [] None s i (normal_at x y i) Hlon Logic.I ltac:(discriminate)) as E. cbn [option_map mean_over] in E. rewrite <- E. apply bsum_ext. intros k Hk. apply bsum_ext. intros j Hj. f_equal.
  unfold normal_at. rewrite !(gphi_roll nlat nlon lead), !(gtheta_roll nlat nlon lead) by (auto; now apply valid_len). reflexivity.
Qed.
End O.
