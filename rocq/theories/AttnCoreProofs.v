(** Softmax averages, the running maximum, CSR rows, grids of results. *)
From Coq Require Import List Arith Lia Bool Reals Lra Permutation.
From Verif Require Import TensorModel TensorProofs BigSum DiscoModel DiscoSortProofs AttnModel AttnSpec.
Import ListNotations.
Local Open Scope R_scope.

(** ** Softmax averages *)
Lemma rlsum_pos : forall X (f : X -> R) l, (forall x, In x l -> 0 < f x) -> l <> [] -> 0 < rlsum f l.
Proof.
  intros X f l. induction l; intros H Hn; [congruence|]. simpl.
  destruct l; [simpl; specialize (H a (or_introl eq_refl)); lra|].
  assert (0 < rlsum f (x :: l)) by (apply IHl; [intros; apply H; right; auto|congruence]).
  specialize (H a (or_introl eq_refl)). simpl in *. lra.
Qed.
Lemma rlsum_le : forall X (f g : X -> R) l, (forall x, In x l -> f x <= g x) -> rlsum f l <= rlsum g l.
Proof.
  intros X f g l. induction l; intros H; simpl; [lra|].
  assert (rlsum f l <= rlsum g l) by (apply IHl; intros; apply H; right; auto).
  specialize (H a (or_introl eq_refl)). simpl in *. lra.
Qed.
Lemma rlsum_ext : forall X (f g : X -> R) l, (forall x, In x l -> f x = g x) -> rlsum f l = rlsum g l.
Proof. intros. apply lsum_ext; auto. Qed.
Lemma rlsum_scal : forall X c (f : X -> R) l, rlsum (fun x => c * f x) l = c * rlsum f l.
Proof. intros. apply (lsum_scal_l RT). Qed.
Lemma rlsum_scal_r : forall X c (f : X -> R) l, rlsum (fun x => f x * c) l = rlsum f l * c.
Proof. intros. apply (lsum_scal_r RT). Qed.
Lemma rlsum_zero : forall X (f : X -> R) l, (forall x, In x l -> f x = 0) -> rlsum f l = 0.
Proof. intros. rewrite (rlsum_ext X f (fun _ => 0)) by auto. apply (lsum_zero RT). Qed.

Lemma softmax_den_pos : forall X (s w : X -> R) l, (forall x, In x l -> 0 < w x) -> l <> [] -> 0 < softmax_den s w l.
Proof. intros. apply rlsum_pos; auto. intros. apply Rmult_lt_0_compat; [auto|apply exp_pos]. Qed.
(** subtracting anything from all scores changes nothing *)
Lemma softmax_den_shift : forall X (s w : X -> R) l m, rlsum (fun x => exp (s x - m) * w x) l = exp (- m) * softmax_den s w l.
Proof.
  intros. unfold softmax_den. rewrite <- rlsum_scal. apply rlsum_ext. intros. unfold Rminus. rewrite exp_plus. ring.
Qed.
Lemma softmax_num_shift : forall X (s w f : X -> R) l m, rlsum (fun x => exp (s x - m) * w x * f x) l = exp (- m) * rlsum (fun x => w x * exp (s x) * f x) l.
Proof.
  intros. rewrite <- rlsum_scal. apply rlsum_ext. intros. unfold Rminus. rewrite exp_plus. ring.
Qed.
Lemma softmax_shift : forall X (s w f : X -> R) l m, (forall x, In x l -> 0 < w x) -> l <> [] ->
  rlsum (fun x => exp (s x - m) * w x * f x) l / rlsum (fun x => exp (s x - m) * w x) l = softmax_avg s w f l.
Proof.
  intros. rewrite softmax_num_shift, softmax_den_shift. unfold softmax_avg.
  pose proof (softmax_den_pos X s w l H H0). pose proof (exp_pos (- m)). field. lra.
Qed.
Lemma softmax_avg_perm : forall X (s w f : X -> R) l l', Permutation l l' -> softmax_avg s w f l = softmax_avg s w f l'.
Proof. intros. unfold softmax_avg, softmax_den. rewrite !(lsum_perm RT _ _ l l' H). reflexivity. Qed.
Lemma softmax_avg_ext : forall X (s s' w w' f f' : X -> R) l, (forall x, In x l -> s x = s' x /\ w x = w' x /\ f x = f' x) ->
  softmax_avg s w f l = softmax_avg s' w' f' l.
Proof.
  intros. unfold softmax_avg, softmax_den.
  rewrite (rlsum_ext _ (fun x => w x * exp (s x) * f x) (fun x => w' x * exp (s' x) * f' x)) by (intros x Hx; destruct (H x Hx) as (-> & -> & ->); reflexivity).
  rewrite (rlsum_ext _ (fun x => w x * exp (s x)) (fun x => w' x * exp (s' x))) by (intros x Hx; destruct (H x Hx) as (-> & -> & _); reflexivity).
  reflexivity.
Qed.
Lemma softmax_avg_map : forall X Y (g : Y -> X) (s w f : X -> R) l,
  softmax_avg s w f (map g l) = softmax_avg (fun y => s (g y)) (fun y => w (g y)) (fun y => f (g y)) l.
Proof. intros. unfold softmax_avg, softmax_den. rewrite !lsum_map. reflexivity. Qed.
Lemma softmax_avg_const : forall X (s w f : X -> R) l c, (forall x, In x l -> 0 < w x) -> l <> [] -> (forall x, In x l -> f x = c) ->
  softmax_avg s w f l = c.
Proof.
  intros. unfold softmax_avg. pose proof (softmax_den_pos X s w l H H0).
  rewrite (rlsum_ext _ _ (fun x => w x * exp (s x) * c)) by (intros; rewrite H1; auto).
  rewrite rlsum_scal_r. fold (softmax_den s w l). field. lra.
Qed.
Lemma softmax_avg_bounds : forall X (s w f : X -> R) l lo hi, (forall x, In x l -> 0 < w x) -> l <> [] ->
  (forall x, In x l -> lo <= f x <= hi) -> lo <= softmax_avg s w f l <= hi.
Proof.
  intros. unfold softmax_avg. pose proof (softmax_den_pos X s w l H H0).
  assert (E : forall c, c = rlsum (fun x => w x * exp (s x) * c) l / softmax_den s w l).
  { intro c. rewrite rlsum_scal_r. fold (softmax_den s w l). field. lra. }
  split; [rewrite (E lo)|rewrite (E hi)]; unfold Rdiv; apply Rmult_le_compat_r;
    try (left; apply Rinv_0_lt_compat; auto); apply rlsum_le; intros; apply Rmult_le_compat_l;
    try (left; apply Rmult_lt_0_compat; [auto|apply exp_pos]); apply H1; auto.
Qed.
(** linear in the values *)
Lemma softmax_avg_linear : forall X (s w f g : X -> R) l a b, (forall x, In x l -> 0 < w x) -> l <> [] ->
  softmax_avg s w (fun x => a * f x + b * g x) l = a * softmax_avg s w f l + b * softmax_avg s w g l.
Proof.
  intros. unfold softmax_avg. pose proof (softmax_den_pos X s w l H H0).
  rewrite (rlsum_ext _ (fun x => w x * exp (s x) * (a * f x + b * g x)) (fun x => a * (w x * exp (s x) * f x) + b * (w x * exp (s x) * g x))) by (intros; ring).
  rewrite (lsum_plus RT), !rlsum_scal. field. lra.
Qed.

(** ** Running maximum *)
Definition osm_inv {X} (s w : X -> R) (v : X -> nat -> R) (l : list X) (st : osm) : Prop :=
  o_sum st = rlsum (fun x => exp (s x - o_max st) * w x) l /\
  forall c, o_acc st c = rlsum (fun x => exp (s x - o_max st) * w x * v x c) l.
Lemma osm_step_inv : forall X (s w : X -> R) v l st x, osm_inv s w v l st -> osm_inv s w v (l ++ [x]) (osm_step (s x) (w x) (v x) st).
Proof.
  intros X s w v l st x (Hs & Ha). unfold osm_step, osm_inv. cbn [o_sum o_max o_acc].
  set (m := Rmax (o_max st) (s x)). split.
  - rewrite (lsum_app RT). simpl. rewrite Hs.
    rewrite <- rlsum_scal_r. rewrite Rplus_0_r, Rplus_comm. f_equal. apply rlsum_ext. intros y _.
    replace (s y - m) with ((o_max st - m) + (s y - o_max st)) by ring. rewrite exp_plus. ring.
  - intro c. rewrite (lsum_app RT). simpl. rewrite Ha, Rplus_0_r. f_equal.
    rewrite <- rlsum_scal_r. apply rlsum_ext. intros y _.
    replace (s y - m) with ((o_max st - m) + (s y - o_max st)) by ring. rewrite exp_plus. ring.
Qed.
Definition osm_run {X} (s w : X -> R) (v : X -> nat -> R) (l : list X) (st : osm) : osm :=
  fold_left (fun st x => osm_step (s x) (w x) (v x) st) l st.
Lemma osm_run_inv : forall X (s w : X -> R) v l l0 st, osm_inv s w v l0 st -> osm_inv s w v (l0 ++ l) (osm_run s w v l st).
Proof.
  intros X s w v l. induction l; intros; simpl; [rewrite app_nil_r; auto|].
  replace (l0 ++ a :: l) with ((l0 ++ [a]) ++ l) by (rewrite <- app_assoc; reflexivity).
  apply IHl, osm_step_inv, H.
Qed.
Lemma osm_inv_init : forall X (s w : X -> R) v m, osm_inv s w v [] (mkO 0 m (fun _ => 0)).
Proof. intros. split; reflexivity. Qed.
Lemma osm_run_final : forall X (s w : X -> R) v l m, (forall x, In x l -> 0 < w x) -> l <> [] ->
  let st := osm_run s w v l (mkO 0 m (fun _ => 0)) in
  0 < o_sum st /\ forall c, o_acc st c / o_sum st = softmax_avg s w (fun x => v x c) l.
Proof.
  intros X s w v l m Hw Hn st.
  destruct (osm_run_inv X s w v l [] _ (osm_inv_init X s w v m)) as (Hs & Ha). fold st in Hs, Ha. cbn [app] in Hs, Ha.
  split.
  - rewrite Hs. apply rlsum_pos; auto. intros. apply Rmult_lt_0_compat; [apply exp_pos|auto].
  - intro c. rewrite Ha, Hs. apply softmax_shift; auto.
Qed.
Lemma osm_run_empty : forall X (s w : X -> R) v m, o_sum (osm_run s w v [] (mkO 0 m (fun _ => 0))) = 0.
Proof. reflexivity. Qed.
(** the maximum bounds the start value and all scores seen *)
Lemma osm_run_max : forall X (s w : X -> R) v l st, o_max st <= o_max (osm_run s w v l st) /\ forall x, In x l -> s x <= o_max (osm_run s w v l st).
Proof.
  intros X s w v l. induction l; intros; simpl; [split; [lra|tauto]|].
  destruct (IHl (osm_step (s a) (w a) (v a) st)) as (A & B). cbn [osm_step o_max] in A. split.
  - eapply Rle_trans; [apply Rmax_l|exact A].
  - intros x [<-|Hx]; auto. eapply Rle_trans; [apply Rmax_r|exact A].
Qed.

(** ** Guards *)
Lemma nz_true : forall x, x <> 0 -> nz x = true.
Proof. intros. unfold nz. destruct (Req_EM_T x 0); [contradiction|reflexivity]. Qed.
Lemma nz_zero : nz 0 = false.
Proof. unfold nz. destruct (Req_EM_T 0 0); [reflexivity|congruence]. Qed.
Lemma guard_true : forall A b (f : unit -> option A), b = true -> bindo (guard b) f = f tt.
Proof. intros. rewrite H. reflexivity. Qed.

(** ** CSR rows *)
Lemma offsets_starts : forall P o, offsets o P = starts o P.
Proof. induction P; intros; simpl; auto. rewrite IHP. reflexivity. Qed.
Lemma csr_row_spec : forall P r, (r < length P)%nat -> csr_row (offsets 0 P) (columns P) r = nth r P [].
Proof. intros. unfold csr_row, columns. rewrite offsets_starts. apply slice_starts; auto. Qed.
Lemma starts_le : forall A (rs : list (list A)) o x, In x (starts o rs) -> (x <= o + length (concat rs))%nat.
Proof.
  intros A rs. induction rs; intros; simpl in *; [lia|].
  destruct H as [<-|H]; [lia|]. apply IHrs in H. rewrite app_length. lia.
Qed.
Lemma csr_ok_spec : forall P rows N, pattern_ok P rows N -> csr_ok (offsets 0 P) (columns P) rows N = true.
Proof.
  intros P rows N (L & Hc). unfold csr_ok. rewrite offsets_starts, starts_length.
  rewrite !andb_true_iff. split; [split|].
  - apply Nat.leb_le. lia.
  - apply forallb_forall. intros x Hx. apply Nat.leb_le. apply starts_le in Hx. exact Hx.
  - apply forallb_forall. intros c Hcc. apply Nat.ltb_lt. unfold columns in Hcc. apply in_concat in Hcc.
    destruct Hcc as (r & Hr & Hcr). eapply Hc; eauto.
Qed.
Lemma row_bound : forall P rows N r c, pattern_ok P rows N -> In c (nth r P []) -> (c < N)%nat.
Proof.
  intros P rows N r c (L & H) Hc. destruct (Nat.lt_ge_cases r (length P)).
  - eapply H; [apply nth_In; eauto|exact Hc].
  - rewrite nth_overflow in Hc by auto. destruct Hc.
Qed.

(** ** Grids of results *)
Lemma cell_div : forall B H W b h w, (b < B)%nat -> (h < H)%nat -> (w < W)%nat ->
  let n := (b * (H * W) + h * W + w)%nat in (n < B * (H * W) /\ n / (H * W) = b /\ n / W mod H = h /\ n mod W = w)%nat.
Proof.
  intros B H W b h w Hb Hh Hw n.
  assert (E : (h * W + w < H * W)%nat) by nia.
  assert (E1 : (n / (H * W) = b)%nat) by (symmetry; apply (Nat.div_unique n (H * W) b (h * W + w)); unfold n; lia).
  assert (E2 : (n / W = b * H + h)%nat) by (symmetry; apply (Nat.div_unique n W (b * H + h) w); unfold n; nia).
  split; [unfold n; nia|]. split; [exact E1|]. split.
  - rewrite E2. symmetry. apply (Nat.mod_unique (b * H + h) H b h); nia.
  - symmetry. apply (Nat.mod_unique n W (b * H + h) w); [auto|unfold n; nia].
Qed.
Lemma grid3_some : forall A (d : A) B H W (f : nat -> nat -> nat -> option A) (g : nat -> nat -> nat -> A),
  (forall b h w, (b < B)%nat -> (h < H)%nat -> (w < W)%nat -> f b h w = Some (g b h w)) ->
  exists r, grid3 d B H W f = Some r /\ forall b h w, (b < B)%nat -> (h < H)%nat -> (w < W)%nat -> r b h w = g b h w.
Proof.
  intros A d B H W f g E. unfold grid3.
  rewrite (mapM_Some _ _ _ (fun n => g (n / (H * W)) (n / W mod H) (n mod W))%nat).
  - cbn [bindo]. eexists. split; [reflexivity|]. intros b h w Hb Hh Hw. cbv beta.
    destruct (cell_div B H W b h w Hb Hh Hw) as (L & E1 & E2 & E3).
    rewrite (nth_indep _ d (g 0 0 0)%nat) by (rewrite map_length, seq_length; auto).
    rewrite (nth_indep _ _ ((fun n => g (n / (H * W)) (n / W mod H) (n mod W))%nat 0%nat)) by (rewrite map_length, seq_length; auto).
    rewrite (map_nth (fun n => g (n / (H * W)) (n / W mod H) (n mod W))%nat), seq_nth by auto. cbn [plus]. rewrite E1, E2, E3. reflexivity.
  - intros n Hn. apply in_seq in Hn.
    assert (H <> 0 /\ W <> 0)%nat as (HH & HW) by (split; intro; subst; nia).
    apply E.
    + apply Nat.div_lt_upper_bound; nia.
    + apply Nat.mod_upper_bound; auto.
    + apply Nat.mod_upper_bound; auto.
Qed.
Lemma mapM_none : forall A B (f : A -> option B) l a, In a l -> f a = None -> mapM f l = None.
Proof.
  intros A B f l. induction l; intros; [destruct H|]. simpl. destruct H as [<-|H].
  - rewrite H0. reflexivity.
  - destruct (f a); simpl; [|reflexivity]. erewrite IHl by eauto. reflexivity.
Qed.
Lemma grid3_none : forall A (d : A) B H W f b h w, (b < B)%nat -> (h < H)%nat -> (w < W)%nat -> f b h w = None -> grid3 d B H W f = None.
Proof.
  intros. unfold grid3. destruct (cell_div B H W b h w H0 H1 H2) as (L & E1 & E2 & E3).
  erewrite (mapM_none _ _ _ _ (b * (H * W) + h * W + w)%nat); [reflexivity| |].
  - apply in_seq. lia.
  - rewrite E1, E2, E3. auto.
Qed.
Lemma mapM_seq : forall A (d : A) n (f : nat -> option A) (P : nat -> A -> Prop),
  (forall i, (i < n)%nat -> exists a, f i = Some a /\ P i a) ->
  exists l, mapM f (seq 0 n) = Some l /\ forall i, (i < n)%nat -> P i (nth i l d).
Proof.
  intros A d n f P H.
  destruct (mapM_Forall2 _ _ f (seq 0 n)) as (l & E & F).
  { intros i Hi. apply in_seq in Hi. destruct (H i) as (a & Ha & _); [lia|eauto]. }
  exists l. split; [exact E|]. intros i Hi.
  assert (Q : f i = Some (nth i l d)).
  { clear -F Hi. assert (G : forall a m l, Forall2 (fun x b => f x = Some b) (seq a m) l -> forall i, (i < m)%nat -> f (a + i)%nat = Some (nth i l d)).
    { intros a m. revert a. induction m; intros a l0 F0 j Hj; [lia|]. simpl in F0. inversion F0; subst.
      destruct j; simpl; [rewrite Nat.add_0_r; auto|]. rewrite <- (IHm (S a) l' H3 j) by lia. f_equal. lia. }
    apply (G 0%nat n l F i Hi). }
  destruct (H i Hi) as (a & Ha & Pa). rewrite Q in Ha. inversion Ha; subst. auto.
Qed.

(** ** Accumulation loops *)
Lemma fold_obs : forall S X (obs : S -> R) (step : S -> X -> S) (f : X -> R) l st,
  (forall st x, In x l -> obs (step st x) = obs st + f x) -> obs (fold_left step l st) = obs st + rlsum f l.
Proof.
  intros S X obs step f l. induction l; intros; simpl; [ring|].
  rewrite IHl by (intros; apply H; right; auto). rewrite H by (left; reflexivity). ring.
Qed.
Lemma fold_obs_opt : forall S X (step : option S -> X -> option S) l st (I : S -> Prop),
  I st -> (forall st x, In x l -> I st -> exists st', step (Some st) x = Some st' /\ I st') ->
  exists st', fold_left step l (Some st) = Some st' /\ I st'.
Proof.
  intros S X step l. induction l; intros; simpl; [eauto|].
  destruct (H0 st a (or_introl eq_refl) H) as (st' & E & I'). rewrite E. apply IHl; auto. intros. apply H0; auto. right; auto.
Qed.
Lemma fold_plus : forall l a, fold_left Rplus l a = a + rlsum (fun x => x) l.
Proof. intros. apply (fold_obs R R (fun x => x)). intros. reflexivity. Qed.
