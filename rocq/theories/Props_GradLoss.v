(** C54: the losses on Fourier gradients, W11LossS2 and NormalLossS2. *)
From Coq Require Import List Arith Lia Bool Reals Lra.
From Coquelicot Require Import Coquelicot.
From Verif Require Import TensorModel TensorProofs BigSum TruncModel QuadModel QuadProofs QuadPropProofs SHTSpec LossModel LossSpec LossProofs LossProofs2 LossProofs3 LossProofs4 GradLossModel GradLossSpec GradLossProofs GradLossProofs2 GradLossProofs3 GradLossProofs4 GradLossProofs5 GradLossProofs6.
Import ListNotations.
Local Open Scope R_scope.

(** ** the gradients *)
(** every field has gradients: derivatives of the trigonometric interpolants, per unit of
    longitude along rows and, with factor 2, along columns taken as one period ... *)
Theorem C54_gradients : forall gl nlat nlon g q kp kt lead x, gradient_loss_init gl nlat nlon g = Some (q, kp, kt) -> shp x = lead ++ [nlat; nlon] ->
  exists zp zt, fourier_gradient kp x = Some zp /\ fourier_gradient kt x = Some zt /\ shp zp = lead ++ [nlat; nlon] /\ shp zt = lead ++ [nlat; nlon] /\
  exists gp gt, gradients nlat nlon lead x gp gt /\ forall i k j, valid lead i -> (k < nlat)%nat -> (j < nlon)%nat -> val zp (i ++ [k; j]) = gp i k j /\ val zt (i ++ [k; j]) = gt i k j.
Proof.
  intros gl nlat nlon g q kp kt lead x I Sx. destruct (init_facts gl nlat nlon g q kp kt I) as (_ & H1 & H2 & _). destruct (gradient_phi gl nlat nlon g q kp kt I x lead Sx) as (zp & Ep & Sp & Vp). destruct (gradient_theta gl nlat nlon g q kp kt I x lead Sx) as (zt & Et & St & Vt).
  exists zp, zt. repeat (split; auto). exists (gphi nlon x), (gtheta nlat x). split. now apply gradients_exist. intros i k j Hi Hk Hj. split; [apply Vp|apply Vt]; auto.
Qed.
(** ... which are unique *)
Theorem C54_gradients_unique : forall nlat nlon lead x gp gt gp' gt', gradients nlat nlon lead x gp gt -> gradients nlat nlon lead x gp' gt' ->
  forall i k j, valid lead i -> (k < nlat)%nat -> (j < nlon)%nat -> gp i k j = gp' i k j /\ gt i k j = gt' i k j.
Proof. intros nlat nlon lead x gp gt gp' gt' H H' i k j Hi Hk Hj. destruct (gradients_value _ _ _ _ _ _ H i k j Hi Hk Hj) as [-> ->]. destruct (gradients_value _ _ _ _ _ _ H' i k j Hi Hk Hj) as [-> ->]. auto. Qed.
(** along a row band-limited below nlon / 2 the gradient is the derivative in longitude *)
Theorem C54_longitude_exact : forall gl nlat nlon g q kp kt lead x zp i k M a b, gradient_loss_init gl nlat nlon g = Some (q, kp, kt) -> shp x = lead ++ [nlat; nlon] -> fourier_gradient kp x = Some zp ->
  valid lead i -> (k < nlat)%nat -> (2 * M < nlon)%nat -> (forall j, (j < nlon)%nat -> val x (i ++ [k; j]) = trig M a b (precompute_longitudes nlon j)) ->
  forall j, (j < nlon)%nat -> is_derive (trig M a b) (precompute_longitudes nlon j) (val zp (i ++ [k; j])).
Proof.
  intros gl nlat nlon g q kp kt lead x zp i k M a b I Sx E Hi Hk HM V j Hj. destruct (gradient_phi gl nlat nlon g q kp kt I x lead Sx) as (z & Ez & _ & Vz). rewrite E in Ez. injection Ez as <-. rewrite Vz by auto.
  assert (L : forall l, precompute_longitudes nlon l = 2 * PI * INR l / INR nlon). { intros l. unfold precompute_longitudes, linspace. replace (nlon + 1 - 1)%nat with nlon by lia. unfold Rdiv. ring. }
  rewrite (interpolates_rd nlon M a b 0). rewrite L. apply trig_derive. split; auto. split; auto. intros l Hl. rewrite V, L by auto. ring.
Qed.
(** along a column it is the derivative in latitude of samples at pi k / nlat ... *)
Theorem C54_latitude_exact : forall gl nlat nlon g q kp kt lead x zt i j M a b, gradient_loss_init gl nlat nlon g = Some (q, kp, kt) -> shp x = lead ++ [nlat; nlon] -> fourier_gradient kt x = Some zt ->
  valid lead i -> (j < nlon)%nat -> (2 * M < nlat)%nat -> (forall k, (k < nlat)%nat -> val x (i ++ [k; j]) = trig M a b (2 * (PI * INR k / INR nlat))) ->
  forall k, (k < nlat)%nat -> is_derive (fun t => trig M a b (2 * t)) (PI * INR k / INR nlat) (val zt (i ++ [k; j])).
Proof.
  intros gl nlat nlon g q kp kt lead x zt i j M a b I Sx E Hi Hj HM V k Hk. destruct (gradient_theta gl nlat nlon g q kp kt I x lead Sx) as (z & Ez & _ & Vz). rewrite E in Ez. injection Ez as <-. rewrite Vz by auto. now apply latitude_exact.
Qed.
(** ... which are not the latitudes pi k / (nlat - 1) of the default grid: there cos(2 theta)
    has a wrong gradient *)
Theorem C54_latitude_refuted : forall gl, exists lat o, precompute_latitudes gl 3 GEquiangular = Some lat /\ gradient_loss_init gl 3 4 GEquiangular = Some o /\
  (forall k, (k < 3)%nat -> rn lat k = PI * INR k / 2) /\
  forall zt, fourier_gradient (snd o) (mkT [3; 4]%nat (fun i => cos (2 * rn lat (nth 0 i 0%nat)))) = Some zt ->
  forall j, (j < 4)%nat -> ~ (forall k, (k < 3)%nat -> is_derive (fun t => cos (2 * t)) (rn lat k) (val zt [k; j])).
Proof.
  intros gl. destruct (grid_exists gl) as (lat & [[q kp] kt] & El & _ & Io). exists lat, (q, kp, kt). split; auto. split; auto. split. { intros k Hk. exact (equiangular_lats gl 3 lat ltac:(lia) El k Hk). }
  intros zt E j Hj H. cbn [snd] in E. destruct (gradient_theta gl 3 4 GEquiangular q kp kt Io (mkT [3; 4]%nat (fun i => cos (2 * rn lat (nth 0 i 0%nat)))) [] eq_refl) as (z & Ez & _ & Vz). rewrite E in Ez. injection Ez as <-.
  apply (latitude_wrong gl lat El j). intros k Hk. specialize (H k Hk). change ([k; j]) with ([] ++ [k; j])%list in H. rewrite Vz in H by (auto; apply valid_nil; auto). exact H.
Qed.

(** ** W11LossS2 *)
(** the average over the samples of the mean over the sphere, or over the mask, of the sum of
    the absolute differences of the gradients *)
Theorem C54_w11 : forall gl nlat nlon g q kp kt lat lead, gradient_loss_init gl nlat nlon g = Some (q, kp, kt) -> precompute_latitudes gl nlat g = Some lat -> (1 <= count lead)%nat ->
  forall x y gp gt gp' gt', shp x = lead ++ [nlat; nlon] -> shp y = lead ++ [nlat; nlon] -> gradients nlat nlon lead x gp gt -> gradients nlat nlon lead y gp' gt' ->
  let D i k j := Rabs (gp i k j - gp' i k j) + Rabs (gt i k j - gt' i k j) in
  w11_loss (q, kp, kt) x y None = Some (average lead (fun i => mean_on_sphere (rw lat) nlat nlon (D i))) /\
  forall lm m, good_mask nlat nlon lat lead lm m -> w11_loss (q, kp, kt) x y (Some m) = Some (average lead (fun i => mean_on_mask (rw lat) nlat nlon (fun k j => val m (bidx lm i ++ [k; j])) (D i))).
Proof.
  intros gl nlat nlon g q kp kt lat lead I El C x y gp gt gp' gt' Sx Sy G G' D.
  assert (W : forall lm m, option_mask nlat nlon lat lead lm m -> w11_loss (q, kp, kt) x y m = Some (average lead (fun i => mean_over (rw lat) nlat nlon lm m i (D i)))).
  { intros lm m GM. rewrite (w11_value gl nlat nlon g q kp kt lat lead I El C x y lm m) by auto. f_equal. apply average_ext. intros i Hi. apply mo_ext; auto. intros k j Hk Hj. unfold w11_at, D.
    destruct (gradients_value _ _ _ _ _ _ G i k j Hi Hk Hj) as [-> ->]. destruct (gradients_value _ _ _ _ _ _ G' i k j Hi Hk Hj) as [-> ->]. reflexivity. }
  split. exact (W [] None Logic.I). intros lm m GM. exact (W lm (Some m) GM).
Qed.
(** a pseudo-metric *)
Theorem C54_w11_pseudometric : forall gl nlat nlon g q kp kt lat lead, gradient_loss_init gl nlat nlon g = Some (q, kp, kt) -> precompute_latitudes gl nlat g = Some lat -> (1 <= count lead)%nat ->
  (forall k, (k < nlat)%nat -> 0 < rw lat k) -> forall lm m, option_mask nlat nlon lat lead lm m -> mask_nonneg nlat nlon m ->
  forall x y z, shp x = lead ++ [nlat; nlon] -> shp y = lead ++ [nlat; nlon] -> shp z = lead ++ [nlat; nlon] ->
  exists a b c, w11_loss (q, kp, kt) x y m = Some a /\ w11_loss (q, kp, kt) y z m = Some b /\ w11_loss (q, kp, kt) x z m = Some c /\ 0 <= a /\ c <= a + b /\ w11_loss (q, kp, kt) y x m = Some a /\ w11_loss (q, kp, kt) x x m = Some 0.
Proof.
  intros gl nlat nlon g q kp kt lat lead I El C P lm m GM MN x y z Sx Sy Sz. destruct (w11_nonneg gl nlat nlon g q kp kt lat lead I El C P lm m GM MN x y Sx Sy) as (a & Ea & Pa & _). destruct (w11_nonneg gl nlat nlon g q kp kt lat lead I El C P lm m GM MN y z Sy Sz) as (b & Eb & _).
  destruct (w11_triangle gl nlat nlon g q kp kt lat lead I El C P lm m GM MN x y z a b Sx Sy Sz Ea Eb) as (c & Ec & T). exists a, b, c. rewrite (w11_sym gl nlat nlon g q kp kt lat lead I El C lm m GM y x) by auto. repeat (split; auto).
  destruct (w11_nonneg gl nlat nlon g q kp kt lat lead I El C P lm m GM MN x x Sx Sx) as (v & -> & _ & Z). f_equal. apply Z. auto.
Qed.
(** offsets, different per sample and for the two fields, do not count *)
Theorem C54_w11_offsets : forall gl nlat nlon g q kp kt lat lead, gradient_loss_init gl nlat nlon g = Some (q, kp, kt) -> precompute_latitudes gl nlat g = Some lat -> (1 <= count lead)%nat ->
  forall lm m, option_mask nlat nlon lat lead lm m -> forall x y x' y' c d, shp x = lead ++ [nlat; nlon] -> shp y = lead ++ [nlat; nlon] -> shp x' = lead ++ [nlat; nlon] -> shp y' = lead ++ [nlat; nlon] ->
  (forall i k j, valid lead i -> (k < nlat)%nat -> (j < nlon)%nat -> val x' (i ++ [k; j]) = val x (i ++ [k; j]) + c i /\ val y' (i ++ [k; j]) = val y (i ++ [k; j]) + d i) ->
  w11_loss (q, kp, kt) x' y' m = w11_loss (q, kp, kt) x y m.
Proof. intros gl nlat nlon g q kp kt lat lead I El C lm m GM x y x' y' c d. exact (w11_offset gl nlat nlon g q kp kt lat lead I El C lm m GM x y x' y' c d). Qed.
(** without mask it is zero exactly if the fields differ by a constant and the shortest waves,
    which it does not see *)
Theorem C54_w11_zero : forall gl nlat nlon g q kp kt lat lead, gradient_loss_init gl nlat nlon g = Some (q, kp, kt) -> precompute_latitudes gl nlat g = Some lat -> (1 <= count lead)%nat ->
  (forall k, (k < nlat)%nat -> 0 < rw lat k) -> forall x y, shp x = lead ++ [nlat; nlon] -> shp y = lead ++ [nlat; nlon] ->
  (w11_loss (q, kp, kt) x y None = Some 0 <->
   forall i, valid lead i -> exists a b c d, (Nat.odd nlon = true -> b = 0 /\ d = 0) /\ (Nat.odd nlat = true -> c = 0 /\ d = 0) /\
   forall k j, (k < nlat)%nat -> (j < nlon)%nat -> val x (i ++ [k; j]) - val y (i ++ [k; j]) = a + b * (-1) ^ j + c * (-1) ^ k + d * (-1) ^ k * (-1) ^ j).
Proof. exact w11_blind. Qed.
(** so it does not separate fields of equal mean *)
Theorem C54_w11_blind_refuted : forall gl, exists lat o, precompute_latitudes gl 3 GEquiangular = Some lat /\ gradient_loss_init gl 3 4 GEquiangular = Some o /\
  forall A, w11_loss o (mkT [3; 4]%nat (fun i => A * (-1) ^ nth 1 i 0%nat)) (mkT [3; 4]%nat (fun _ => 0)) None = Some 0.
Proof.
  intros gl. destruct (grid_exists gl) as (lat & [[q kp] kt] & El & P & Io). exists lat, (q, kp, kt). split; auto. split; auto. intros A. apply (w11_blind gl 3 4 GEquiangular q kp kt lat [] Io El ltac:(cbn; lia) P); auto.
  intros i Hi. exists 0, A, 0, 0. split; [discriminate|]. split; auto. intros k j Hk Hj. destruct i; [|apply valid_len in Hi; discriminate]. cbn [val app nth]. ring.
Qed.
(** what lies under the mask still counts, through the transform *)
Theorem C54_w11_masked_out_refuted : forall gl, exists lat o, precompute_latitudes gl 3 GEquiangular = Some lat /\ gradient_loss_init gl 3 4 GEquiangular = Some o /\
  let m := mkT [3; 4]%nat (fun i => if (nth 1 i 0 =? 0)%nat then 0 else 1) in
  let x := mkT [3; 4]%nat (fun i => if (nth 1 i 0 =? 0)%nat then 1 else 0) in
  let y := mkT [3; 4]%nat (fun _ => 0) in
  option_mask 3 4 lat [] [] (Some m) /\ (forall k j, (k < 3)%nat -> (j < 4)%nat -> val m [k; j] <> 0 -> val x [k; j] = val y [k; j]) /\
  exists v, w11_loss o x y (Some m) = Some v /\ 0 < v.
Proof. exact w11_mask_leak. Qed.
(** rotating fields and mask in longitude changes nothing *)
Theorem C54_w11_longitude : forall gl nlat nlon g q kp kt lat lead, gradient_loss_init gl nlat nlon g = Some (q, kp, kt) -> precompute_latitudes gl nlat g = Some lat -> (1 <= count lead)%nat ->
  forall lm m s x y, option_mask nlat nlon lat lead lm m -> shp x = lead ++ [nlat; nlon] -> shp y = lead ++ [nlat; nlon] ->
  w11_loss (q, kp, kt) (roll_last s x) (roll_last s y) (option_map (roll_last s) m) = w11_loss (q, kp, kt) x y m.
Proof. exact w11_roll. Qed.
(** fields of another size are rejected *)
Theorem C54_w11_size : forall gl nlat nlon g q kp kt lead h w x y m, gradient_loss_init gl nlat nlon g = Some (q, kp, kt) -> shp x = lead ++ [h; w] ->
  (h <> nlat /\ h <> 1 /\ nlat <> 1 \/ w <> nlon /\ w <> 1 /\ nlon <> 1)%nat -> w11_loss (q, kp, kt) x y m = None.
Proof. exact width_checked. Qed.

(** ** NormalLossS2 *)
(** without mask, with or without batch and channel dimensions: the average of the mean over
    the sphere of the cosine distance of the surface normals *)
Theorem C54_normal : forall gl nlat nlon g q kp kt lat lead, gradient_loss_init gl nlat nlon g = Some (q, kp, kt) -> precompute_latitudes gl nlat g = Some lat -> (1 <= count lead)%nat ->
  forall x y gp gt gp' gt', shp x = lead ++ [nlat; nlon] -> shp y = lead ++ [nlat; nlon] -> gradients nlat nlon lead x gp gt -> gradients nlat nlon lead y gp' gt' ->
  normal_loss (q, kp, kt) x y None = Some (average lead (fun i => mean_on_sphere (rw lat) nlat nlon (fun k j => cosine_distance (gp i k j) (gt i k j) (gp' i k j) (gt' i k j)))).
Proof.
  intros gl nlat nlon g q kp kt lat lead I El C x y gp gt gp' gt' Sx Sy G G'. rewrite (normal_value gl nlat nlon g q kp kt I lat lead El C x y Sx Sy). f_equal. apply average_ext. intros i Hi. apply bsum_ext. intros k Hk. apply bsum_ext. intros j Hj. f_equal.
  unfold normal_at. destruct (gradients_value _ _ _ _ _ _ G i k j Hi Hk Hj) as [-> ->]. destruct (gradients_value _ _ _ _ _ _ G' i k j Hi Hk Hj) as [-> ->]. reflexivity.
Qed.
(** per sample masks work for fields with a channel dimension ... *)
Theorem C54_normal_masked : forall gl nlat nlon g q kp kt lat b, gradient_loss_init gl nlat nlon g = Some (q, kp, kt) -> precompute_latitudes gl nlat g = Some lat -> (1 <= b)%nat ->
  forall x y gp gt gp' gt', shp x = [b; 1%nat; nlat; nlon] -> shp y = [b; 1%nat; nlat; nlon] -> gradients nlat nlon [b; 1%nat] x gp gt -> gradients nlat nlon [b; 1%nat] y gp' gt' ->
  forall m, good_mask nlat nlon lat [b; 1%nat] [b; 1%nat] m ->
  normal_loss (q, kp, kt) x y (Some m) = Some (average [b; 1%nat] (fun i => mean_on_mask (rw lat) nlat nlon (fun k j => val m (i ++ [k; j])) (fun k j => cosine_distance (gp i k j) (gt i k j) (gp' i k j) (gt' i k j)))).
Proof.
  intros gl nlat nlon g q kp kt lat b I El Hb x y gp gt gp' gt' Sx Sy G G' m GM. rewrite (normal_masked gl nlat nlon g q kp kt I lat [b; 1%nat] El ltac:(cbn; lia) x y [b; 1%nat] (Some m) Sx Sy GM). f_equal. cbn [view fst snd spread firstn skipn app]. apply average_ext. intros i Hi.
  assert (Hi' := Hi). destruct i as [|a [|c [|]]]; try (apply valid_len in Hi; discriminate). apply valid_cons in Hi. destruct Hi as [H1 Hi]. apply valid_cons in Hi. destruct Hi as [H2 _]. assert (c = 0)%nat by lia. subst c. cbn [mean_over squash firstn skipn app nth]. rewrite bidx_valid by auto. unfold mean_on_mask. f_equal.
  apply bsum_ext. intros k Hk. apply bsum_ext. intros j Hj. f_equal. unfold normal_at. destruct (gradients_value _ _ _ _ _ _ G _ k j Hi' Hk Hj) as [-> ->]. destruct (gradients_value _ _ _ _ _ _ G' _ k j Hi' Hk Hj) as [-> ->]. reflexivity.
Qed.
(** ... but for fields without one, every sample is averaged over the masks of all samples *)
Theorem C54_normal_mask_crosses : forall gl nlat nlon g q kp kt lat b, gradient_loss_init gl nlat nlon g = Some (q, kp, kt) -> precompute_latitudes gl nlat g = Some lat -> (1 <= b)%nat ->
  forall x y gp gt gp' gt' m, shp x = [b; nlat; nlon] -> shp y = [b; nlat; nlon] -> gradients nlat nlon [b] x gp gt -> gradients nlat nlon [b] y gp' gt' -> shp m = [b; nlat; nlon] ->
  (forall s, (s < b)%nat -> rsum nlat (fun k => rsum nlon (fun j => rw lat k * val m [s; k; j])) <> 0) ->
  normal_loss (q, kp, kt) x y (Some m) = Some (rsum b (fun s => rsum b (fun s' =>
    mean_on_mask (rw lat) nlat nlon (fun k j => val m [s'; k; j]) (fun k j => cosine_distance (gp [s] k j) (gt [s] k j) (gp' [s] k j) (gt' [s] k j)))) / INR (b * b)).
Proof.
  intros gl nlat nlon g q kp kt lat b I El Hb x y gp gt gp' gt' m Sx Sy G G' Sm HD. rewrite (normal_cross gl nlat nlon g q kp kt lat b I El Hb x y m Sx Sy Sm HD). f_equal. unfold average. cbn [total count nth]. rewrite Nat.mul_1_r. f_equal. apply bsum_ext. intros s Hs. apply bsum_ext. intros s' Hs'.
  unfold mean_on_mask. f_equal. apply bsum_ext. intros k Hk. apply bsum_ext. intros j Hj. f_equal. assert (Hi : valid [b] [s]) by (apply valid_cons; split; auto; apply valid_nil; auto).
  unfold normal_at. destruct (gradients_value _ _ _ _ _ _ G _ k j Hi Hk Hj) as [-> ->]. destruct (gradients_value _ _ _ _ _ _ G' _ k j Hi Hk Hj) as [-> ->]. reflexivity.
Qed.
(** so errors a sample's mask excludes are counted *)
Theorem C54_normal_mask_refuted : forall gl, exists lat o, precompute_latitudes gl 3 GEquiangular = Some lat /\ gradient_loss_init gl 3 4 GEquiangular = Some o /\
  let m := mkT [2; 3; 4]%nat (fun i => if (nth 0 i 0 =? 0)%nat && Nat.even (nth 2 i 0%nat) then 0 else 1) in
  let x := mkT [2; 3; 4]%nat (fun i => if (nth 0 i 0 =? 0)%nat then sin (2 * PI * INR (nth 2 i 0%nat) / INR 4) else 0) in
  let y := mkT [2; 3; 4]%nat (fun _ => 0) in
  (forall gp gt gp' gt', gradients 3 4 [2%nat] x gp gt -> gradients 3 4 [2%nat] y gp' gt' ->
   forall s k j, (s < 2)%nat -> (k < 3)%nat -> (j < 4)%nat -> val m [s; k; j] <> 0 -> cosine_distance (gp [s] k j) (gt [s] k j) (gp' [s] k j) (gt' [s] k j) = 0) /\
  (forall s, (s < 2)%nat -> 0 < rsum 3 (fun k => rsum 4 (fun j => rw lat k * val m [s; k; j]))) /\
  exists v, normal_loss o x y (Some m) = Some v /\ 0 < v.
Proof.
  intros gl. destruct (normal_mask_leak gl) as (lat & o & El & Io & H1 & H2 & H3). exists lat, o. split; [exact El|]. split; [exact Io|]. split; [|split; [exact H2|exact H3]].
  intros gp gt gp' gt' G G' s k j Hs Hk Hj Hm. specialize (H1 s k j Hs Hk Hj Hm). assert (Hi : valid [2%nat] [s]) by (apply valid_cons; split; auto; apply valid_nil; auto).
  destruct (gradients_value _ _ _ _ _ _ G _ k j Hi Hk Hj) as [-> ->]. destruct (gradients_value _ _ _ _ _ _ G' _ k j Hi Hk Hj) as [-> ->]. exact H1.
Qed.
(** between 0 and 2, symmetric, and zero exactly where the W11 loss is *)
Theorem C54_normal_range : forall gl nlat nlon g q kp kt lat lead, gradient_loss_init gl nlat nlon g = Some (q, kp, kt) -> precompute_latitudes gl nlat g = Some lat -> (1 <= count lead)%nat ->
  (forall k, (k < nlat)%nat -> 0 < rw lat k) -> forall x y, shp x = lead ++ [nlat; nlon] -> shp y = lead ++ [nlat; nlon] ->
  exists v, normal_loss (q, kp, kt) x y None = Some v /\ 0 <= v < 2 /\ (v = 0 <-> w11_loss (q, kp, kt) x y None = Some 0) /\ normal_loss (q, kp, kt) y x None = Some v.
Proof.
  intros gl nlat nlon g q kp kt lat lead I El C P x y Sx Sy. destruct (normal_range gl nlat nlon g q kp kt I lat lead El C P x y Sx Sy) as (v & E & R & Z). exists v. rewrite (normal_sym gl nlat nlon g q kp kt I lat lead El C y x) by auto. auto.
Qed.
Theorem C54_normal_longitude : forall gl nlat nlon g q kp kt lat lead, gradient_loss_init gl nlat nlon g = Some (q, kp, kt) -> precompute_latitudes gl nlat g = Some lat -> (1 <= count lead)%nat ->
  forall x y s, shp x = lead ++ [nlat; nlon] -> shp y = lead ++ [nlat; nlon] -> normal_loss (q, kp, kt) (roll_last s x) (roll_last s y) None = normal_loss (q, kp, kt) x y None.
Proof. intros gl nlat nlon g q kp kt lat lead I El C. exact (normal_roll gl nlat nlon g q kp kt I lat lead El C). Qed.
(** the documented L1 term is missing: an offset of any size costs nothing *)
Theorem C54_normal_l1_refuted : forall gl nlat nlon g q kp kt lat lead, gradient_loss_init gl nlat nlon g = Some (q, kp, kt) -> precompute_latitudes gl nlat g = Some lat -> (1 <= count lead)%nat ->
  (forall k, (k < nlat)%nat -> 0 < rw lat k) -> forall x y c, shp x = lead ++ [nlat; nlon] -> shp y = lead ++ [nlat; nlon] -> (forall i, val x i = val y i + c) ->
  normal_loss (q, kp, kt) x y None = Some 0 /\ l1_loss q x y None = Some (Rabs c).
Proof.
  intros gl nlat nlon g q kp kt lat lead I El C P x y c Sx Sy H. pose proof (init_facts gl nlat nlon g q kp kt I) as (Hw & Hlat & Hlon & _). split.
  - destruct (normal_range gl nlat nlon g q kp kt I lat lead El C P x y Sx Sy) as (v & -> & _ & Z). f_equal. apply Z. apply (w11_blind gl nlat nlon g q kp kt lat lead I El C P x y Sx Sy). intros i Hi. exists c, 0, 0, 0. split; auto. split; auto. intros k j Hk Hj. rewrite H. ring.
  - destruct (constant_offset gl nlat nlon g lat true q lead El Hlon Hw C P [] None Logic.I Logic.I (fun _ => eq_refl) c x y Sx Sy) as (_ & E & _); auto.
Qed.

(** the default grid meets the hypotheses *)
Example C54_ex : forall gl, exists lat q kp kt, precompute_latitudes gl 3 GEquiangular = Some lat /\ gradient_loss_init gl 3 4 GEquiangular = Some (q, kp, kt) /\ (forall k, (k < 3)%nat -> 0 < rw lat k) /\
  exists gp gt, gradients 3 4 [2%nat] (mkT [2; 3; 4]%nat (fun i => sin (2 * PI * INR (nth 2 i 0%nat) / INR 4))) gp gt /\ gp [1%nat] 2%nat 0%nat = 1.
Proof.
  intros gl. destruct (grid_exists gl) as (lat & [[q kp] kt] & El & P & Io). exists lat, q, kp, kt. split; auto. split; auto. split; auto. eexists _, _. split. apply gradients_exist; lia.
  unfold gphi. cbn [val app nth]. rewrite (rd_ext 4 _ (fun l => sin (INR 1 * (2 * PI * INR l / INR 4)))) by (intros; now rewrite Rmult_1_l). rewrite rd_sin by lia. change (INR 1) with 1. rewrite !Rmult_1_l. apply (quarter 0). lia.
Qed.
Print Assumptions C54_gradients.
Print Assumptions C54_gradients_unique.
Print Assumptions C54_longitude_exact.
Print Assumptions C54_latitude_exact.
Print Assumptions C54_latitude_refuted.
Print Assumptions C54_w11.
Print Assumptions C54_w11_pseudometric.
Print Assumptions C54_w11_offsets.
Print Assumptions C54_w11_zero.
Print Assumptions C54_w11_blind_refuted.
Print Assumptions C54_w11_masked_out_refuted.
Print Assumptions C54_w11_longitude.
Print Assumptions C54_w11_size.
Print Assumptions C54_normal.
Print Assumptions C54_normal_masked.
Print Assumptions C54_normal_mask_crosses.
Print Assumptions C54_normal_mask_refuted.
Print Assumptions C54_normal_range.
Print Assumptions C54_normal_longitude.
Print Assumptions C54_normal_l1_refuted.
