(** The backward passes of the transforms are the adjoints of the forward passes. *)
From Coq Require Import List Arith Lia Bool Reals Lra.
From Coquelicot Require Import Coquelicot.
From Verif Require Import TensorModel TensorProofs BigSum FFTModel FFTProofs TruncModel LegendreModel QuadModel SHTModel
  PrimModel PrimSpec PrimProofs PrimProofs2 AdjointProofs DistSHTModel DistSHTProofs DistSHTProofs2 DistSHTProofs3 DistSHTProofs4 SHTGradModel SHTGradSpec.
Import ListNotations.
Local Open Scope R_scope.

(** ** Sums *)
Lemma rsum_mask : forall n m f, rsum n (fun k => if (k <? m)%nat then f k else 0) = rsum m (fun k => if (k <? n)%nat then f k else 0).
Proof.
  assert (K : forall n m f, (n <= m)%nat -> rsum n (fun k => if (k <? m)%nat then f k else 0) = rsum m (fun k => if (k <? n)%nat then f k else 0)).
  { intros n m f H. assert (E : exists r, m = (n + r)%nat) by (exists (m - n)%nat; lia). destruct E as (r & ->). rewrite (bsum_split RT).
    rewrite (bsum_zero' RT r). 2:{ intros i _. destruct (Nat.ltb_spec (n + i) n); [lia|reflexivity]. }
    rewrite Rplus_0_r. apply bsum_ext. intros k Hk.
    destruct (Nat.ltb_spec k (n + r)), (Nat.ltb_spec k n); auto; lia. }
  intros n m f. destruct (le_lt_dec n m). auto. symmetry. apply K. lia.
Qed.

Lemma rsum_fold : forall n c, (1 <= n)%nat ->
  rsum n (fun k => if (k <=? n / 2)%nat then c k else c (n - k)%nat) =
  rsum (n / 2 + 1) (fun k => (if ((1 <=? k) && (k <=? n - (n / 2 + 1)))%nat%bool then 2 else 1) * c k).
Proof.
  intros n c Hn. pose proof (Nat.div_mod n 2 ltac:(lia)) as E. pose proof (Nat.mod_upper_bound n 2 ltac:(lia)) as E2.
  set (q := (n / 2 + 1)%nat) in *. set (r := (n - q)%nat).
  assert (Hr : (r < q)%nat) by (unfold r, q; lia).
  replace n with (q + r)%nat at 1 by (unfold r, q; lia). rewrite (bsum_split RT).
  rewrite (bsum_ext q (fun k => if (k <=? n / 2)%nat then c k else c (n - k)%nat) c).
  2:{ intros k Hk. destruct (Nat.leb_spec k (n / 2)); auto. unfold q in Hk. lia. }
  rewrite (bsum_ext r _ (fun i => c (n - (q + i))%nat)).
  2:{ intros k Hk. destruct (Nat.leb_spec (q + k) (n / 2)); auto. unfold q in *. lia. }
  rewrite (bsum_rev RT r).
  rewrite (bsum_ext q (fun k => (if ((1 <=? k) && (k <=? n - q))%nat%bool then 2 else 1) * c k)
     (fun k => c k + (if ((1 <=? k) && (k <=? n - q))%nat%bool then c k else 0))).
  2:{ intros k _. destruct ((1 <=? k) && (k <=? n - q))%nat%bool; lra. }
  rewrite (bsum_plus RT). f_equal.
  fold r. destruct q as [|q']; [lia|]. rewrite (bsum_S_l RT). cbn [Nat.leb andb]. rewrite Rplus_0_l.
  rewrite (bsum_ext q' _ (fun i => if (i <? r)%nat then c (S i) else 0)).
  2:{ intros k _. cbn [Nat.leb andb]. reflexivity. }
  rewrite rsum_mask. apply bsum_ext. intros i Hi. destruct (Nat.ltb_spec i q'); [|lia]. f_equal. unfold r in *. lia.
Qed.

(** ** FFT *)
Ltac cring := unfold cpair, cis, Cmult, Cplus, Cconj, RtoC, Re, Im; cbn [fst snd]; ring.
Lemma rfft_size_le : forall n, (1 <= n)%nat -> (torch_rfft_size n <= n)%nat.
Proof. intros n H. unfold torch_rfft_size. pose proof (Nat.div_mod n 2 ltac:(lia)). pose proof (Nat.mod_upper_bound n 2 ltac:(lia)). lia. Qed.

Lemma C_surj : forall z : C, z = (Re z, Im z).
Proof. intros [a b]. reflexivity. Qed.
Lemma Re_scal : forall a z, Re (Cmult (RtoC a) z) = a * Re z.
Proof. intros a [x y]. simpl. ring. Qed.
Lemma torch_rfft_parts : forall nm n x k,
  torch_rfft nm n x k = (fwd_scale nm n * rsum n (fun j => x j * cos (2 * PI * INR j * INR k / INR n)),
                         fwd_scale nm n * rsum n (fun j => - (x j * sin (2 * PI * INR j * INR k / INR n)))).
Proof.
  intros. unfold torch_rfft. rewrite (C_surj (csum _ _)), csum_Re, csum_Im. unfold Cmult, RtoC. simpl.
  apply C_ext; simpl; rewrite Rmult_0_l, ?Rplus_0_r, ?Rminus_0_r; f_equal; apply bsum_ext; intros j _; rewrite ?cos_neg, ?sin_neg; ring.
Qed.
Lemma torch_rfft_bwd_parts : forall nm n g j, (1 <= n)%nat ->
  torch_rfft_bwd nm n g j = fwd_scale nm n * rsum (torch_rfft_size n) (fun k =>
     Re (g k) * cos (2 * PI * INR j * INR k / INR n) - Im (g k) * sin (2 * PI * INR j * INR k / INR n)).
Proof.
  intros nm n g j Hn. unfold torch_rfft_bwd.
  rewrite Re_scal. f_equal. rewrite csum_Re.
  transitivity (rsum n (fun k => if (k <? torch_rfft_size n)%nat then Re (g k) * cos (2 * PI * INR j * INR k / INR n) - Im (g k) * sin (2 * PI * INR j * INR k / INR n) else 0)).
  - apply bsum_ext. intros k _. destruct (k <? torch_rfft_size n)%nat; cring.
  - rewrite rsum_mask. apply bsum_ext. intros k Hk. pose proof (rfft_size_le n Hn).
    destruct (Nat.ltb_spec k n); [reflexivity|lia].
Qed.

Lemma torch_rfft_adj : forall nm n x g, (1 <= n)%nat ->
  rsum (torch_rfft_size n) (fun k => cpair (torch_rfft nm n x k) (g k)) = rsum n (fun j => x j * torch_rfft_bwd nm n g j).
Proof.
  intros nm n x g Hn.
  transitivity (rsum (torch_rfft_size n) (fun k => rsum n (fun j => fwd_scale nm n * (x j * (Re (g k) * cos (2 * PI * INR j * INR k / INR n) - Im (g k) * sin (2 * PI * INR j * INR k / INR n)))))).
  - apply bsum_ext. intros k _. rewrite torch_rfft_parts. unfold cpair. cbn [Re Im fst snd].
    rewrite !Rmult_assoc, <- !(bsum_scal_r RT), <- !(bsum_scal_l RT), <- (bsum_plus RT). apply bsum_ext. intros j _. ring.
  - rewrite (bsum_swap RT). apply bsum_ext. intros j _. rewrite torch_rfft_bwd_parts by auto.
    rewrite <- !(bsum_scal_l RT). apply bsum_ext. intros k _. ring.
Qed.

Lemma rfft_adj : forall nm q n x g, (1 <= n)%nat ->
  rsum q (fun k => cpair (snd (rfft nm (Some q) n x) k) (g k)) = rsum n (fun j => x j * rfft_bwd nm q n g j).
Proof.
  intros nm q n x g Hn.
  transitivity (rsum n (fun j => x j * torch_rfft_bwd nm n (fun k => if (k <? q)%nat then g k else RtoC 0) j)).
  - rewrite <- torch_rfft_adj by auto.
    rewrite (bsum_ext q _ (fun k => if (k <? torch_rfft_size n)%nat then cpair (torch_rfft nm n x k) (g k) else 0)).
    2:{ intros k Hk. rewrite rfft_bins by auto. unfold torch_rfft_size.
        destruct (Nat.leb_spec k (n / 2)), (Nat.ltb_spec k (n / 2 + 1)); try lia; auto. cring. }
    rewrite rsum_mask. apply bsum_ext. intros k _. destruct (k <? q)%nat; auto. cring.
  - apply bsum_ext. intros j _. f_equal. unfold rfft_bwd.
    assert (E : forall g', (forall k, (k < torch_rfft_size n)%nat -> (if (k <? q)%nat then g k else RtoC 0) = g' k) ->
      torch_rfft_bwd nm n (fun k => if (k <? q)%nat then g k else RtoC 0) j = torch_rfft_bwd nm n g' j).
    { intros g' H. rewrite !torch_rfft_bwd_parts by auto. f_equal. apply bsum_ext. intros k Hk. now rewrite (H k Hk). }
    destruct (Nat.ltb_spec (torch_rfft_size n) q).
    + apply E. intros k Hk. destruct (Nat.ltb_spec k q); [auto|lia].
    + destruct (Nat.ltb_spec q (torch_rfft_size n)); [reflexivity|].
      apply E. intros k Hk. destruct (Nat.ltb_spec k q); [auto|lia].
Qed.

Definition twice (n k : nat) : R := if ((1 <=? k) && (k <=? n - torch_rfft_size n))%nat%bool then 2 else 1.
Lemma torch_irfft_parts : forall nm sz n y j, (1 <= n)%nat ->
  torch_irfft nm sz n y j = inv_scale nm n * rsum (torch_rfft_size n) (fun k => twice n k *
    (if (k <? sz)%nat then Re (y k) * cos (2 * PI * INR j * INR k / INR n) - Im (y k) * sin (2 * PI * INR j * INR k / INR n) else 0)).
Proof.
  intros nm sz n y j Hn. unfold torch_irfft. f_equal. rewrite csum_Re. unfold twice, torch_rfft_size.
  rewrite <- rsum_fold by auto. assert (Hn0 : INR n <> 0) by (apply not_0_INR; lia).
  apply bsum_ext. intros k Hk. unfold hermitian. destruct (Nat.leb_spec k (n / 2)).
  - destruct (k <? sz)%nat; cring.
  - replace (2 * PI * INR j * INR (n - k) / INR n) with (- (2 * PI * INR j * INR k / INR n) + 2 * INR j * PI).
    2:{ rewrite minus_INR by lia. field. auto. }
    rewrite cos_period, sin_period, cos_neg, sin_neg.
    destruct (n - k <? sz)%nat; cring.
Qed.
Lemma torch_irfft_bwd_parts : forall nm sz n h k,
  torch_irfft_bwd nm sz n h k = if (k <? torch_rfft_size n)%nat then
    (twice n k * inv_scale nm n * rsum n (fun j => h j * cos (2 * PI * INR j * INR k / INR n)),
     twice n k * inv_scale nm n * rsum n (fun j => - (h j * sin (2 * PI * INR j * INR k / INR n)))) else RtoC 0.
Proof.
  intros. unfold torch_irfft_bwd, twice. destruct (k <? torch_rfft_size n)%nat; auto.
  rewrite (C_surj (csum _ _)), csum_Re, csum_Im.
  destruct ((1 <=? k) && (k <=? n - torch_rfft_size n))%nat%bool; unfold Cmult, RtoC;
    apply C_ext; simpl; ring_simplify; rewrite ?Rmult_1_l; f_equal; apply bsum_ext; intros j _; rewrite ?cos_neg, ?sin_neg; ring.
Qed.

Lemma torch_irfft_adj : forall nm sz n y h, (1 <= n)%nat ->
  rsum n (fun j => torch_irfft nm sz n y j * h j) = rsum sz (fun k => cpair (y k) (torch_irfft_bwd nm sz n h k)).
Proof.
  intros nm sz n y h Hn.
  transitivity (rsum (torch_rfft_size n) (fun k => if (k <? sz)%nat then rsum n (fun j => twice n k * inv_scale nm n *
     (Re (y k) * cos (2 * PI * INR j * INR k / INR n) - Im (y k) * sin (2 * PI * INR j * INR k / INR n)) * h j) else 0)).
  - transitivity (rsum n (fun j => rsum (torch_rfft_size n) (fun k => if (k <? sz)%nat then twice n k * inv_scale nm n *
     (Re (y k) * cos (2 * PI * INR j * INR k / INR n) - Im (y k) * sin (2 * PI * INR j * INR k / INR n)) * h j else 0))).
    + apply bsum_ext. intros j _. rewrite torch_irfft_parts by auto.
      rewrite <- (bsum_scal_l RT), <- (bsum_scal_r RT). apply bsum_ext. intros k _. destruct (k <? sz)%nat; ring.
    + rewrite (bsum_swap RT). apply bsum_ext. intros k _. destruct (k <? sz)%nat; auto. apply (bsum_zero' RT). auto.
  - rewrite rsum_mask. apply bsum_ext. intros k _. rewrite torch_irfft_bwd_parts.
    destruct (k <? torch_rfft_size n)%nat. 2:{ cring. }
    unfold cpair. cbn [Re Im fst snd].
    rewrite <- !(bsum_scal_l RT), <- (bsum_plus RT). apply bsum_ext. intros j _. ring.
Qed.
Lemma irfft_adj : forall nm sz n y h, (1 <= n)%nat ->
  rsum n (fun j => irfft nm (Some n) sz y j * h j) = rsum sz (fun k => cpair (y k) (irfft_bwd nm n sz h k)).
Proof.
  intros nm sz n y h Hn. unfold irfft, irfft_with, irfft_n. rewrite torch_irfft_adj by auto.
  apply bsum_ext. intros k _. unfold cpair, irfft_bwd. cbn [Re Im fst snd]. ring.
Qed.

(** ** One dimension of a tensor *)
Definition pairT {X} (pr : X -> X -> R) (t u : tensor X) : R := isum (shp t) (fun i => pr (val t i) (val u i)).
Lemma along_adjoint : forall X Y (pX : X -> X -> R) (pY : Y -> Y -> R) d n
    (f : list nat -> (nat -> X) -> Y) (f' : list nat -> (nat -> Y) -> X) (t : tensor X) (u : tensor Y),
  (d < ndim t)%nat -> shp u = upd d n (shp t) ->
  (forall i v w, length i = ndim t ->
     rsum n (fun j => pY (f (upd d j i) v) (w j)) = rsum (dimsz t d) (fun k => pX (v k) (f' (upd d k i) w))) ->
  pairT pY (along d n f t) u = pairT pX t (along d (dimsz t d) f' u).
Proof.
  intros X Y pX pY d n f f' t u Hd Hu H. unfold pairT. cbn [shp along].
  rewrite (isum_dim (upd d n (shp t)) d) by (rewrite upd_length; auto).
  rewrite nth_upd_same by auto. rewrite upd_upd_same. rewrite <- isum_rsum.
  rewrite (isum_dim (shp t) d) by auto. rewrite <- isum_rsum. apply isum_ext. intros i Hi.
  assert (Hl : length i = ndim t) by (rewrite (valid_len _ _ Hi), upd_length; auto).
  cbn [val along].
  rewrite (bsum_ext n _ (fun j => pY (f (upd d j i) (fun k => val t (upd d k i))) (val u (upd d j i)))).
  2:{ intros j _. f_equal. unfold along; cbn [val]. f_equal.
      (* the fibre does not depend on the coordinate that is replaced *)
      apply Coq.Logic.FunctionalExtensionality.functional_extensionality. intros k. now rewrite upd_upd_same. }
  rewrite (H i (fun k => val t (upd d k i)) (fun j => val u (upd d j i)) Hl).
  apply bsum_ext. intros k _. f_equal. f_equal.
  apply Coq.Logic.FunctionalExtensionality.functional_extensionality. intros j. now rewrite upd_upd_same.
Qed.

Lemma pairT_cdot : forall t u, pairT cpair t u = cdot t u.
Proof. reflexivity. Qed.
Lemma pairT_dot : forall t u, pairT Rmult t u = dot t u.
Proof. reflexivity. Qed.

Lemma rfft_dim_adjoint : forall mmax nlon d (x : tensor R) (g : tensor C), (1 <= nlon)%nat -> (d < ndim x)%nat -> dimsz x d = nlon ->
  shp g = upd d mmax (shp x) -> cdot (rfft_dim mmax d x) g = dot x (rfft_dim_bwd mmax nlon d g).
Proof.
  intros mmax nlon d x g Hn Hd Hx Hg. subst nlon. rewrite rfft_dim_eq. unfold rfft_dim_bwd. rewrite <- pairT_cdot, <- pairT_dot.
  apply (along_adjoint R C Rmult cpair); auto.
  intros i v w Hi.
  rewrite (bsum_ext mmax _ (fun j => cpair (snd (rfft NForward (Some mmax) (dimsz x d) v) j) (Cmult (RtoC (2 * PI)) (w j)))).
  2:{ intros j _. rewrite nth_upd_same by lia. cring. }
  rewrite rfft_adj by auto. apply bsum_ext. intros j _. rewrite nth_upd_same by lia. reflexivity.
Qed.
Lemma irfft_dim_adjoint : forall mmax nlon d (x : tensor C) (g : tensor R), (1 <= nlon)%nat -> (d < ndim x)%nat -> dimsz x d = mmax ->
  shp g = upd d nlon (shp x) -> dot (irfft_dim nlon d x) g = cdot x (irfft_dim_bwd nlon mmax d g).
Proof.
  intros mmax nlon d x g Hn Hd Hx Hg. subst mmax. unfold irfft_dim, irfft_dim_bwd. rewrite <- pairT_cdot, <- pairT_dot.
  apply (along_adjoint C R cpair Rmult); auto.
  intros i v w Hi.
  rewrite (bsum_ext nlon _ (fun j => irfft NForward (Some nlon) (dimsz x d) v j * w j)).
  2:{ intros j _. now rewrite nth_upd_same by lia. }
  rewrite irfft_adj by auto. apply bsum_ext. intros j _. rewrite nth_upd_same by lia. reflexivity.
Qed.

(** ** The scalar contraction *)
Lemma legK_adjoint : forall w dk dm (x g : tensor C), dk <> dm -> (dk < ndim x)%nat -> dimsz x dk = dimsz w 2 ->
  shp g = upd dk (dimsz w 1) (shp x) -> cdot (legK w dk dm x) g = cdot x (legK (swap12 w) dk dm g).
Proof.
  intros w dk dm x g Hne Hd Hx Hg. unfold legK. rewrite <- !pairT_cdot.
  change (dimsz (swap12 w) 1) with (dimsz w 2). change (dimsz (swap12 w) 2) with (dimsz w 1).
  rewrite <- Hx. apply (along_adjoint C C cpair cpair); auto.
  intros i v u Hi. unfold cpair. cbn [Re Im fst snd swap12 val nth].
  rewrite (bsum_ext (dimsz w 1) _ (fun l => rsum (dimsz x dk) (fun k => (Re (v k) * Re (u l) + Im (v k) * Im (u l)) * val w [nth dm i 0; l; k]%nat))).
  2:{ intros l _. rewrite !nth_upd_same, !nth_upd_other by (auto; lia).
      rewrite <- !(bsum_scal_r RT), <- (bsum_plus RT). apply bsum_ext. intros k _. ring. }
  rewrite (bsum_swap RT). apply bsum_ext. intros k _. rewrite !nth_upd_same, !nth_upd_other by (auto; lia).
  rewrite <- !(bsum_scal_l RT), <- (bsum_plus RT). apply bsum_ext. intros l _. ring.
Qed.

(** ** The vector contraction *)
Definition vswap (w : tensor R) : tensor R :=
  mkT [dimsz w 0; dimsz w 1; dimsz w 3; dimsz w 2]
      (fun i => (if (nth 0 i 0 =? 1)%nat then -1 else 1) * val w [nth 0 i 0; nth 1 i 0; nth 3 i 0; nth 2 i 0]%nat).
Lemma veccontract_bwd_eq : forall w dc dk dm g, ndim w = 4%nat -> dimsz w 1 = dimsz g dm -> dimsz w 2 = dimsz g dk ->
  veccontract_bwd (select0 0 w) (select0 1 w) dc dk dm g = Some (vecK (vswap w) dc dk dm g).
Proof.
  intros w dc dk dm g H4 Hm Hk. unfold veccontract_bwd, einsum_ok.
  change (dimsz (swap12 (select0 0 w)) 0) with (dimsz (select0 0 w) 0).
  change (dimsz (swap12 (select0 1 w)) 0) with (dimsz (select0 1 w) 0).
  change (dimsz (swap12 (select0 0 w)) 2) with (dimsz (select0 0 w) 1).
  change (dimsz (swap12 (select0 1 w)) 2) with (dimsz (select0 1 w) 1).
  rewrite !dimsz_select0, Hm, Hk, !Nat.eqb_refl. cbn [andb ndim swap12 shp length Nat.eqb].
  unfold vecK. change (dimsz (vswap w) 2) with (dimsz w 3). change (dimsz (vswap w) 3) with (dimsz w 2).
  f_equal. f_equal. apply FunctionalExtensionality.functional_extensionality. intros i.
  unfold vcell. rewrite ?dimsz_select0, Hk. cbn [vswap val nth Nat.eqb select0].
  assert (E1 : forall (part : C -> R) c, rsum (dimsz g dk) (fun k => part (val g (upd dc c (upd dk k i))) * (1 * val w [0; nth dm i 0; k; nth dk i 0]%nat)) =
     rsum (dimsz g dk) (fun k => part (val g (upd dc c (upd dk k i))) * val w [0; nth dm i 0; k; nth dk i 0]%nat)).
  { intros. apply bsum_ext. intros. ring. }
  assert (E2 : forall (part : C -> R) c, rsum (dimsz g dk) (fun k => part (val g (upd dc c (upd dk k i))) * (-1 * val w [1; nth dm i 0; k; nth dk i 0]%nat)) =
     - rsum (dimsz g dk) (fun k => part (val g (upd dc c (upd dk k i))) * val w [1; nth dm i 0; k; nth dk i 0]%nat)).
  { intros. replace (- rsum _ _) with (-1 * rsum (dimsz g dk) (fun k => part (val g (upd dc c (upd dk k i))) * val w [1; nth dm i 0; k; nth dk i 0]%nat)) by ring.
    rewrite <- (bsum_scal_l RT). apply bsum_ext. intros. ring. }
  rewrite !E1, !E2. destruct (nth dc i 0 =? 0)%nat; f_equal; ring.
Qed.

Lemma isum_dim2 : forall s dc dk F, dc <> dk -> (dc < length s)%nat -> (dk < length s)%nat ->
  isum s F = isum (upd dc 1 (upd dk 1 s)) (fun i => rsum (nth dk s 0%nat) (fun l => rsum (nth dc s 0%nat) (fun c => F (upd dk l (upd dc c i))))).
Proof.
  intros s dc dk F Hne Hc Hk. rewrite (isum_dim s dk) by auto. rewrite isum_rsum. apply bsum_ext. intros l _.
  rewrite (isum_dim (upd dk 1 s) dc) by (rewrite upd_length; auto). rewrite nth_upd_other by auto. now rewrite isum_rsum.
Qed.

Lemma vcell_parts : forall n w0 w1 c v0 v1 z, cpair (vcell n w0 w1 c v0 v1) z =
  rsum n (fun k => if (c =? 0)%nat
    then (Re (v0 k) * w0 k - Im (v1 k) * w1 k) * Re z + (Im (v0 k) * w0 k + Re (v1 k) * w1 k) * Im z
    else (- (Im (v0 k) * w1 k) - Re (v1 k) * w0 k) * Re z + (Re (v0 k) * w1 k - Im (v1 k) * w0 k) * Im z).
Proof.
  intros. unfold vcell, cpair. destruct (c =? 0)%nat; cbn [Re Im fst snd];
  induction n; simpl; [ring| |ring|]; rewrite <- IHn; ring.
Qed.
Lemma cpair_comm : forall a b, cpair a b = cpair b a.
Proof. intros. unfold cpair. ring. Qed.

Lemma vecK_adjoint : forall w dc dk dm (x g : tensor C), dc <> dk -> dc <> dm -> dk <> dm -> (dc < ndim x)%nat -> (dk < ndim x)%nat ->
  dimsz x dc = 2%nat -> dimsz x dk = dimsz w 3 -> shp g = upd dk (dimsz w 2) (shp x) ->
  cdot (vecK w dc dk dm x) g = cdot x (vecK (vswap w) dc dk dm g).
Proof.
  intros w dc dk dm x g H1 H2 H3 Hc Hk X2 X3 Hg. unfold cdot. cbn [shp vecK].
  rewrite (isum_dim2 (upd dk (dimsz w 2) (shp x)) dc dk) by (auto; rewrite upd_length; auto).
  rewrite (isum_dim2 (shp x) dc dk) by auto.
  rewrite upd_upd_same, nth_upd_same, nth_upd_other by auto. fold (dimsz x dc). fold (dimsz x dk). rewrite X2, X3.
  apply isum_ext. intros i Hi.
  assert (Hl : length i = ndim x) by (rewrite (valid_len _ _ Hi), !upd_length; auto).
  assert (I1 : forall l c, nth dk (upd dk l (upd dc c i)) 0%nat = l) by (intros; apply nth_upd_same; rewrite upd_length; lia).
  assert (I2 : forall l c, nth dm (upd dk l (upd dc c i)) 0%nat = nth dm i 0%nat) by (intros; now rewrite !nth_upd_other by auto).
  assert (I3 : forall l c, nth dc (upd dk l (upd dc c i)) 0%nat = c) by (intros; rewrite nth_upd_other by auto; apply nth_upd_same; lia).
  set (a := fun c k => val x (upd dk k (upd dc c i))). set (b := fun c l => val g (upd dk l (upd dc c i))).
  rewrite (bsum_ext (dimsz w 2) _ (fun l => rsum 2 (fun c => cpair (vcell (dimsz w 3)
     (fun k => val w [0; nth dm i 0; l; k]%nat) (fun k => val w [1; nth dm i 0; l; k]%nat) c (a 0%nat) (a 1%nat)) (b c l)))).
  2:{ intros l _. apply bsum_ext. intros c _. f_equal. cbn [val vecK].
      rewrite !I1, !I2, !I3.
      apply vcell_ext. intros k _. unfold a.
      repeat split; auto; f_equal; rewrite upd_upd_same, (upd_comm dc dk), upd_upd_same by auto; auto. }
  rewrite (bsum_ext (dimsz w 3) (fun k => rsum 2 (fun c => cpair (val x (upd dk k (upd dc c i))) _)) (fun k => rsum 2 (fun c => cpair (vcell (dimsz w 2)
     (fun l => 1 * val w [0; nth dm i 0; l; k]%nat) (fun l => -1 * val w [1; nth dm i 0; l; k]%nat) c (b 0%nat) (b 1%nat)) (a c k)))).
  2:{ intros k _. apply bsum_ext. intros c _. rewrite cpair_comm. f_equal. cbn [val vecK].
      rewrite !I1, !I2, !I3.
      change (dimsz (vswap w) 3) with (dimsz w 2).
      apply vcell_ext. intros l _. unfold b. cbn [vswap val nth Nat.eqb].
      repeat split; auto; f_equal; rewrite upd_upd_same, (upd_comm dc dk), upd_upd_same by auto; auto. }
  clearbody a b. cbn [bsum_].
  rewrite (bsum_ext (dimsz w 2) _ (fun l => rsum (dimsz w 3) (fun k =>
     (Re (a 0%nat k) * Re (b 0%nat l) + Im (a 0%nat k) * Im (b 0%nat l) - Re (a 1%nat k) * Re (b 1%nat l) - Im (a 1%nat k) * Im (b 1%nat l)) * val w [0; nth dm i 0; l; k]%nat +
     (Re (a 1%nat k) * Im (b 0%nat l) - Im (a 1%nat k) * Re (b 0%nat l) + Re (a 0%nat k) * Im (b 1%nat l) - Im (a 0%nat k) * Re (b 1%nat l)) * val w [1; nth dm i 0; l; k]%nat))).
  2:{ intros l _. rewrite !vcell_parts. cbn [Nat.eqb]. rewrite Rplus_0_l, <- (bsum_plus RT). apply bsum_ext. intros k _. ring. }
  rewrite (bsum_swap RT). apply bsum_ext. intros k _.
  rewrite !vcell_parts. cbn [Nat.eqb]. rewrite Rplus_0_l, <- (bsum_plus RT). apply bsum_ext. intros l _. ring.
Qed.
