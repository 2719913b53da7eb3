(** The neighbourhoods of NeighborhoodAttentionS2. *)
From Coq Require Import List Arith ZArith Lia Bool Reals Lra Sorted.
From Verif Require Import TensorModel TensorProofs BigSum ResampleModel ResampleProofs TruncModel QuadModel QuadProofs DiscoModel DiscoSpec FilterModel FilterSpec FilterProofs FilterApiProofs PsiModel PsiSpec PsiGeoProofs PsiProofs PsiPreProofs PsiLayerProofs PsiUseProofs AttnSpec AttnPropProofs.
Import ListNotations.
Local Open Scope R_scope.

Lemma lon_shift : forall W V x j, (1 <= W)%nat -> (1 <= V)%nat -> (W mod V = 0)%nat -> cos (lon W ((x + W / V * j) mod W) - lon V j) = cos (lon W x - 0).
Proof.
  intros W V x j HW HV D. assert (0 < INR W) by (apply lt_0_INR; lia). assert (0 < INR V) by (apply lt_0_INR; lia).
  pose proof (Nat.div_mod (x + W / V * j) W ltac:(lia)) as E. set (k := ((x + W / V * j) / W)%nat) in *. set (y := ((x + W / V * j) mod W)%nat) in *.
  assert (EW : W = (V * (W / V))%nat) by (apply Nat.div_exact; lia).
  assert (L : lon W y = lon W x + lon V j - 2 * INR k * PI).
  { apply (f_equal INR) in E. rewrite !plus_INR, !mult_INR in E. apply (f_equal INR) in EW. rewrite mult_INR in EW. unfold lon. assert (Q : INR (W / V) = INR W / INR V) by (rewrite EW; field; lra). rewrite Q in E.
    replace (INR y) with (INR x + INR W / INR V * INR j - INR W * INR k) by lra. field. lra. }
  rewrite L, Rminus_0_r. replace (lon W x + lon V j - 2 * INR k * PI - lon V j) with (lon W x - 2 * INR k * PI) by ring. rewrite <- (cos_period (lon W x - 2 * INR k * PI) k). f_equal. ring.
Qed.
Lemma shift_inv : forall W s y, (1 <= W)%nat -> (y < W)%nat -> exists x, (x < W)%nat /\ ((x + s) mod W = y)%nat.
Proof.
  intros W s y HW Hy. exists ((y + (W - s mod W)) mod W)%nat. split; [apply Nat.mod_upper_bound; lia|]. rewrite Nat.add_mod_idemp_l by lia. pose proof (Nat.mod_upper_bound s W ltac:(lia)). pose proof (Nat.div_mod s W ltac:(lia)) as E.
  symmetry. apply Nat.mod_unique with (s / W + 1)%nat; auto. nia.
Qed.
Lemma shift_inj : forall W s x y, (1 <= W)%nat -> (x < W)%nat -> (y < W)%nat -> ((x + s) mod W = (y + s) mod W)%nat -> x = y.
Proof.
  intros W s x y HW Hx Hy E. pose proof (Nat.div_mod (x + s) W ltac:(lia)) as E1. pose proof (Nat.div_mod (y + s) W ltac:(lia)) as E2. rewrite E in E1.
  set (a := ((x + s) / W)%nat) in *. set (b := ((y + s) / W)%nat) in *. assert (a = b) by nia. nia.
Qed.

(** a pattern whose row t lists the grid points within rc of (tb t, 0) *)
Definition within (P : pattern) (H W n : nat) (ta tb : nat -> R) (rc : R) : Prop :=
  pattern_ok P n (H * W) /\ forall t, (t < n)%nat -> NoDup (nth t P []) /\ forall i j, (i < H)%nat -> (j < W)%nat -> (In (i * W + j)%nat (nth t P []) <-> gcdist (ta i, lon W j) (tb t, 0) <= rc).
Lemma rotated_spec : forall P H W n V ta tb rc, within P H W n ta tb rc -> (1 <= W)%nat -> (1 <= V)%nat -> (W mod V = 0)%nat -> forall t j, (t < n)%nat ->
  NoDup (rotated P W V t j) /\ forall p, In p (rotated P W V t j) <-> (fst p < H)%nat /\ (snd p < W)%nat /\ gcdist (ta (fst p), lon W (snd p)) (tb t, lon V j) <= rc.
Proof.
  intros P H W n V ta tb rc ((LP & PO) & A) HW HV D t j T. destruct (A t T) as (ND & I). assert (C : forall c, In c (nth t P []) -> (c < H * W)%nat). { intros c Ic. eapply PO; [|exact Ic]. apply nth_In. lia. }
  assert (CD : forall c, (c < H * W)%nat -> (c / W < H)%nat /\ (c mod W < W)%nat /\ (c = c / W * W + c mod W)%nat).
  { intros c Hc. split; [apply Nat.div_lt_upper_bound; lia|]. split; [apply Nat.mod_upper_bound; lia|]. pose proof (Nat.div_mod c W ltac:(lia)). lia. }
  split.
  - unfold rotated. clear I. revert ND C. generalize (nth t P []). induction l as [|c l IH]; intros ND C; cbn [map]; constructor.
    + intros I. apply in_map_iff in I. destruct I as (c' & E & I). assert (E1 : (c' / W = c / W)%nat) by congruence. assert (E2 : ((c' mod W + W / V * j) mod W = (c mod W + W / V * j) mod W)%nat) by congruence.
      apply shift_inj in E2; try (apply Nat.mod_upper_bound; lia); try lia. destruct (CD c (C c (or_introl eq_refl))) as (_ & _ & X). destruct (CD c' (C c' (or_intror I))) as (_ & _ & X'). rewrite E1, E2, <- X in X'. subst. inversion ND; auto.
    + apply IH. inversion ND; auto. intros; apply C; right; auto.
  - intros (i, x). cbn [fst snd]. unfold rotated. rewrite in_map_iff. split.
    + intros (c & E & Ic). assert (E1 : (c / W)%nat = i) by congruence. assert (E2 : ((c mod W + W / V * j) mod W)%nat = x) by congruence. destruct (CD c (C c Ic)) as (X1 & X2 & X3). rewrite <- E1, <- E2. split; [auto|]. split; [apply Nat.mod_upper_bound; lia|].
      rewrite (gcdist_lon _ _ _ _ (lon W (c mod W)) 0); [apply I; auto; rewrite <- X3; auto|]. apply lon_shift; auto.
    + intros (Hh & Hx & Dd). destruct (shift_inv W (W / V * j) x HW Hx) as (y & Hy & E). exists (i * W + y)%nat. assert (E1 : ((i * W + y) / W = i)%nat) by (symmetry; apply Nat.div_unique with y; lia). assert (E2 : ((i * W + y) mod W = y)%nat) by (symmetry; apply Nat.mod_unique with i; lia). rewrite E1, E2, E. split; [auto|].
      apply I; auto. rewrite <- (gcdist_lon (ta i) (lon W x) (tb t) (lon V j) (lon W y) 0); auto. rewrite <- E. apply lon_shift; auto.
Qed.
Lemma nodup_filter_len : forall (l : list (nat * nat)) p, NoDup l -> (length (filter (pt_eqb p) l) <= 1)%nat.
Proof.
  induction l as [|x l IH]; intros p ND; cbn; [lia|]. inversion ND; subst. destruct (pt_eqb p x) eqn:E; auto. cbn [length]. assert (Z : filter (pt_eqb p) l = []); [|rewrite Z; cbn; lia].
  assert (p = x). { unfold pt_eqb in E. apply andb_prop in E. destruct E as (E1 & E2). apply Nat.eqb_eq in E1, E2. destruct p, x. cbn in *. congruence. } subst.
  destruct (filter (pt_eqb x) l) as [|y m] eqn:F; auto. exfalso. assert (In y (filter (pt_eqb x) l)) by (rewrite F; left; auto). apply filter_In in H. destruct H as (I & E'). unfold pt_eqb in E'. apply andb_prop in E'. destruct E' as (E1 & E2). apply Nat.eqb_eq in E1, E2. destruct x, y. cbn in *. subst. auto.
Qed.
Lemma pt_eqb_spec : forall p q, pt_eqb p q = true <-> p = q.
Proof. intros (a, b) (c, d). unfold pt_eqb. cbn. rewrite andb_true_iff, !Nat.eqb_eq. split; [intros (-> & ->); auto|intros E; injection E; auto]. Qed.
Theorem nbrs_within : forall P Hi Wi Ho Wo ti tO rc, (1 <= Wi)%nat -> (1 <= Wo)%nat ->
  (if (Wi mod Wo =? 0)%nat then within P Hi Wi Ho ti tO rc else (Wo mod Wi = 0)%nat /\ within P Ho Wo Hi tO ti rc) ->
  forall ho wo, (ho < Ho)%nat -> (wo < Wo)%nat -> NoDup (nbrs P Hi Wi Wo ho wo) /\
    forall p, In p (nbrs P Hi Wi Wo ho wo) <-> (fst p < Hi)%nat /\ (snd p < Wi)%nat /\ gcdist (ti (fst p), lon Wi (snd p)) (tO ho, lon Wo wo) <= rc.
Proof.
  intros P Hi Wi Ho Wo ti tO rc HWi HWo A ho wo Hh Hw. unfold nbrs. destruct (Nat.eqb_spec (Wi mod Wo) 0) as [D|N].
  - unfold nbrs_gather. apply (rotated_spec P Hi Wi Ho Wo ti tO rc); auto.
  - destruct A as (D & A). pose proof (fun t j => rotated_spec P Ho Wo Hi Wi tO ti rc A HWo HWi D t j) as RS.
    assert (IN : forall p, In p (nbrs_scatter P Hi Wi Wo ho wo) <-> (fst p < Hi)%nat /\ (snd p < Wi)%nat /\ gcdist (ti (fst p), lon Wi (snd p)) (tO ho, lon Wo wo) <= rc).
    { intros (hi, wi). cbn [fst snd]. unfold nbrs_scatter. rewrite in_flat_map. split.
      - intros (hi' & I1 & I). apply in_flat_map in I. destruct I as (wi' & I2 & I). apply in_map_iff in I. destruct I as (x & E & I). assert (hi' = hi) by congruence. assert (wi' = wi) by congruence. subst. apply in_seq in I1, I2. apply filter_In in I. destruct I as (I & E'). apply pt_eqb_spec in E'. subst x.
        split; [lia|]. split; [lia|]. rewrite gcdist_sym. apply (RS hi wi ltac:(lia)) in I. apply I.
      - intros (a & b & d). exists hi. split; [apply in_seq; lia|]. apply in_flat_map. exists wi. split; [apply in_seq; lia|]. apply in_map_iff. exists (ho, wo). split; auto. apply filter_In. split; [|apply pt_eqb_spec; auto]. apply (RS hi wi a). cbn [fst snd]. rewrite gcdist_sym. auto. }
    split; [|exact IN]. unfold nbrs_scatter. apply NoDup_flat_map; [apply seq_NoDup| |].
    + intros hi I1. apply in_seq in I1. apply NoDup_flat_map; [apply seq_NoDup| |].
      * intros wi I2. destruct (RS hi wi ltac:(lia)) as (ND & _). pose proof (nodup_filter_len _ (ho, wo) ND) as L. destruct (filter _ _) as [|x [|y m]]; cbn in *; [constructor| |lia]. constructor; [intros []|constructor].
      * intros wi wi' b _ _ J J'. apply in_map_iff in J, J'. destruct J as (? & <- & _), J' as (? & E & _). congruence.
    + intros hi hi' b _ _ J J'. apply in_flat_map in J, J'. destruct J as (w1 & _ & J), J' as (w2 & _ & J'). apply in_map_iff in J, J'. destruct J as (? & <- & _), J' as (? & E & _). congruence.
Qed.

(** ** The constructor *)
Lemma zk1 : forall fb, zk_basis (KInt 1) = Some fb -> basis_of fb (zk_fun 1) /\ basis_full fb /\ fb_size fb = 1%nat.
Proof. intros fb E. destruct (zk_basis_of (KInt 1) 1 fb (or_introl eq_refl) ltac:(cbn [INR]; lra) E) as (A & B & _ & C). auto. Qed.
Lemma built_within : forall gl Hi Wi Ho Wo fb f gi go c tr mode merge es' roff qi qo es, (1 <= Wi)%nat -> built gl Hi Wi Ho Wo fb f gi go c tr mode merge es' roff qi qo es -> basis_full fb -> fb_size fb = 1%nat ->
  exists P, roff = offsets 0 P /\ map col es' = columns P /\ within P Hi Wi Ho (rn qi) (rn qo) ((1 + 1 / 1000) * c).
Proof.
  intros gl Hi Wi Ho Wo fb f gi go c tr mode merge es' roff qi qo es HW [Hqi Hqo (ND & SA & _) CO RS IX _ (P & E1 & E2 & LP & NP)] F K1. exists P. split; [auto|]. split; [auto|]. split; [split; [auto|]|].
  - intros r x Ir Ix. destruct (In_nth P r [] Ir) as (t & T & <-). rewrite NP in Ix by lia. apply in_map_iff in Ix. destruct Ix as (e & <- & I). apply filter_In in I. apply (SA e (proj1 I)).
  - intros t T. rewrite NP by auto. split.
    + assert (SA' : forall e, In e es -> ker e = 0%nat) by (intros e I; destruct (SA e I) as (a & _); lia). clear -ND SA'. induction es as [|e l IH]; cbn [filter map]; [constructor|]. cbn [map] in ND. inversion ND; subst. assert (IH' : NoDup (map col (filter (fun e => row e =? t)%nat l))) by (apply IH; auto; intros; apply SA'; right; auto).
      destruct (Nat.eqb_spec (row e) t) as [E|N]; auto. cbn [map]. constructor; auto. intros I. apply in_map_iff in I. destruct I as (e' & Ec & I). apply filter_In in I. destruct I as (I & Er). apply Nat.eqb_eq in Er. apply H1. apply in_map_iff. exists e'. split; auto. unfold index. rewrite (SA' e (or_introl eq_refl)), (SA' e' (or_intror I)). congruence.
    + intros i j Hh Hw. assert (DM : ((i * Wi + j) / Wi = i /\ (i * Wi + j) mod Wi = j)%nat) by (split; [symmetry; apply Nat.div_unique with j; lia|symmetry; apply Nat.mod_unique with i; lia]). destruct DM as (D1 & D2). split.
      * intros I. apply in_map_iff in I. destruct I as (e & Ec & I). apply filter_In in I. destruct I as (I & Er). apply Nat.eqb_eq in Er. destruct (SA e I) as (_ & _ & _ & r & phi & (PA & _) & Hr & _). rewrite Ec, D1, D2, Er in PA. rewrite <- PA. auto.
      * intros D. specialize (CO F 0%nat t i j ltac:(lia) T Hh Hw D). apply in_map_iff in CO. destruct CO as (e & E & I). unfold index in E. apply in_map_iff. exists e. split; [congruence|]. apply filter_In. split; auto. apply Nat.eqb_eq. congruence.
Qed.
Theorem na_neighbours : forall gl Hi Wi Ho Wo gi go cut quad cols roff, na_pattern gl Hi Wi Ho Wo gi go cut = Some (quad, cols, roff) ->
  exists c qi qo P, 0 < c /\ (forall x, cut = Some x -> c = x) /\ (cut = None -> c = PI / (INR (if (Wi mod Wo =? 0)%nat then Ho else Hi) - 1)) /\
    precompute_latitudes gl Hi gi = Some qi /\ precompute_latitudes gl Ho go = Some qo /\ cols = columns P /\ roff = offsets 0 P /\
    (1 <= Wi)%nat /\ (1 <= Wo)%nat /\ (Wi mod Wo = 0 \/ Wo mod Wi = 0)%nat /\ (if (Wi mod Wo =? 0)%nat then pattern_ok P Ho (Hi * Wi) else pattern_ok P Hi (Ho * Wo)) /\
    (forall i, quad i = 2 * PI * rw qi i / INR Wi) /\
    (forall ho wo, (ho < Ho)%nat -> (wo < Wo)%nat -> NoDup (nbrs P Hi Wi Wo ho wo) /\
      forall p, In p (nbrs P Hi Wi Wo ho wo) <-> (fst p < Hi)%nat /\ (snd p < Wi)%nat /\ gcdist (rn qi (fst p), lon Wi (snd p)) (rn qo ho, lon Wo wo) <= (1 + 1 / 1000) * c) /\
    ((Wi mod Wo = 0)%nat -> forall ho wo, (ho < Ho)%nat -> (wo < Wo)%nat -> nbrs P Hi Wi Wo ho wo <> []).
Proof.
  intros gl Hi Wi Ho Wo gi go cut quad cols roff H. unfold na_pattern in H. apply bindo_some in H. destruct H as (u & G & H). apply guard_some in G. apply andb_prop in G. destruct G as (HWi & HWo). apply Nat.leb_le in HWi, HWo.
  apply bindo_some in H. destruct H as (u1 & G & H). apply guard_some in G. apply bindo_some in H. destruct H as (c & Hc & H). apply bindo_some in H. destruct H as (u2 & G2 & H). apply guard_some in G2. apply Rltb_true in G2.
  apply bindo_some in H. destruct H as (q & Eq & H). apply bindo_some in H. destruct H as (fb & Ef & H). destruct (zk1 fb Ef) as (B & F & K1). apply bindo_some in H. destruct H as ((es', ro) & HP & H). cbn [fst snd] in H. injection H as <- <- <-.
  assert (UP : na_upsample Wi Wo = negb (Wi mod Wo =? 0)%nat /\ (Wi mod Wo = 0 \/ Wo mod Wi = 0)%nat).
  { unfold na_upsample in *. destruct (Nat.eqb_spec (Wi mod Wo) 0), (Nat.eqb_spec (Wo mod Wi) 0); cbn in *; auto; discriminate. } destruct UP as (UP & DV). rewrite UP in *. clear UP G.
  assert (CC : (forall x, cut = Some x -> c = x) /\ (cut = None -> c = PI / (INR (if (Wi mod Wo =? 0)%nat then Ho else Hi) - 1))).
  { split; [intros x ->; cbn in Hc; congruence|]. intros ->. cbn in Hc. apply bindo_some in Hc. destruct Hc as (? & _ & Hc). injection Hc as <-. destruct (Wi mod Wo =? 0)%nat; reflexivity. }
  destruct CC as (C1 & C2). destruct (Nat.eqb_spec (Wi mod Wo) 0) as [D|N]; cbn [negb] in *.
  - destruct (built_spec _ _ _ _ _ _ (zk_fun 1) _ _ _ _ _ _ _ _ HWi G2 B HP) as (qi & qo & es & BU). destruct (built_within _ _ _ _ _ _ _ _ _ _ _ _ _ _ _ _ _ _ HWi BU F K1) as (P & P1 & P2 & PW). assert (qi = q) by (pose proof (bu_i _ _ _ _ _ _ _ _ _ _ _ _ _ _ _ _ _ _ BU) as X; congruence). subst qi.
    assert (NB : forall ho wo, (ho < Ho)%nat -> (wo < Wo)%nat -> NoDup (nbrs P Hi Wi Wo ho wo) /\ forall p, In p (nbrs P Hi Wi Wo ho wo) <-> (fst p < Hi)%nat /\ (snd p < Wi)%nat /\ gcdist (rn q (fst p), lon Wi (snd p)) (rn qo ho, lon Wo wo) <= (1 + 1 / 1000) * c).
    { apply nbrs_within; auto. rewrite D. cbn [Nat.eqb]. exact PW. }
    exists c, q, qo, P. split; [auto|]. split; [auto|]. split; [auto|]. split; [auto|]. split; [apply (bu_o _ _ _ _ _ _ _ _ _ _ _ _ _ _ _ _ _ _ BU)|]. split; [auto|]. split; [auto|]. split; [auto|]. split; [auto|]. split; [auto|]. split; [apply PW|]. split; [reflexivity|]. split; [exact NB|].
    intros _ ho wo Hh Hw E. 
    (* the basis would have raised *)
    unfold precompute_psi in HP. rewrite Eq in HP. cbn [bindo] in HP. rewrite (bu_o _ _ _ _ _ _ _ _ _ _ _ _ _ _ _ _ _ _ BU) in HP. cbn [bindo] in HP. apply bindo_some in HP. destruct HP as (rows & Er & _). destruct (rows_flat _ _ _ _ _ _ _ _ Er) as (_ & RL). specialize (RL ho ltac:(apply in_seq; lia)). unfold psi_row in RL. apply bindo_some in RL. destruct RL as (s & Hs & _).
    destruct (zk_api (fun _ _ => 0) (fun _ _ => []) (KInt 1) 1 (or_introl eq_refl)) as (fb' & E' & _ & _ & _ & _ & NO). cbn [get_filter_basis] in E'. rewrite Ef in E'. injection E' as <-.
    assert (X : fb_support fb Hi Wi (fun i j => g_theta (rn q i) (precompute_longitudes Wi j) (rn qo ho)) (fun i j => g_phi (rn q i) (precompute_longitudes Wi j) (rn qo ho)) ((1 + 1 / 1000) * c) = None).
    { apply NO. right. intros i j Hi' Hj'. rewrite longitudes_lon by auto. destruct (g_polar (rn q i) (lon Wi j) (rn qo ho)) as (-> & _). apply Rnot_le_lt. intros L.
      assert (PW' : In (i * Wi + j)%nat (nth ho P [])) by (apply PW; auto). unfold nbrs in E. rewrite D in E. cbn [Nat.eqb] in E. unfold nbrs_gather, rotated in E. destruct (nth ho P []); [destruct PW'|discriminate]. }
    rewrite X in Hs. discriminate.
  - assert (D : (Wo mod Wi = 0)%nat) by tauto. destruct (built_spec _ _ _ _ _ _ (zk_fun 1) _ _ _ _ _ _ _ _ HWo G2 B HP) as (qo & qi & es & BU). destruct (built_within _ _ _ _ _ _ _ _ _ _ _ _ _ _ _ _ _ _ HWo BU F K1) as (P & P1 & P2 & PW). assert (qi = q) by (pose proof (bu_o _ _ _ _ _ _ _ _ _ _ _ _ _ _ _ _ _ _ BU) as X; congruence). subst qi.
    exists c, q, qo, P. split; [auto|]. split; [auto|]. split; [auto|]. split; [auto|]. split; [apply (bu_i _ _ _ _ _ _ _ _ _ _ _ _ _ _ _ _ _ _ BU)|]. split; [auto|]. split; [auto|]. split; [auto|]. split; [auto|]. split; [auto|]. split; [apply PW|]. split; [reflexivity|]. split; [|intros; contradiction].
    apply nbrs_within; auto. rewrite (proj2 (Nat.eqb_neq _ _)) by auto. split; auto.
Qed.
