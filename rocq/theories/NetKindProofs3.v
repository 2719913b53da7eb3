(** Kinds of the constructed networks: U-Net and Segformer. *)
From Coq Require Import String List Arith Lia Bool Reals ZArith Lra.
From Coquelicot Require Import Coquelicot.
From Verif Require Import TensorModel TensorProofs BigSum TruncModel QuadModel FFTModel SHTModel SHTSpec SHTValueProofs ResampleModel FilterModel DiscoModel PsiModel PsiProofs AttnModel AttnLayerModel
  NetModel NetModels NetSpec NetParProofs NetLayerProofs NetLayerProofs2 NetLayerProofs4 NetReadyProofs NetReachProofs NetKindProofs NetKindProofs2.
Import ListNotations.
Local Open Scope list_scope.
Local Open Scope nat_scope.

Lemma mapM_app : forall (A B : Type) (f : A -> option B) l1 l2 r, mapM f (l1 ++ l2) = Some r -> exists r1 r2, mapM f l1 = Some r1 /\ mapM f l2 = Some r2 /\ r = r1 ++ r2.
Proof.
  intros A B f. induction l1; intros l2 r H; cbn [app mapM] in *. { exists [], r. auto. }
  bind H b0 Hb. bind H r' Hr. injection H as <-. destruct (IHl1 _ _ Hr) as (r1 & r2 & -> & H2 & ->). exists (b0 :: r1), r2. rewrite Hb. auto.
Qed.
Lemma combine_snoc : forall (A : Type) (l : list A) b a, List.combine (seq a (length (l ++ [b]))) (l ++ [b]) = List.combine (seq a (length l)) l ++ [(a + length l, b)].
Proof. intros A. induction l; intros b k; cbn [app length seq List.combine]. rewrite Nat.add_0_r. reflexivity. rewrite IHl. cbn [app]. do 4 f_equal. lia. Qed.

Section Built.
Variables (E : env) (S : state) (strict : bool) (nn : nat) (Q : Prop).
Notation good := (good E nn Q).
Notation gok := (gok E nn).
Notation fits := (seqrun (fit strict)).
Lemma typed : forall g t, (strict = true -> g_type g = t) -> same_grid strict (mkG (g_nlat g) (g_nlon g) t) g = true /\ same_grid strict g (mkG (g_nlat g) (g_nlon g) t) = true.
Proof. intros g t H. unfold same_grid. cbn [g_nlat g_nlon g_type]. rewrite !Nat.eqb_refl. destruct strict; cbn; auto. rewrite H by auto. rewrite same_type_refl. auto. Qed.
Lemma kadd_typed : forall c g t, (strict = true -> g_type g = t) -> kadd strict (mkK c g) (mkK c (mkG (g_nlat g) (g_nlon g) t)) = Some (mkK c g).
Proof. intros c g t H. unfold kadd. cbn [k_ch k_g]. rewrite Nat.eqb_refl. rewrite (proj2 (typed _ _ H)). reflexivity. Qed.

(** ** U-Net *)
Lemma down_convs_kind : forall ix gi gt ci co ks b a n i ls, gok gi -> (strict = true -> g_type gi = gt) -> (Q -> g_type gi = gt /\ full_kernel ks b) -> down_convs E S ix gi gt ci co ks b a i n = Some ls ->
  forall g, same_grid strict (mkG (g_nlat gi) (g_nlon gi) gt) g = true ->
  List.Forall good ls /\ fits ls (mkK (if i =? 0 then ci else co) g) = Some (match n with 0 => mkK (if i =? 0 then ci else co) g | _ => mkK co (mkG (g_nlat gi) (g_nlon gi) gt) end).
Proof.
  intros ix gi gt ci co ks b a. induction n; intros i ls G T HQ H g SG; cbn [down_convs] in H.
  - injection H as <-. split; [constructor|reflexivity].
  - bind H c Hc. bind H l Hl. bind H r Hr. injection H as <-. pose proof (gok_w _ _ _ G) as W.
    destruct (disco_kind E S strict nn Q _ _ _ _ _ _ _ _ _ _ _ _ _ _ g Hc Hl W (proj2 G) (proj2 G)) as (A1 & A2).
    { intros q. destruct (HQ q) as (T0 & FK). rewrite <- T0. replace (mkG (g_nlat gi) (g_nlon gi) (g_type gi)) with gi by (destruct gi; reflexivity). eapply self_reach; [eassumption|eassumption| |eassumption]. apply (gok_h _ _ _ G). } { exact SG. }
    destruct (IHn _ _ G T HQ Hr (mkG (g_nlat gi) (g_nlon gi) gt) (same_grid_refl strict _)) as (B1 & B2).
    split. { constructor; auto. constructor; [apply batch_good|]. constructor; [apply act_good|auto]. }
    cbn [seqrun]. rewrite A2. cbn [bindo]. rewrite batch_kind. cbn [bindo fit]. replace (i + 1 =? 0) with false in B2 by (symmetry; apply Nat.eqb_neq; lia). rewrite B2. destruct n; reflexivity.
Qed.
Lemma skip_kind : forall name ix ci co (ts : bool) g, List.Forall good (if ts || negb (ci =? co) then [conv1 S name ix ci co true] else []) /\
  fits (if ts || negb (ci =? co) then [conv1 S name ix ci co true] else []) (mkK ci g) = Some (mkK co g).
Proof.
  intros name ix ci co ts g. destruct (ts || negb (ci =? co)) eqn:B0.
  - split; [constructor; [apply conv1_good|constructor]|]. cbn [seqrun]. rewrite conv1_kind. reflexivity.
  - apply orb_false_elim in B0. destruct B0 as (_ & B0). apply negb_false_iff, Nat.eqb_eq in B0. subst. split; [constructor|reflexivity].
Qed.
Lemma dblock_kind : forall ix gi go ci co nrep ks b a ts mode d, gok gi -> gok go -> 1 <= nrep -> (strict = true -> g_type gi = g_type go) -> (Q -> g_type gi = GEquiangular /\ g_type go = GEquiangular /\ full_kernel ks b) ->
  dblock_init E S ix gi go ci co nrep ks b a ts mode = Some d ->
  (db_in d = gi /\ db_out d = go /\ db_cin d = ci /\ db_cout d = co) /\ List.Forall good (dblock_layers d) /\ dblock_forward (fit strict) (kadd strict) d (mkK ci gi) = Some (mkK co go).
Proof.
  intros ix gi go ci co nrep ks b a ts mode d Gi Go Hn T HQ H. unfold dblock_init in H. bind H fw Hf. bind H dn Hd. injection H as <-. pose proof (gok_w _ _ _ Gi) as W.
  destruct (down_convs_kind _ _ _ _ _ _ _ _ _ _ _ Gi T (fun q => conj (eq_trans (proj1 (HQ q)) (eq_sym (proj1 (proj2 (HQ q))))) (proj2 (proj2 (HQ q)))) Hf gi (proj1 (typed _ _ T))) as (F1 & F2). cbn [Nat.eqb] in F2. destruct nrep; [lia|].
  assert (D0 : good dn /\ fit strict dn (mkK co gi) = Some (mkK co go)).
  { destruct mode. - bind Hd c Hc. eapply disco_kind; eauto; [apply Gi|apply Go| |apply same_grid_refl]. intros q. destruct (HQ q) as (Q1 & Q2 & Q3). eapply pole_reach; [eassumption|eassumption|eassumption|eassumption|eassumption| |eassumption]. first [apply (gok_h _ _ _ Gi) | apply (gok_h _ _ _ Go)]. - eapply resampling_kind; eauto. }
  destruct D0 as (D1 & D2). destruct (skip_kind "dblocks.{}.transform_skip" ix ci co ts gi) as (S1 & S2).
  split; [cbn; auto|]. split.
  - unfold dblock_layers. cbn [db_skip db_fwd db_down]. apply List.Forall_app; split; [exact S1|]. apply List.Forall_app; split; [auto|]. constructor; [auto|constructor].
  - unfold dblock_forward. cbn [db_skip db_fwd db_down]. rewrite S2. cbn [bindo]. rewrite F2. cbn [bindo]. rewrite kadd_typed by auto. cbn [bindo]. exact D2.
Qed.
Lemma ublock_kind : forall ix gi go ci co ks b a ts mode u, gok gi -> gok go -> (strict = true -> g_type gi = g_type go) -> (Q -> g_type gi = GEquiangular /\ g_type go = GEquiangular /\ full_kernel ks b) ->
  ublock_init E S ix gi go ci co ks b a ts mode = Some u ->
  List.Forall good (ublock_layers u) /\ ublock_forward (fit strict) (kadd strict) u (mkK ci gi) = Some (mkK co go).
Proof.
  intros ix gi go ci co ks b a ts mode u Gi Go T HQ H. unfold ublock_init in H. bind H up0 Hu. bind H c Hc. bind H l Hl. injection H as <-. pose proof (gok_w _ _ _ Gi) as W. pose proof (gok_w _ _ _ Go) as W'.
  destruct (disco_kind E S strict nn Q _ _ _ _ _ _ _ _ _ _ _ _ _ _ gi Hc Hl W (proj2 Gi) (proj2 Gi) (fun q => self_reach _ _ _ _ _ _ _ Gi (proj2 (proj2 (HQ q))) (gok_h _ _ _ Gi) Hc) (same_grid_refl strict _)) as (A1 & A2). destruct (skip_kind "ublocks.{}.transform_skip" ix ci co ts gi) as (S1 & S2).
  assert (U0 : List.Forall good up0 /\ fits up0 (mkK co gi) = Some (mkK co go)).
  { destruct (same_shape gi go) eqn:SS; cbn [negb] in Hu.
    - bind Hu c' Hc'. bind Hu l' Hl'. injection Hu as <-. destruct (disco_kind E S strict nn Q _ _ _ _ _ _ _ _ _ _ _ _ _ _ gi Hc' Hl' W (proj2 Gi) (proj2 Gi)) as (B1 & B2).
      { intros q. destruct (HQ q) as (Q1 & Q2 & Q3). rewrite Q2. rewrite <- Q1. replace (mkG (g_nlat gi) (g_nlon gi) (g_type gi)) with gi by (destruct gi; reflexivity). eapply self_reach; [eassumption|eassumption| |eassumption]. apply (gok_h _ _ _ Gi). } { apply same_grid_refl. }
      split; [constructor; [auto|constructor]|]. cbn [seqrun]. rewrite B2. cbn [bindo]. unfold same_shape in SS. apply andb_prop in SS. destruct SS as (X1 & X2). apply Nat.eqb_eq in X1, X2. rewrite X1, X2. destruct go; reflexivity.
    - destruct mode.
      + bind Hu c' Hc'. bind Hu t Ht. bind Hu l' Hl'. injection Hu as <-. destruct (tdisco_kind E S strict nn Q _ _ _ _ _ _ _ _ _ _ _ _ _ _ gi Hc' Ht W' (proj2 Gi) (proj2 Go)) as (B1 & B2).
        { intros q. destruct (HQ q) as (Q1 & Q2 & Q3). eapply (pole_reach E nn go gi); [eassumption|eassumption|eassumption|eassumption|eassumption| |eassumption]. first [apply (gok_h _ _ _ Gi) | apply (gok_h _ _ _ Go)]. } { apply same_grid_refl. }
        destruct (disco_kind E S strict nn Q _ _ _ _ _ _ _ _ _ _ _ _ _ _ go Hc' Hl' W' (proj2 Go) (proj2 Go)) as (C1 & C2).
        { intros q. destruct (HQ q) as (Q1 & Q2 & Q3). rewrite Q1. rewrite <- Q2 at 1. replace (mkG (g_nlat go) (g_nlon go) (g_type go)) with go by (destruct go; reflexivity). eapply self_reach; [eassumption|eassumption| |eassumption]. first [apply (gok_h _ _ _ Gi) | apply (gok_h _ _ _ Go)]. } { apply (proj1 (typed go (g_type gi) (fun Es => eq_sym (T Es)))). }
        split. { constructor; [auto|]. constructor; [apply batch_good|]. constructor; [apply act_good|]. constructor; [auto|constructor]. }
        cbn [seqrun]. rewrite B2. cbn [bindo]. rewrite batch_kind. cbn [bindo fit]. rewrite C2. reflexivity.
      + bind Hu r Hr. injection Hu as <-. destruct (resampling_kind E strict nn Q _ _ _ _ co Gi Go Hr) as (B1 & B2). split; [constructor; [auto|constructor]|]. cbn [seqrun]. rewrite B2. reflexivity. }
  destruct U0 as (U1 & U2). split.
  - unfold ublock_layers. cbn [ub_skip ub_fwd ub_up]. apply List.Forall_app; split; [exact S1|]. constructor; [auto|]. constructor; [apply batch_good|]. constructor; [apply act_good|auto].
  - unfold ublock_forward. cbn [ub_skip ub_fwd ub_up]. rewrite S2. cbn [bindo]. cbn [seqrun]. rewrite A2. cbn [bindo]. rewrite batch_kind. cbn [bindo fit]. rewrite kadd_refl. cbn [bindo]. exact U2.
Qed.
Fixpoint chain (gi : gspec) (ci : nat) (ds : list dblock) : Prop :=
  match ds with [] => True | b :: r => db_in b = gi /\ db_cin b = ci /\ chain (db_out b) (db_cout b) r end.
Definition kd (b : dblock) : ftype := mkK (db_cout b) (db_out b).
Definition dgrids (b : dblock) : Prop := gok (db_in b) /\ gok (db_out b) /\ (strict = true -> g_type (db_out b) = g_type (db_in b)) /\ (Q -> g_type (db_out b) = GEquiangular /\ g_type (db_in b) = GEquiangular).
Lemma dblocks_kind : forall A a dims i gi ci ds, List.Forall gok (levels (ua_scale A) (ua_gint A) gi (length dims)) -> (strict = true -> g_type gi = ua_gint A) -> (Q -> g_type gi = GEquiangular /\ ua_gint A = GEquiangular /\ full_kernel (ua_ks A) (ua_basis A)) ->
  List.Forall (fun p => 1 <= snd p) dims -> dblocks_init E S A a i gi ci dims = Some ds ->
  List.Forall good (flat_map dblock_layers ds) /\ chain gi ci ds /\ map db_cout ds = map fst dims /\ List.Forall dgrids ds /\ features (dblock_forward (fit strict) (kadd strict)) ds (mkK ci gi) = Some (map kd ds).
Proof.
  intros A a. induction dims as [|(c, nr) dims IH]; intros i gi ci ds G T HQ D H; cbn [dblocks_init] in H.
  - injection H as <-. cbn. repeat (split; [solve [auto | constructor]|]). reflexivity.
  - bind H b0 Hb. bind H r Hr. injection H as <-. cbn [length levels] in G. apply Forall_cons_iff in G. destruct G as (G0 & G1). apply Forall_cons_iff in D. destruct D as (D0 & D1). cbn [snd] in D0.
    change (mkG (g_nlat gi / ua_scale A) (g_nlon gi / ua_scale A) (ua_gint A)) with (half (ua_scale A) gi (ua_gint A)) in G1.
    assert (G2 : gok (half (ua_scale A) gi (ua_gint A))). { destruct dims; cbn [length levels] in G1; apply Forall_cons_iff in G1; apply G1. }
    destruct (dblock_kind _ _ _ _ _ _ _ _ _ _ _ _ G0 G2 D0 T HQ Hb) as ((I1 & I2 & I3 & I4) & B1 & B2).
    destruct (IH _ _ _ _ G1 (fun _ => eq_refl) (fun q => conj (proj1 (proj2 (HQ q))) (proj2 (HQ q))) D1 Hr) as (C1 & C2 & C3 & C4 & C5).
    split; [cbn [flat_map]; apply List.Forall_app; auto|]. split; [cbn [chain]; rewrite I1, I2, I3, I4; auto|]. split; [cbn [map fst]; congruence|]. split.
    + constructor; auto. unfold dgrids. rewrite I1, I2. split; [auto|]. split; [auto|]. split; [intros Es; symmetry; auto|]. intros q. destruct (HQ q) as (Q1 & Q2 & Q3). cbn [half g_type]. auto.
    + cbn [features]. rewrite B2. cbn [bindo]. rewrite C5. cbn [bindo map]. unfold kd at 2. rewrite I2, I4. reflexivity.
Qed.
Lemma chain_snoc : forall ds b gi ci, chain gi ci (ds ++ [b]) -> chain gi ci ds /\ match rev ds with [] => db_in b = gi /\ db_cin b = ci | c :: _ => db_in b = db_out c /\ db_cin b = db_cout c end.
Proof.
  induction ds as [|d ds IH]; intros b gi ci H; cbn [app chain] in H. { cbn. tauto. }
  destruct H as (H1 & H2 & H3). destruct (IH _ _ _ H3) as (A1 & A2). split; [cbn [chain]; auto|]. cbn [rev]. destruct (rev ds); cbn [app]; auto.
Qed.
Lemma up_kind : forall d0 (F : nat * dblock -> option ublock) ds gi ci us,
  chain gi ci ds ->
  (forall i b u, i < length ds -> In b ds -> F (i, b) = Some u -> List.Forall good (ublock_layers u) /\ ublock_forward (fit strict) (kadd strict) u (mkK (2 * db_cout b) (db_out b)) = Some (mkK (if i =? 0 then d0 else db_cin b) (db_in b))) ->
  mapM F (rev (List.combine (seq 0 (length ds)) ds)) = Some us ->
  List.Forall good (flat_map ublock_layers us) /\
  up_path (fit strict) (kadd strict) (kcat strict) us (rev (map kd ds)) (match rev ds with [] => mkK d0 gi | b :: _ => kd b end) = Some (mkK d0 gi).
Proof.
  intros d0 F ds. induction ds as [|b ds IH] using rev_ind; intros gi ci us C HF M.
  - cbn in M. injection M as <-. split; [constructor|reflexivity].
  - rewrite combine_snoc, rev_app_distr in M. cbn [rev app mapM] in M. bind M u Hu. bind M us' Hus. injection M as <-. destruct (chain_snoc _ _ _ _ C) as (C1 & C2).
    destruct (HF (0 + length ds) b u ltac:(rewrite app_length; cbn; lia) ltac:(apply in_or_app; right; left; reflexivity) Hu) as (G1 & F1). rewrite Nat.add_0_l in F1.
    destruct (IH gi ci us' C1) as (G2 & F2); auto. { intros i b' u' Hi Hin. apply HF; [rewrite app_length; lia|apply in_or_app; auto]. }
    split; [cbn [flat_map]; apply List.Forall_app; auto|]. rewrite map_app, !rev_app_distr. cbn [map rev app up_path].
    assert (K2 : kcat strict [kd b; kd b] = Some (mkK (2 * db_cout b) (db_out b))). { unfold kcat, kd. cbn [forallb k_g map k_ch]. rewrite same_grid_refl. reflexivity. }
    rewrite K2. cbn [bindo]. rewrite F1. cbn [bindo].
    assert (NX : mkK (if length ds =? 0 then d0 else db_cin b) (db_in b) = match rev ds with [] => mkK d0 gi | c :: _ => kd c end).
    { destruct (rev ds) as [|c r] eqn:RD.
      - apply (f_equal (@length _)) in RD. rewrite rev_length in RD. cbn in RD. rewrite RD. cbn [Nat.eqb]. f_equal. apply C2.
      - apply (f_equal (@length _)) in RD. rewrite rev_length in RD. cbn in RD. rewrite RD. cbn [Nat.eqb]. unfold kd. destruct C2 as (-> & ->). reflexivity. }
    rewrite NX. exact F2.
Qed.
Theorem unet_built : forall A n, unet_init E S A = Some n -> List.Forall gok (levels (ua_scale A) (ua_gint A) (ua_img A) (length (ua_dims A))) ->
  List.Forall (fun d => 1 <= d) (ua_depths A) -> (strict = true -> g_type (ua_img A) = ua_gint A) -> (Q -> g_type (ua_img A) = GEquiangular /\ ua_gint A = GEquiangular /\ full_kernel (ua_ks A) (ua_basis A)) ->
  List.Forall good (unet_layers n) /\ unet_kind strict n (mkK (ua_in A) (ua_img A)) = Some (mkK (ua_out A) (ua_img A)).
Proof.
  intros A n H G D T HQ. unfold unet_init in H. bind H u0 G0. apply PsiProofs.guard_some in G0. apply andb_prop in G0. destruct G0 as (G0 & _). apply andb_prop in G0. destruct G0 as (L1 & L2). apply Nat.eqb_eq in L1. apply Nat.leb_le in L2.
  bind H a Ha. bind H ds Hd. bind H us Hu. injection H as <-. unfold ublocks_init in Hu. cbv zeta in Hu. bind Hu us1 Hu1. injection Hu as ->.
  assert (LC : length (List.combine (ua_dims A) (ua_depths A)) = length (ua_dims A)) by (rewrite combine_length; lia).
  rewrite <- LC in G.
  assert (D' : List.Forall (fun p => 1 <= snd p) (List.combine (ua_dims A) (ua_depths A))). { rewrite Forall_forall in *. intros (x, y) Hin. apply D. eapply in_combine_r; eauto. }
  destruct (dblocks_kind _ _ _ _ _ _ _ G T HQ D' Hd) as (DG & CH & MC & GR & FE).
  assert (LD : length ds = length (ua_dims A)). { apply (f_equal (@length _)) in MC. rewrite !map_length, LC in MC. exact MC. }
  destruct (@exists_last _ ds) as (pre & b & Eds). { intros ->. cbn in LD. lia. }
  assert (GD : forall x, In x ds -> dgrids x) by (apply Forall_forall; exact GR).
  replace (List.combine (seq 0 (length ds)) ds) with (List.combine (seq 0 (length pre)) pre ++ [(0 + length pre, b)]) in Hu1 by (rewrite Eds; symmetry; apply combine_snoc). rewrite rev_app_distr in Hu1. cbn [rev app mapM] in Hu1. bind Hu1 ub Hub. bind Hu1 us' Hus. injection Hu1 as <-.
  assert (LN : length ds = length pre + 1) by (rewrite Eds, app_length; reflexivity).
  assert (Hb : dgrids b) by (apply GD; rewrite Eds; apply in_or_app; cbn; auto). destruct Hb as (Hb1 & Hb2 & Hb3 & Hb4).
  cbn [Nat.add] in Hub. rewrite LN, Nat.add_sub, Nat.eqb_refl in Hub. destruct (ublock_kind _ _ _ _ _ _ _ _ _ _ _ Hb2 Hb1 Hb3 (fun q => conj (proj1 (Hb4 q)) (conj (proj2 (Hb4 q)) (proj2 (proj2 (HQ q))))) Hub) as (U1 & U2).
  rewrite Eds in CH. destruct (chain_snoc _ _ _ _ CH) as (C1 & C2).
  match type of Hus with mapM ?f _ = _ => set (F := f) in Hus end.
  destruct (up_kind (hd 0 (ua_dims A)) F pre (ua_img A) (ua_in A) us') as (V1 & V2); [exact C1| |exact Hus|].
  { intros i x u Hi Hx HU. unfold F in HU. cbv beta iota in HU. rewrite LN in HU. replace (i =? length pre + 1 - 1) with false in HU by (symmetry; apply Nat.eqb_neq; lia).
    destruct (GD x) as (X1 & X2 & X3 & X4). { rewrite Eds. apply in_or_app; auto. } eapply ublock_kind; eauto. intros q. destruct (X4 q). destruct (HQ q) as (_ & _ & Q3). auto. }
  split.
  - unfold unet_layers. cbn [un_d un_u un_head]. apply List.Forall_app; split; [auto|]. cbn [flat_map]. apply List.Forall_app; split; [apply List.Forall_app; auto|]. constructor; [apply conv1_good|constructor].
  - unfold unet_kind, unet_forward. cbn [un_d un_u un_head]. rewrite FE. cbn [bindo]. rewrite Eds, map_app, rev_app_distr. cbn [map rev app]. unfold kd at 1. rewrite U2. cbn [bindo].
    assert (NX : mkK (if length pre =? 0 then hd 0 (ua_dims A) else db_cin b) (db_in b) = match rev pre with [] => mkK (hd 0 (ua_dims A)) (ua_img A) | c :: _ => kd c end).
    { destruct (rev pre) as [|c r] eqn:RD.
      - apply (f_equal (@length _)) in RD. rewrite rev_length in RD. cbn in RD. rewrite RD. cbn [Nat.eqb]. f_equal. apply C2.
      - apply (f_equal (@length _)) in RD. rewrite rev_length in RD. cbn in RD. rewrite RD. cbn [Nat.eqb]. unfold kd. destruct C2 as (-> & ->). reflexivity. }
    rewrite NX, V2. cbn [bindo seqrun]. rewrite conv1_kind. reflexivity.
Qed.

(** ** Segformer *)
Lemma wblock_kind : forall ix g c heads ks b a nb bias cut w, gok g -> (Q -> full_kernel ks b) -> wblock_init E S ix g c heads ks b a nb bias cut = Some w ->
  List.Forall good (wblock_layers w) /\ wblock_forward (fit strict) (kadd strict) w (mkK c g) = Some (mkK c g).
Proof.
  intros ix g c heads ks b a nb bias cut w G HQ H. unfold wblock_init in H. bind H at0 Ha. bind H cu Hc. bind H l Hl. injection H as <-. pose proof (gok_w _ _ _ G) as W.
  destruct (attention_kind E S strict nn Q _ _ _ _ _ _ _ _ _ _ G Ha) as (A1 & A2). destruct (disco_kind E S strict nn Q _ _ _ _ _ _ _ _ _ _ _ _ _ _ g Hc Hl W (proj2 G) (proj2 G) (fun q => self_reach _ _ _ _ _ _ _ G (HQ q) (gok_h _ _ _ G) Hc) (same_grid_refl strict _)) as (B1 & B2).
  split.
  - unfold wblock_layers. cbn [wb_norm wb_attn wb_fnorm wb_in wb_conv wb_act wb_out]. constructor; [apply chan_good|]. constructor; [auto|]. constructor; [apply chan_good|]. constructor; [apply conv1_good|]. constructor; [auto|]. constructor; [apply act_good|]. constructor; [apply conv1_good|constructor].
  - unfold wblock_forward. cbn [wb_norm wb_attn wb_fnorm wb_in wb_conv wb_act wb_out]. rewrite chan_kind. cbn [bindo]. rewrite A2. cbn [bindo]. rewrite kadd_refl. cbn [bindo]. rewrite chan_kind. cbn [bindo]. rewrite conv1_kind. cbn [bindo]. rewrite B2. cbn [bindo fit]. rewrite conv1_kind. cbn [bindo]. apply kadd_refl.
Qed.
Lemma tblock_kind : forall ix gi go ci co nrep heads ks b a nb bias cut t, gok gi -> gok go -> (Q -> g_type gi = GEquiangular /\ g_type go = GEquiangular /\ full_kernel ks b) -> tblock_init E S ix gi go ci co nrep heads ks b a nb bias cut = Some t ->
  tb_out t = go /\ List.Forall good (tblock_layers t) /\ tblock_forward (fit strict) (kadd strict) t (mkK ci gi) = Some (mkK co go).
Proof.
  intros ix gi go ci co nrep heads ks b a nb bias cut t Gi Go HQ H. unfold tblock_init in H. bind H c Hc. bind H l Hl. bind H ws Hw. injection H as <-. pose proof (gok_w _ _ _ Gi) as W.
  destruct (disco_kind E S strict nn Q _ _ _ _ _ _ _ _ _ _ _ _ _ _ gi Hc Hl W (proj2 Gi) (proj2 Go)) as (B1 & B2).
  { intros q. destruct (HQ q) as (Q1 & Q2 & Q3). eapply pole_reach; [eassumption|eassumption|eassumption|eassumption|eassumption| |eassumption]. first [apply (gok_h _ _ _ Gi) | apply (gok_h _ _ _ Go)]. } { apply same_grid_refl. }
  set (K := fun _ : nat => mkK co go).
  assert (R0 : List.Forall good (flat_map wblock_layers ws) /\ foldM (wblock_forward (fit strict) (kadd strict)) ws (K 0) = Some (K (0 + nrep))).
  { eapply foldM_kinds; [|exact Hw]. intros i w Hi Ew. cbv beta in Ew. eapply wblock_kind; eauto. intros q. apply (HQ q). }
  destruct R0 as (R1 & R2). unfold K in R2. split; [reflexivity|]. split.
  - unfold tblock_layers. cbn [tb_merge tb_reps tb_norm]. constructor; [auto|]. constructor; [apply chan_good|]. apply List.Forall_app; split; [auto|]. constructor; [apply chan_good|constructor].
  - unfold tblock_forward. cbn [tb_merge tb_reps tb_norm seqrun]. rewrite B2. cbn [bindo]. rewrite chan_kind. cbn [bindo]. rewrite R2. cbn [bindo]. apply chan_kind.
Qed.
Definition kt (p : tblock * nat) : ftype := mkK (snd p) (tb_out (fst p)).
Lemma tblocks_kind : forall A a dims i gi ci ts, List.Forall gok (levels (ga_scale_factor A) (ga_gint A) gi (length dims)) -> (Q -> g_type gi = GEquiangular /\ ga_gint A = GEquiangular /\ full_kernel (ga_ks A) (ga_basis A)) -> tblocks_init E S A a i gi ci dims = Some ts ->
  List.Forall good (flat_map tblock_layers ts) /\ length ts = length dims /\ List.Forall (fun t => gok (tb_out t) /\ (Q -> g_type (tb_out t) = GEquiangular)) ts /\
  features (tblock_forward (fit strict) (kadd strict)) ts (mkK ci gi) = Some (map kt (List.combine ts (map (fun p => fst (fst p)) dims))).
Proof.
  intros A a. induction dims as [|((c, hh), nr) dims IH]; intros i gi ci ts G HQ H; cbn [tblocks_init] in H.
  - injection H as <-. cbn. repeat (split; [solve [auto | constructor]|]). reflexivity.
  - bind H b0 Hb. bind H r Hr. injection H as <-. cbn [length levels] in G. apply Forall_cons_iff in G. destruct G as (G0 & G1).
    change (mkG (g_nlat gi / ga_scale_factor A) (g_nlon gi / ga_scale_factor A) (ga_gint A)) with (half (ga_scale_factor A) gi (ga_gint A)) in G1.
    assert (G2 : gok (half (ga_scale_factor A) gi (ga_gint A))). { destruct dims; cbn [length levels] in G1; apply Forall_cons_iff in G1; apply G1. }
    destruct (tblock_kind _ _ _ _ _ _ _ _ _ _ _ _ _ _ G0 G2 HQ Hb) as (I1 & B1 & B2). destruct (IH _ _ _ _ G1 (fun q => conj (proj1 (proj2 (HQ q))) (proj2 (HQ q))) Hr) as (C1 & C2 & C3 & C4).
    split; [cbn [flat_map]; apply List.Forall_app; auto|]. split; [cbn [length]; auto|]. split. { constructor; auto. rewrite I1. split; [auto|]. intros q. apply (HQ q). }
    cbn [features]. rewrite B2. cbn [bindo]. rewrite C4. cbn [bindo map List.combine fst]. unfold kt at 2. cbn [fst snd]. rewrite I1. reflexivity.
Qed.
Lemma upsampling_kind : forall ix gi go c ks b m ls, gok gi -> gok go -> (Q -> g_type gi = GEquiangular /\ g_type go = GEquiangular /\ full_kernel ks b) -> upsampling E S ix gi go c c ks b m = Some ls -> List.Forall good ls /\ fits ls (mkK c gi) = Some (mkK c go).
Proof.
  intros ix gi go c ks b m ls Gi Go HQ H. unfold upsampling in H. bind H u Hu. injection H as <-. pose proof (gok_w _ _ _ Go) as W.
  assert (U : good u /\ fit strict u (mkK c gi) = Some (mkK c go)).
  { destruct m; try discriminate. - bind Hu cu Hc. eapply tdisco_kind; eauto; [apply Gi|apply Go| |apply same_grid_refl]. intros q. destruct (HQ q) as (Q1 & Q2 & Q3). eapply (pole_reach E nn go gi); [eassumption|eassumption|eassumption|eassumption|eassumption| |eassumption]. first [apply (gok_h _ _ _ Gi) | apply (gok_h _ _ _ Go)]. - eapply resampling_kind; eauto. }
  destruct U as (U1 & U2). split. { constructor; [apply conv1_good|]. constructor; [auto|constructor]. } cbn [seqrun]. rewrite conv1_kind. cbn [bindo]. rewrite U2. reflexivity.
Qed.
Lemma upsample_kinds : forall img (F : nat * (tblock * nat) -> option (list layer)) ps a us,
  (forall i p u, In p ps -> F (i, p) = Some u -> List.Forall good u /\ fits u (kt p) = Some (mkK (snd p) img)) ->
  mapM F (List.combine (seq a (length ps)) ps) = Some us -> List.Forall good (concat us) /\ upsample_all (fit strict) us (map kt ps) = Some (map (fun p => mkK (snd p) img) ps).
Proof.
  intros img F. induction ps as [|p ps IH]; intros a us HF M; cbn [length seq List.combine mapM] in M.
  - injection M as <-. split; [constructor|reflexivity].
  - bind M u Hu. bind M us' Hus. injection M as <-. destruct (HF _ _ _ (or_introl eq_refl) Hu) as (A1 & A2). destruct (IH _ _ (fun i q v Hq => HF i q v (or_intror Hq)) Hus) as (B1 & B2).
    split; [cbn [concat]; apply List.Forall_app; auto|]. cbn [map upsample_all]. rewrite A2. cbn [bindo]. rewrite B2. reflexivity.
Qed.
Lemma map_fst_combine : forall (X Y : Type) (l : list X) (r : list Y), length r = length l -> map fst (List.combine l r) = l.
Proof. intros X Y. induction l; intros [|y r] H; cbn in *; try lia; auto. f_equal. apply IHl. lia. Qed.
Lemma map_snd_combine : forall (X Y : Type) (l : list X) (r : list Y), length r = length l -> map snd (List.combine l r) = r.
Proof. intros X Y. induction l; intros [|y r] H; cbn in *; try lia; auto. f_equal. apply IHl. lia. Qed.
Theorem seg_built : forall A n, seg_init E S A = Some n -> List.Forall gok (levels (ga_scale_factor A) (ga_gint A) (ga_img A) (length (ga_dims A))) -> ga_dims A <> [] -> (Q -> g_type (ga_img A) = GEquiangular /\ ga_gint A = GEquiangular /\ full_kernel (ga_ks A) (ga_basis A)) ->
  List.Forall good (seg_layers n) /\ seg_kind strict n (mkK (ga_in A) (ga_img A)) = Some (mkK (ga_out A) (ga_img A)).
Proof.
  intros A n H G NE HQ. unfold seg_init in H. bind H u0 G0. apply PsiProofs.guard_some in G0. apply andb_prop in G0. destruct G0 as (G0 & _). apply andb_prop in G0. destruct G0 as (L1 & L2). apply Nat.eqb_eq in L1, L2.
  bind H a Ha. bind H ts Ht. bind H us Hu. injection H as <-.
  set (dd := List.combine (List.combine (ga_dims A) (ga_headsl A)) (ga_depths A)) in *.
  assert (LD : length dd = length (ga_dims A)) by (unfold dd; rewrite !combine_length; lia). rewrite <- LD in G.
  assert (MD : map (fun p : nat * nat * nat => fst (fst p)) dd = ga_dims A).
  { unfold dd. rewrite <- (map_map fst fst). rewrite map_fst_combine by (rewrite combine_length; lia). apply map_fst_combine. lia. }
  assert (Gi : gok (ga_img A)). { destruct (length dd); cbn [levels] in G; apply Forall_cons_iff in G; apply G. }
  destruct (tblocks_kind _ _ _ _ _ _ _ G HQ Ht) as (TG & LT & GR & FE). rewrite MD in FE.
  assert (LC : length (List.combine ts (ga_dims A)) = length ts) by (rewrite combine_length; lia). rewrite <- LC in Hu.
  match type of Hu with mapM ?f _ = _ => set (F := f) in Hu end.
  destruct (upsample_kinds (ga_img A) F (List.combine ts (ga_dims A)) 0 us) as (UG & UF); [|exact Hu|].
  { intros i (t, c) u Hin HU. unfold kt. cbn [fst snd]. unfold F in HU. cbv beta iota in HU. apply in_combine_l in Hin. destruct (proj1 (Forall_forall _ _) GR _ Hin) as (X1 & X2). eapply upsampling_kind; eauto. intros q. destruct (HQ q) as (Q1 & Q2 & Q3). auto. }
  split.
  - unfold seg_layers. cbn [sg_blocks sg_ups sg_head]. apply List.Forall_app; split; [auto|]. apply List.Forall_app; split; [auto|]. constructor; [apply conv1_good|constructor].
  - unfold seg_kind, seg_forward. cbn [sg_blocks sg_ups sg_head]. rewrite FE. cbn [bindo]. rewrite UF. cbn [bindo].
    assert (KC : kcat strict (map (fun p : tblock * nat => mkK (snd p) (ga_img A)) (List.combine ts (ga_dims A))) = Some (mkK (sum_list (ga_dims A)) (ga_img A))).
    { rewrite <- (map_map snd (fun c => mkK c (ga_img A))), map_snd_combine by lia. destruct (ga_dims A) as [|c cs]; [congruence|]. cbn [map kcat k_g].
      replace (forallb _ _) with true. 2: { symmetry. apply forallb_forall. intros x Hx. apply in_map_iff in Hx. destruct Hx as (y & <- & _). apply same_grid_refl. }
      cbn [guard bindo]. rewrite map_map, map_id. reflexivity. }
    rewrite KC. cbn [bindo seqrun]. rewrite conv1_kind. reflexivity.
Qed.
End Built.
