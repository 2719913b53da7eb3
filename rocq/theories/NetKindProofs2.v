(** Kinds of the constructed networks: the three operators. *)
From Coq Require Import String List Arith Lia Bool Reals ZArith Lra.
From Coquelicot Require Import Coquelicot.
From Verif Require Import TensorModel TensorProofs BigSum TruncModel QuadModel FFTModel SHTModel SHTSpec SHTValueProofs ResampleModel FilterModel DiscoModel PsiModel PsiProofs AttnModel AttnLayerModel
  NetModel NetModels NetSpec NetParProofs NetLayerProofs NetLayerProofs2 NetLayerProofs4 NetReadyProofs NetReachProofs NetKindProofs.
Import ListNotations.
Local Open Scope list_scope.
Local Open Scope nat_scope.

Lemma inner_grid_eq : forall h w s gt g, inner_grid h w s gt = Some g -> g = internal (mkG h w gt) s gt.
Proof. intros h w s gt g H. unfold inner_grid in H. bind H u Hu. injection H as <-. reflexivity. Qed.
Lemma net_modes_kept : forall g frac md, modes_kept g frac -> net_modes g frac = Some md -> 1 <= md.
Proof.
  intros g frac md K H. unfold net_modes, py_int in H. bind H u Hu. injection H as <-. unfold modes_kept in K. rewrite Nat.add_sub in *. set (r := (INR _ * frac)%R) in *. clearbody r.
  assert (1 <= Int_part r)%Z; [|lia]. unfold Int_part. destruct (archimed r) as [A _]. assert (1 < IZR (up r))%R by lra. apply lt_IZR in H. lia.
Qed.

Section Built.
Variables (E : env) (S : state) (strict : bool) (nn : nat) (Q : Prop).
Notation good := (good E nn Q).
Notation gok := (gok E nn).
Lemma trs_ready : forall g md f i, 1 <= md -> sht_of E g (Some md) (Some md) = Some f -> isht_of E g (Some md) (Some md) = Some i ->
  tr_for true g f /\ tr_for false g i /\ s_lmax (tr_s f) = md /\ s_mmax (tr_s f) = md /\ s_lmax (tr_s i) = md /\ s_mmax (tr_s i) = md.
Proof.
  intros g md f i Hm Hf Hi. destruct (sht_of_ready _ _ _ _ _ Hf) as (A & TA). destruct (isht_of_ready _ _ _ _ _ Hi) as (B0 & TB).
  destruct (truncate_modes _ _ _ _ _ _ Hm TA). destruct (truncate_modes _ _ _ _ _ _ Hm TB). auto 10.
Qed.
Lemma type_eq : forall a b, a = b -> same_type a b = true. Proof. intros a b ->. apply same_type_refl. Qed.

(** SFNO *)
Theorem sfno_built : forall A n, sfno_init E S A = Some n -> gok (sa_img A) -> gok (sfno_inner A) -> modes_kept (sfno_inner A) (sa_frac A) ->
  (strict = true -> sa_layers A <= 1 \/ same_shape (sa_img A) (sfno_inner A) = false \/ g_type (sa_img A) = sa_gint A) ->
  List.Forall good (sfno_layers n) /\ sfno_kind strict n (mkK (sa_in A) (sa_img A)) = Some (mkK (sa_out A) (sa_img A)).
Proof.
  intros A n H Gi Gn MK ST. unfold sfno_init in H. bind H a Ha. bind H inner Hin. bind H psl Hp. bind H u0 Hu0. bind H md Hm. bind H down Hd. bind H upt Hup. bind H tr Ht. bind H itr Hit. bind H bks Hb. bind H u1 Hu1. injection H as <-.
  apply inner_grid_eq in Hin. change (inner = sfno_inner A) in Hin. subst inner. pose proof (net_modes_kept _ _ _ MK Hm) as M1.
  destruct (trs_ready _ _ _ _ M1 Hd Hup) as (D1 & U1 & D2 & D3 & U2 & U3). destruct (trs_ready _ _ _ _ M1 Ht Hit) as (T1 & I1 & T2 & T3 & I2 & I3).
  destruct (pos_kind E S strict nn Q _ _ _ _ Gi Hp) as (Pg & Pf).
  set (K := fun i => mkK (sa_embed A) (if (i =? 0) || (i =? sa_layers A) then sa_img A else sfno_inner A)).
  assert (B0 : List.Forall good (flat_map sblock_layers bks) /\ foldM (sblock_forward (fit strict) (kadd strict)) bks (K 0) = Some (K (0 + sa_layers A))).
  { eapply foldM_kinds; [|exact Hb]. intros i b Hi Eb. cbv beta in Eb.
    assert (KE : K i = mkK (sa_embed A) (if i =? 0 then sa_img A else sfno_inner A)). { unfold K. replace (i =? sa_layers A) with false by (symmetry; apply Nat.eqb_neq; lia). rewrite orb_false_r. reflexivity. }
    assert (KE' : K (i + 1) = mkK (sa_embed A) (if i =? sa_layers A - 1 then sa_img A else sfno_inner A)). { unfold K. replace (i + 1 =? 0) with false by (symmetry; apply Nat.eqb_neq; lia). cbn [orb]. replace (i + 1 =? sa_layers A) with (i =? sa_layers A - 1); [reflexivity|]. apply eq_true_iff_eq. rewrite !Nat.eqb_eq. lia. }
    rewrite KE, KE'. eapply sblock_kind; [| | | | | | |exact Eb].
    - destruct (i =? 0); auto.
    - destruct (i =? sa_layers A - 1); auto.
    - destruct (i =? 0), (i =? sa_layers A - 1); congruence.
    - destruct (i =? 0), (i =? sa_layers A - 1); congruence.
    - destruct (i =? 0); auto.
    - destruct (i =? sa_layers A - 1); auto.
    - assert (CR : forall g h, same_shape g h = true -> (strict = true -> g_type g = g_type h) -> same_grid strict h g = true).
      { intros g h SS TT. unfold same_shape in SS. unfold same_grid. apply andb_prop in SS. destruct SS as (S1 & S2). rewrite Nat.eqb_sym, S1, Nat.eqb_sym, S2. destruct strict; cbn; auto. apply type_eq. symmetry. auto. }
      assert (SY : same_shape (sfno_inner A) (sa_img A) = same_shape (sa_img A) (sfno_inner A)). { unfold same_shape. rewrite (Nat.eqb_sym (g_nlat _)), (Nat.eqb_sym (g_nlon _)). reflexivity. }
      destruct (i =? 0) eqn:E0, (i =? sa_layers A - 1) eqn:E1; intros SS; apply CR; auto; intros Es; apply Nat.eqb_eq in E0 || apply Nat.eqb_neq in E0; apply Nat.eqb_eq in E1 || apply Nat.eqb_neq in E1; cbn [sfno_inner internal g_type]; auto;
        destruct (ST Es) as [L | [L | L]]; try lia; try congruence; auto. }
  destruct B0 as (Bg & Bf). unfold K in Bf at 1. cbn [Nat.eqb orb] in Bf. unfold K in Bf. rewrite Nat.add_0_l, Nat.eqb_refl, orb_true_r in Bf.
  split.
  - unfold sfno_layers. cbn [sf_enc sf_pos sf_blocks sf_dec sf_res]. constructor; [apply conv1_good|]. apply List.Forall_app; split; [auto|]. apply List.Forall_app; split; [auto|]. constructor; [apply conv1_good|].
    destruct (sa_residual A); [|constructor]. cbn [oflat]. destruct (_ =? _); [constructor|]. constructor; [apply conv1_good|constructor].
  - unfold sfno_kind, sfno_forward. cbn [sf_enc sf_pos sf_blocks sf_dec sf_res seqrun]. rewrite conv1_kind. cbn [bindo]. rewrite Pf. cbn [bindo]. rewrite Bf. cbn [bindo]. rewrite conv1_kind. cbn [bindo].
    destruct (sa_residual A); [|reflexivity]. cbn [add_skip]. destruct (sa_in A =? sa_out A) eqn:IO; cbn [seqrun]. { apply Nat.eqb_eq in IO. rewrite IO. cbn [bindo]. apply kadd_refl. } rewrite conv1_kind. cbn [bindo]. apply kadd_refl.
Qed.

(** LSNO *)
Theorem lsno_built : forall A n, lsno_init E S A = Some n -> gok (la_img A) -> gok (lsno_inner A) -> modes_kept (lsno_inner A) (la_frac A) ->
  (la_residual A = true -> la_in A = la_out A) -> (Q -> g_type (la_img A) = GEquiangular /\ full_kernel (la_eks A) (la_basis A) /\ full_kernel (la_ks A) (la_basis A)) ->
  List.Forall good (lsno_layers n) /\ lsno_kind strict n (mkK (la_in A) (la_img A)) = Some (mkK (la_out A) (la_img A)).
Proof.
  intros A n H Gi Gn MK RS HQ. unfold lsno_init in H. bind H a Ha. bind H inner Hin. bind H psl Hp. bind H enc Hen. bind H md Hm. bind H tr Ht. bind H itr Hit. bind H bks Hb. bind H dec Hdec. injection H as <-.
  apply inner_grid_eq in Hin. change (inner = lsno_inner A) in Hin. subst inner. pose proof (net_modes_kept _ _ _ MK Hm) as M1.
  destruct (trs_ready _ _ _ _ M1 Ht Hit) as (T1 & I1 & T2 & T3 & I2 & I3).
  destruct (pos_kind E S strict nn Q _ _ _ _ Gn Hp) as (Pg & Pf). destruct (encoder_kind E S strict nn Q _ _ _ _ _ _ _ Gi Gn (fun q => conj (proj1 (HQ q)) (proj1 (proj2 (HQ q)))) Hen) as (Eg & Ef). destruct (decoder_kind E S strict nn Q _ _ _ _ _ _ _ _ Gn Gi (fun q => proj1 (proj2 (HQ q))) Hdec) as (Dg & Df).
  set (K := fun _ : nat => mkK (la_embed A) (lsno_inner A)).
  assert (B0 : List.Forall good (flat_map lblock_layers bks) /\ foldM (lblock_forward (fit strict) (kadd strict)) bks (K 0) = Some (K (0 + la_layers A))).
  { eapply foldM_kinds; [|exact Hb]. intros i b Hi Eb. cbv beta in Eb. bind Eb u Hu. eapply lblock_kind; [exact T1|exact I1| | |exact Gn|intros q; apply (HQ q)|exact Eb]; congruence. }
  destruct B0 as (Bg & Bf). unfold K in Bf.
  split.
  - unfold lsno_layers. cbn [ls_enc ls_pos ls_blocks ls_dec]. repeat (apply List.Forall_app; split; [auto|]). auto.
  - unfold lsno_kind, lsno_forward. cbn [ls_enc ls_pos ls_blocks ls_dec ls_res]. rewrite Ef. cbn [bindo]. rewrite Pf. cbn [bindo]. rewrite Bf. cbn [bindo]. rewrite Df. cbn [bindo].
    destruct (la_residual A); [|reflexivity]. rewrite RS by auto. apply kadd_refl.
Qed.

(** Spherical transformer *)
Theorem strans_built : forall A n, strans_init E S A = Some n -> gok (ta_img A) -> gok (strans_inner A) ->
  (ta_residual A = true -> ta_in A = ta_out A) -> (Q -> g_type (ta_img A) = GEquiangular /\ full_kernel (ta_eks A) (ta_basis A)) ->
  List.Forall good (strans_layers n) /\ strans_kind strict n (mkK (ta_in A) (ta_img A)) = Some (mkK (ta_out A) (ta_img A)).
Proof.
  intros A n H Gi Gn RS HQ. unfold strans_init in H. bind H a Ha. bind H inner Hin. bind H psl Hp. bind H enc Hen. bind H bks Hb. bind H dec Hdec. injection H as <-.
  apply inner_grid_eq in Hin. change (inner = strans_inner A) in Hin. subst inner.
  destruct (pos_kind E S strict nn Q _ _ _ _ Gn Hp) as (Pg & Pf). destruct (encoder_kind E S strict nn Q _ _ _ _ _ _ _ Gi Gn HQ Hen) as (Eg & Ef). destruct (decoder_kind E S strict nn Q _ _ _ _ _ _ _ _ Gn Gi (fun q => proj2 (HQ q)) Hdec) as (Dg & Df).
  set (K := fun _ : nat => mkK (ta_embed A) (strans_inner A)).
  assert (B0 : List.Forall good (flat_map ablock_layers bks) /\ foldM (ablock_forward (fit strict) (kadd strict)) bks (K 0) = Some (K (0 + ta_layers A))).
  { eapply foldM_kinds; [|exact Hb]. intros i b Hi Eb. cbv beta in Eb. eapply ablock_kind; [exact Gn|exact Eb]. }
  destruct B0 as (Bg & Bf). unfold K in Bf.
  split.
  - unfold strans_layers. cbn [st_enc st_pos st_blocks st_dec]. repeat (apply List.Forall_app; split; [auto|]). auto.
  - unfold strans_kind, strans_forward. cbn [st_enc st_pos st_blocks st_dec st_res]. rewrite Ef. cbn [bindo]. rewrite Pf. cbn [bindo]. rewrite Bf. cbn [bindo]. rewrite Df. cbn [bindo].
    destruct (ta_residual A); [|reflexivity]. rewrite RS by auto. apply kadd_refl.
Qed.
End Built.
