(** Layout conversions, row sort and row split of the CUDA attention. *)
From Coq Require Import List Arith Lia Bool Reals Lra ZArith Permutation Sorted FunctionalExtensionality.
From Verif Require Import TensorModel TensorProofs BigSum DistSpectralProofs DiscoTensorProofs GpuModel GpuSpec GpuProofs GpuProofs2 WarpProofs CudaDiscoModel CudaWarpModel CudaFwdProofs AttnModel AttnSpec AttnLayerProofs CudaAttnModel CudaAttnProofs CudaAttnSpec CudaUtilsModel CudaUtilsSpec CudaTileProofs.
Import ListNotations.
Local Open Scope nat_scope.

(** ** Addresses *)
Lemma addr_ravel : forall d0 d1 d2 d3 a b c d, addr4 d1 d2 d3 a b c d = ravel [d0; d1; d2; d3] [a; b; c; d].
Proof. intros. unfold addr4. cbn [ravel prod_list fold_right]. ring. Qed.
Lemma addr_lt : forall d0 d1 d2 d3 a b c d, a < d0 -> b < d1 -> c < d2 -> d < d3 -> addr4 d1 d2 d3 a b c d < d0 * d1 * d2 * d3.
Proof.
  intros. rewrite (addr_ravel d0). replace (d0 * d1 * d2 * d3) with (prod_list [d0; d1; d2; d3]) by (cbn [prod_list fold_right]; ring). apply ravel_lt. now apply valid4_intro.
Qed.
Lemma addr_inv : forall d0 d1 d2 d3 a b c d, a < d0 -> b < d1 -> c < d2 -> d < d3 -> unravel [d0; d1; d2; d3] (addr4 d1 d2 d3 a b c d) = [a; b; c; d].
Proof. intros. rewrite (addr_ravel d0). apply unravel_ravel. now apply valid4_intro. Qed.
Lemma valid4_elim : forall B C H W i, valid [B; C; H; W] i -> exists b c h w, i = [b; c; h; w] /\ b < B /\ c < C /\ h < H /\ w < W.
Proof.
  intros B C H W i [L V]. destruct i as [|b [|c [|h [|w [|]]]]]; try discriminate. exists b, c, h, w. split; [reflexivity|].
  assert (V0 := V 0 ltac:(cbn; lia)). assert (V1 := V 1 ltac:(cbn; lia)). assert (V2 := V 2 ltac:(cbn; lia)). assert (V3 := V 3 ltac:(cbn; lia)). cbn in *. auto.
Qed.
Lemma z_split : forall H B z, z < H * B -> z / H < B /\ z - z / H * H < H /\ z = z / H * H + (z - z / H * H).
Proof.
  intros H B z Hz. assert (H <> 0) by (intros ->; lia). assert (Q := Nat.div_mod z H ltac:(auto)). assert (Q2 := Nat.mod_upper_bound z H ltac:(auto)). split; [apply Nat.div_lt_upper_bound; auto|]. lia.
Qed.
Lemma z_join : forall H b h, h < H -> (b * H + h) / H = b /\ b * H + h - (b * H + h) / H * H = h.
Proof. intros H b h Hh. assert (E : (b * H + h) / H = b) by (rewrite Nat.add_comm, Nat.div_add, Nat.div_small by lia; lia). rewrite E. split; lia. Qed.
Lemma warps_ok : forall v, 1 <= tile_warps v /\ warp_size mod tile_warps v = 0.
Proof. intros. unfold tile_warps. destruct (v <? 100); split; (lia || reflexivity). Qed.

(** ** Conversions *)
Lemma nhwc_fills : forall dev v x k B C H W, shp x = [B; C; H; W] -> permute_to_nhwc_cuda dev v x = Some k -> exists y, to_nhwc x = Some y /\ overwrites k [B; H; W; C] y.
Proof.
  intros dev v x k B C H W Sx. destruct (to_nhwc_val x B C H W Sx) as (y & Ey & Sy & Vy). unfold permute_to_nhwc_cuda. destruct (shape4 _ _ _ _ _ Sx) as (-> & -> & -> & -> & ->). cbn [Nat.eqb guard bindo].
  destruct (fits32 _ && _); [|discriminate]. cbn [guard bindo]. intros Ek. exists y. split; [exact Ey|]. destruct (warps_ok v) as [W1 W2]. intros rg sh out.
  assert (Hx : forall b c h w, b < B -> c < C -> h < H -> w < W -> flat x (addr4 C H W b c h w) = val x [b; c; h; w]).
  { intros. unfold flat. rewrite Sx, addr_inv by auto. reflexivity. }
  set (src := fun z c w => addr4 C H W (z / H) c (z - z / H * H) w). set (dst := fun z w c => addr4 H W C (z / H) (z - z / H * H) w c).
  assert (Q := tiles_settle k warp_size (tile_warps v) C W (H * B) src dst
     (fun a => nth 0 (unravel [B; H; W; C] a) 0 * H + nth 1 (unravel [B; H; W; C] a) 0) (fun a => nth 3 (unravel [B; H; W; C] a) 0) (fun a => nth 2 (unravel [B; H; W; C] a) 0) ltac:(unfold warp_size; lia) W1 W2).
  injection Ek as <-. cbn [k_insize k_outsize k_groups k_threads k_shared k_code k_in] in Q.
  specialize (fun a b c => Q a b c eq_refl eq_refl eq_refl (fun g t => eq_refl) rg sh out).
  eapply WarpKernelProofs.settles_impl; [apply Q|].
  - intros z r c Hz Hr Hc. destruct (z_split H B z Hz) as (Z1 & Z2 & _). now apply addr_lt.
  - intros z r c Hz Hr Hc. destruct (z_split H B z Hz) as (Z1 & Z2 & _). replace (B * C * H * W) with (B * H * W * C) by ring. now apply addr_lt.
  - intros z r c Hz Hr Hc. destruct (z_split H B z Hz) as (Z1 & Z2 & Z3). unfold dst. rewrite addr_inv by auto. cbn [nth]. auto.
  - cbn beta. intros o Ho. split; [exact (eq_sym Sy)|]. intros i Hi. cbn [tensor_of shp] in Hi. apply valid4_elim in Hi. destruct Hi as (b & h & w & c & -> & Hb & Hh & Hw & Hc). cbn [tensor_of val]. rewrite <- addr_ravel.
    specialize (Ho (b * H + h) c w ltac:(nia) Hc Hw). unfold src, dst in Ho. destruct (z_join H b h Hh) as [Z1 Z2]. rewrite Z2, Z1 in Ho. rewrite Ho, Hx by auto. symmetry. exact (Vy b h w c).
Qed.
Lemma nchw_fills : forall dev v x k B C H W, shp x = [B; H; W; C] -> permute_to_nchw_cuda dev v x = Some k -> exists y, to_nchw x = Some y /\ overwrites k [B; C; H; W] y.
Proof.
  intros dev v x k B C H W Sx. destruct (to_nchw_val x B C H W Sx) as (y & Ey & Sy & Vy). unfold permute_to_nchw_cuda. destruct (shape4 _ _ _ _ _ Sx) as (-> & -> & -> & -> & ->). cbn [Nat.eqb guard bindo].
  destruct (fits32 _ && _); [|discriminate]. cbn [guard bindo]. intros Ek. exists y. split; [exact Ey|]. destruct (warps_ok v) as [W1 W2]. intros rg sh out.
  assert (Hx : forall b h w c, b < B -> c < C -> h < H -> w < W -> flat x (addr4 H W C b h w c) = val x [b; h; w; c]).
  { intros. unfold flat. rewrite Sx, addr_inv by auto. reflexivity. }
  set (src := fun z w c => addr4 H W C (z / H) (z - z / H * H) w c). set (dst := fun z c w => addr4 C H W (z / H) c (z - z / H * H) w).
  assert (Q := tiles_settle k warp_size (tile_warps v) W C (H * B) src dst
     (fun a => nth 0 (unravel [B; C; H; W] a) 0 * H + nth 2 (unravel [B; C; H; W] a) 0) (fun a => nth 3 (unravel [B; C; H; W] a) 0) (fun a => nth 1 (unravel [B; C; H; W] a) 0) ltac:(unfold warp_size; lia) W1 W2).
  injection Ek as <-. cbn [k_insize k_outsize k_groups k_threads k_shared k_code k_in] in Q.
  specialize (fun a b c => Q a b c eq_refl eq_refl eq_refl (fun g t => eq_refl) rg sh out).
  eapply WarpKernelProofs.settles_impl; [apply Q|].
  - intros z r c Hz Hr Hc. destruct (z_split H B z Hz) as (Z1 & Z2 & _). replace (B * C * H * W) with (B * H * W * C) by ring. now apply addr_lt.
  - intros z r c Hz Hr Hc. destruct (z_split H B z Hz) as (Z1 & Z2 & _). now apply addr_lt.
  - intros z r c Hz Hr Hc. destruct (z_split H B z Hz) as (Z1 & Z2 & Z3). unfold dst. rewrite addr_inv by auto. cbn [nth]. auto.
  - cbn beta. intros o Ho. split; [exact (eq_sym Sy)|]. intros i Hi. cbn [tensor_of shp] in Hi. apply valid4_elim in Hi. destruct Hi as (b & c & h & w & -> & Hb & Hc & Hh & Hw). cbn [tensor_of val]. rewrite <- addr_ravel.
    specialize (Ho (b * H + h) w c ltac:(nia) Hw Hc). unfold src, dst in Ho. destruct (z_join H b h Hh) as [Z1 Z2]. rewrite Z2, Z1 in Ho. rewrite Ho, Hx by auto. symmetry. exact (Vy b h w c).
Qed.
Lemma tiles_le : forall n m, div_up' n warp_size <= m <-> n <= 32 * m.
Proof.
  intros n m. unfold div_up'. change warp_size with 32. change (32 - 1) with 31. assert (Q := Nat.div_mod (n + 31) 32 ltac:(lia)). assert (Q2 := Nat.mod_upper_bound (n + 31) 32 ltac:(lia)). lia.
Qed.
Lemma tiles_pos : forall n, 1 <= div_up' n warp_size <-> 1 <= n.
Proof. intros n. assert (Q := tiles_le n 0). lia. Qed.
Lemma grid_iff : forall dev first second gz, permute_grid dev (div_up' first warp_size) (div_up' second warp_size) gz = true <->
  1 <= first /\ 1 <= second /\ 1 <= gz /\ first <= 32 * d_gridx dev /\ second <= 32 * (64 * 1024 - 1) /\ gz <= 64 * 1024 - 1.
Proof.
  intros. unfold permute_grid. rewrite !andb_true_iff, !Nat.leb_le, !Nat.ltb_lt. assert (P1 := tiles_pos first). assert (P2 := tiles_pos second). assert (L1 := tiles_le first (d_gridx dev)). assert (L2 := tiles_le second (64 * 1024 - 1)).
  assert (E : forall a, a < 64 * 1024 <-> a <= 64 * 1024 - 1) by (intros; lia). rewrite !E. clear E. tauto.
Qed.
Lemma fits_iff : forall n, fits32 n = true <-> (Z.of_nat n < 2147483648)%Z.
Proof. intros. unfold fits32. rewrite Z.leb_le. lia. Qed.
Lemma nhwc_launches : forall dev v x B C H W, shp x = [B; C; H; W] -> ((exists k, permute_to_nhwc_cuda dev v x = Some k) <-> converts dev B C H W C W).
Proof.
  intros dev v x B C H W Sx. unfold permute_to_nhwc_cuda. destruct (shape4 _ _ _ _ _ Sx) as (-> & -> & -> & -> & ->). cbn [Nat.eqb guard bindo]. unfold converts.
  assert (G := grid_iff dev C W (H * B)). assert (F := fits_iff (prod_list (shp x))). rewrite Sx in *. cbn [prod_list fold_right] in *. replace (B * (C * (H * (W * 1)))) with (B * C * H * W) in * by ring. rewrite (Nat.mul_comm H B) in *.
  assert (P : 1 <= B * H <-> 1 <= B /\ 1 <= H) by nia.
  destruct (fits32 _ && _) eqn:E; cbn [guard bindo].
  - apply andb_true_iff in E. destruct E as [E1 E2]. split; [intros _; tauto|eauto].
  - split; [intros (k & Q); discriminate|]. intros Q. exfalso. apply andb_false_iff in E. destruct E as [E|E]; [assert (E' : fits32 (B * C * H * W) = true) by tauto|assert (E' : permute_grid dev (div_up' C warp_size) (div_up' W warp_size) (B * H) = true) by tauto]; congruence.
Qed.
Lemma nchw_launches : forall dev v x B C H W, shp x = [B; H; W; C] -> ((exists k, permute_to_nchw_cuda dev v x = Some k) <-> converts dev B C H W W C).
Proof.
  intros dev v x B C H W Sx. unfold permute_to_nchw_cuda. destruct (shape4 _ _ _ _ _ Sx) as (-> & -> & -> & -> & ->). cbn [Nat.eqb guard bindo]. unfold converts.
  assert (G := grid_iff dev W C (H * B)). assert (F := fits_iff (prod_list (shp x))). rewrite Sx in *. cbn [prod_list fold_right] in *. replace (B * (H * (W * (C * 1)))) with (B * C * H * W) in * by ring. rewrite (Nat.mul_comm H B) in *.
  assert (P : 1 <= B * H <-> 1 <= B /\ 1 <= H) by nia.
  destruct (fits32 _ && _) eqn:E; cbn [guard bindo].
  - apply andb_true_iff in E. destruct E as [E1 E2]. split; [intros _; tauto|eauto].
  - split; [intros (k & Q); discriminate|]. intros Q. exfalso. apply andb_false_iff in E. destruct E as [E|E]; [assert (E' : fits32 (B * C * H * W) = true) by tauto|assert (E' : permute_grid dev (div_up' W warp_size) (div_up' C warp_size) (B * H) = true) by tauto]; congruence.
Qed.

(** ** Sorting *)
Lemma insert_perm : forall p l, Permutation (insert_desc p l) (p :: l).
Proof. intros p. induction l as [|q l IH]; [reflexivity|]. cbn [insert_desc]. destruct (fst p <? fst q); [|reflexivity]. rewrite IH. apply perm_swap. Qed.
Lemma sort_perm : forall l, Permutation (sort_pairs_desc l) l.
Proof. induction l as [|p l IH]; [reflexivity|]. cbn. rewrite insert_perm. now constructor. Qed.
Definition pair_order (p q : nat * nat) : Prop := fst q < fst p \/ fst p = fst q /\ snd p < snd q.
Lemma insert_sorted : forall p l, StronglySorted pair_order l -> (forall q, In q l -> snd p < snd q) -> StronglySorted pair_order (insert_desc p l).
Proof.
  intros p. induction l as [|q l IH]; intros S H; [repeat constructor|]. cbn [insert_desc]. inversion S as [|? ? S1 S2]; subst. destruct (Nat.ltb_spec (fst p) (fst q)) as [L|L].
  - constructor; [apply IH; auto; intros; apply H; now right|]. eapply Permutation_Forall; [apply Permutation_sym, insert_perm|]. constructor; [now left|exact S2].
  - constructor; [exact S|]. assert (Hq : pair_order p q). { specialize (H q (or_introl eq_refl)). unfold pair_order. lia. } constructor; [exact Hq|].
    apply Forall_forall. intros x Hx. assert (A := proj1 (Forall_forall _ _) S2 x Hx). specialize (H x (or_intror Hx)). unfold pair_order in *. lia.
Qed.
Lemma sort_sorted : forall (f : nat -> nat) n a, StronglySorted pair_order (sort_pairs_desc (map (fun i => (f i, i)) (seq a n))).
Proof.
  intros f. induction n as [|n IH]; intros a; [constructor|]. cbn. apply insert_sorted; [apply IH|]. intros q Hq. apply (Permutation_in _ (sort_perm _)) in Hq. apply in_map_iff in Hq. destruct Hq as (i & <- & Hi). apply in_seq in Hi. cbn. lia.
Qed.
Lemma sort_rows_perm : forall n roff, Permutation (sort_rows n roff) (seq 0 n).
Proof. intros. unfold sort_rows. rewrite (Permutation_map snd (sort_perm _)). rewrite map_map. cbn [snd]. now rewrite map_id. Qed.
Lemma sort_rows_order : forall n roff, row_order n (row_len roff) (sort_rows n roff).
Proof.
  intros n roff. split; [apply sort_rows_perm|]. unfold sort_rows. set (l := sort_pairs_desc _).
  assert (E : forall p, In p l -> fst p = row_len roff (snd p)). { intros p Hp. apply (Permutation_in _ (sort_perm _)) in Hp. apply in_map_iff in Hp. destruct Hp as (i & <- & _). reflexivity. }
  assert (S := sort_sorted (row_len roff) n 0). fold l in S. clearbody l. induction S as [|p l S IH F]; [constructor|]. cbn. constructor; [apply IH; intros; apply E; now right|].
  apply Forall_forall. intros x Hx. apply in_map_iff in Hx. destruct Hx as (q & <- & Hq). assert (A := proj1 (Forall_forall _ _) F q Hq). unfold pair_order in A. rewrite (E p (or_introl eq_refl)), (E q (or_intror Hq)) in A. exact A.
Qed.
(** an order of this kind is unique *)
Lemma order_unique : forall (len : nat -> nat) l l', StronglySorted (by_length len) l -> StronglySorted (by_length len) l' -> Permutation l l' -> l = l'.
Proof.
  intros len. induction l as [|a l IH]; intros l' S S' P; [now apply Permutation_nil in P|]. destruct l' as [|b l']; [apply Permutation_sym, Permutation_nil in P; discriminate|].
  inversion S as [|? ? S1 S2]; subst. inversion S' as [|? ? S1' S2']; subst.
  assert (a = b). { destruct (Nat.eq_dec a b) as [|Ne]; [auto|exfalso]. assert (Ha : In a (b :: l')) by (apply (Permutation_in _ P); now left). assert (Hb : In b (a :: l)) by (apply (Permutation_in _ (Permutation_sym P)); now left).
    destruct Ha as [Ha|Ha]; [congruence|]. destruct Hb as [Hb|Hb]; [congruence|]. assert (A := proj1 (Forall_forall _ _) S2 b Hb). assert (A' := proj1 (Forall_forall _ _) S2' a Ha). unfold by_length in *. lia. }
  subst b. f_equal. apply IH; auto. now apply Permutation_cons_inv in P.
Qed.
(** the kernel in front of the sort *)
Lemma rids_settle : forall dev n roff k, length roff = n + 1 -> set_rlen_rids dev n roff = Some k ->
  forall rg sh out, settles k (start k rg sh out) (fun o => forall i, i < n -> o i = INR i /\ o (n + i) = (INR (nth (i + 1) roff 0%nat) - INR (nth i roff 0%nat))%R).
Proof.
  intros dev n roff k Hl. unfold set_rlen_rids. destruct (_ && _) eqn:Eg; [|discriminate]. cbn [guard bindo]. intros Ek rg sh out. apply andb_true_iff in Eg. destruct Eg as [Eg _]. apply Nat.leb_le in Eg.
  set (G := div_up' n sort_threads) in *. assert (HT : 1 <= sort_threads) by (unfold sort_threads; lia). assert (Hn : forall i, i < n -> i < G * sort_threads).
  { intros i Hi. unfold G, div_up'. assert (Q := Nat.div_mod (n + (sort_threads - 1)) sort_threads ltac:(lia)). assert (Q2 := Nat.mod_upper_bound (n + (sort_threads - 1)) sort_threads ltac:(lia)). lia. }
  assert (St : forall g t i, g < G -> t < sort_threads -> In i (strided n (g * sort_threads + t) n (G * sort_threads)) -> i < n /\ i = g * sort_threads + t).
  { intros g t i Hg Ht Hi. assert (Hb : g * sort_threads + t < G * sort_threads) by nia. apply strided_mod in Hi; [|exact Hb]. destruct Hi as [H1 H2]. split; [exact H1|]. rewrite Nat.mod_small in H2 by auto. exact H2. }
  set (prog := fun g => [Seg (fun t => set_rlen_rids_k n (G * sort_threads) (g * sort_threads + t))]).
  set (F := fun a => if a <? n then INR a else (INR (nth (a - n + 1) roff 0%nat) - INR (nth (a - n) roff 0%nat))%R).
  set (body := fun i : nat => [IOut i (fun _ => INR i); IGet 0 (i + 1); IGet 1 i; IOut (n + i) (fun r => r 0%nat - r 1%nat)%R]).
  assert (Tr : forall l r s, (forall i, In i l -> i < n) -> snd (lrun (fun i => INR (nth i roff 0%nat)) (flat_map body l) (r, s)) = flat_map (fun i => [(i, USet, F i); (n + i, USet, F (n + i))]) l).
  { induction l as [|i l IH]; intros r s Hi; [reflexivity|]. cbn [flat_map app body]. rewrite !lrun_cons. cbn [fst snd emit reg_of sh_of app]. rewrite IH by (intros; apply Hi; now right).
    assert (Hin := Hi i (or_introl eq_refl)). rewrite put_ne, !put_eq by lia. assert (E1 : F i = INR i) by (unfold F; destruct (Nat.ltb_spec i n); [reflexivity|lia]). assert (E2 : F (n + i) = (INR (nth (i + 1) roff 0%nat) - INR (nth i roff 0%nat))%R) by (unfold F; destruct (Nat.ltb_spec (n + i) n); [lia|]; replace (n + i - n) with i by lia; reflexivity). rewrite <- E1, <- E2. reflexivity. }
  set (T := fun g => flat_map (fun t => flat_map (fun i => [(i, USet, F i); (n + i, USet, F (n + i))]) (strided n (g * sort_threads + t) n (G * sort_threads))) (seq 0 sort_threads)).
  injection Ek as <-. set (k := mkKernel _ _ _ _ _ _ _).
  apply (program_settles k prog (fun m o => o = upds (flat_map T (seq 0 m)) out) _ rg sh out (fun _ _ => False) (fun _ _ => True)); auto.
  - intros g t _ _. unfold prog, code_of. cbn [flat_map code1]. now rewrite app_nil_r.
  - intros g Hg. repeat constructor. intros t Ht. apply Forall_forall. intros x Hx. apply in_flat_map in Hx. destruct Hx as (i & Hi & Hx). destruct (St g t i Hg Ht Hi) as [Hin _].
    destruct Hx as [<-|[<-|[<-|[<-|[]]]]]; cbn [in_bounds k k_outsize k_insize]; apply Nat.ltb_lt; lia.
  - intros t t' a _ _ _ [].
  - intros g Hg. cbn [prog safe]. split; [|exact I]. intros t Ht. apply Forall_forall. intros x Hx. apply in_flat_map in Hx. destruct Hx as (i & Hi & Hx).
    destruct Hx as [<-|[<-|[<-|[<-|[]]]]]; (split; [reflexivity|]); intros a; cbn; split; intros Q; try contradiction; exact I.
  - set (own := fun a => let i := if a <? n then a else a - n in (i / sort_threads, i mod sort_threads)).
    assert (O : forall g t, g < G -> t < sort_threads -> Forall (owned own (g, t)) (k_code k g t)).
    { intros g t Hg Ht. cbn [k k_code]. apply Forall_forall. intros x Hx. apply in_flat_map in Hx. destruct Hx as (i & Hi & Hx). destruct (St g t i Hg Ht Hi) as [Hin Ei].
      assert (Q : (i / sort_threads, i mod sort_threads) = (g, t)) by (rewrite Ei, Nat.add_comm, Nat.div_add, Nat.mod_add, Nat.div_small, Nat.mod_small by lia; reflexivity).
      destruct Hx as [<-|[<-|[<-|[<-|[]]]]]; intros a Ha; cbn in Ha; try contradiction; subst a; unfold own; cbn zeta.
      - destruct (Nat.ltb_spec i n); [exact Q|lia].
      - destruct (Nat.ltb_spec (n + i) n); [lia|]. replace (n + i - n) with i by lia. exact Q. }
    intros g t g' t' Hg Ht Hg' Ht' Ne. apply (owned_compat own (g, t) (g', t')); auto.
  - intros g rg' sh' out' Hg ->. rewrite seq_S, flat_map_app, upds_app. cbn [flat_map plus]. rewrite app_nil_r. cbn [prog run_prog fold_left run_step k k_threads k_in].
    unfold T at 2. generalize (upds (flat_map T (seq 0 g)) out). intros o.
    assert (X : forall m r, m <= sort_threads -> exists r' s', fold_left (turn1 (fun i => INR (nth i roff 0)) (fun t => set_rlen_rids_k n (G * sort_threads) (g * sort_threads + t))) (seq 0 m) (r, sh', o) =
      (r', s', upds (flat_map (fun t => flat_map (fun i => [(i, USet, F i); (n + i, USet, F (n + i))]) (strided n (g * sort_threads + t) n (G * sort_threads))) (seq 0 m)) o)).
    { induction m as [|m IH]; intros r Hm; [eexists; eexists; reflexivity|]. rewrite seq_S, fold_left_app, flat_map_app, upds_app. destruct (IH r ltac:(lia)) as (r' & s' & ->). cbn [fold_left plus flat_map]. rewrite app_nil_r. unfold turn1. rewrite run_lrun. change (set_rlen_rids_k n (G * sort_threads) (g * sort_threads + m)) with (flat_map body (strided n (g * sort_threads + m) n (G * sort_threads))).
      rewrite Tr by (intros i Hi; apply (St g m i); auto; lia). eexists. eexists. reflexivity. }
    destruct (X sort_threads rg' (Nat.le_refl _)) as (r' & s' & ->). reflexivity.
  - intros o -> i Hi. cbn [k k_groups].
    assert (Ex : forall a, (a = i \/ a = n + i) -> upds (flat_map T (seq 0 G)) out a = F a).
    { intros a Ha. apply upds_set.
      - intros u Hu Ea. apply in_flat_map in Hu. destruct Hu as (g & Hg & Hu). apply in_flat_map in Hu. destruct Hu as (t & Ht & Hu). apply in_flat_map in Hu. destruct Hu as (i' & Hi' & [<-|[<-|[]]]); cbn in Ea; now rewrite Ea.
      - exists (a, USet, F a). split; [|reflexivity]. apply in_flat_map. exists (i / sort_threads). specialize (Hn i Hi). split; [apply in_seq; split; [lia|]; apply Nat.div_lt_upper_bound; lia|].
        apply in_flat_map. exists (i mod sort_threads). split; [apply in_seq; assert (Q := Nat.mod_upper_bound i sort_threads ltac:(lia)); lia|]. apply in_flat_map. exists i.
        assert (E : i / sort_threads * sort_threads + i mod sort_threads = i) by (assert (Q := Nat.div_mod i sort_threads ltac:(lia)); lia). rewrite E. split.
        + apply strided_mod; [lia|]. split; [exact Hi|]. now apply Nat.mod_small.
        + destruct Ha as [->| ->]; [now left|right; now left]. }
    rewrite (Ex i) by auto. rewrite (Ex (n + i)) by auto. unfold F. destruct (Nat.ltb_spec i n); [|lia]. destruct (Nat.ltb_spec (n + i) n); [lia|]. replace (n + i - n) with i by lia. auto.
Qed.

(** ** Splitting *)
Section Split.
Variables (len : nat -> nat) (m : nat).
Definition falling (idx : list nat) : Prop := StronglySorted (fun a b => len b <= len a) idx.
Lemma falling_longest : forall idx, falling idx -> longest len idx = len (nth 0 idx 0) \/ idx = [].
Proof.
  intros [|a idx] S; [now right|left]. unfold longest. cbn [map nth]. apply Nat.le_antisymm.
  - apply list_max_le. inversion S as [|? ? _ F]; subst. constructor; [lia|]. apply Forall_forall. intros x Hx. apply in_map_iff in Hx. destruct Hx as (b & <- & Hb). exact (proj1 (Forall_forall _ _) F b Hb).
  - assert (Q := proj1 (list_max_le (len a :: map len idx) _) (Nat.le_refl _)). now inversion Q.
Qed.
Lemma falling_app : forall a b, falling (a ++ b) -> falling a /\ falling b.
Proof.
  induction a as [|x a IH]; intros b S; [split; [constructor|exact S]|]. inversion S as [|? ? S1 S2]; subst. destruct (IH b S1). split; [|auto]. constructor; [auto|]. apply Forall_app in S2. apply S2.
Qed.
(** the long rows come first *)
Lemma falling_split : forall idx, falling idx -> exists long short, idx = long ++ short /\ (forall r, In r long -> m <= len r) /\ (forall r, In r short -> len r < m).
Proof.
  induction idx as [|a idx IH]; intros S; [exists [], []; repeat split; intros r []|]. inversion S as [|? ? S1 S2]; subst. destruct (Nat.le_gt_cases m (len a)) as [L|L].
  - destruct (IH S1) as (l & s & -> & A & B). exists (a :: l), s. repeat split; auto. intros r [<-|Hr]; auto.
  - exists [], (a :: idx). repeat split; [intros r []|]. intros r [<-|Hr]; [exact L|]. assert (Q := proj1 (Forall_forall _ _) S2 r Hr). cbn in Q. lia.
Qed.
End Split.
Lemma prefix_at : forall m roff long short, (forall r, In r long -> m <= row_len roff r) -> (forall r, In r short -> row_len roff r < m) -> long_prefix m roff (long ++ short) = length long.
Proof.
  intros m roff. induction long as [|a l IH]; intros s A B; cbn.
  - destruct s as [|b s]; [reflexivity|]. cbn. specialize (B b (or_introl eq_refl)). destruct (Nat.leb_spec m (row_len roff b)); [lia|reflexivity].
  - assert (Q := A a (or_introl eq_refl)). destruct (Nat.leb_spec m (row_len roff a)); [|lia]. f_equal. apply IH; auto. intros; apply A; now right.
Qed.
Lemma count_at : forall m BD n i roff idx a, 1 <= m -> a <= n -> n = length idx -> (forall j, j < n -> (m <= row_len roff (nth j idx 0) <-> j < a)) -> count_long m BD n i roff idx = Nat.min BD (a - i).
Proof.
  intros m BD n i roff idx a Hm Ha Hn H. unfold count_long.
  assert (E : forall b, length (filter (fun tid => m <=? (if i + tid <? n then row_len roff (nth (i + tid) idx 0) else 0)) (seq 0 b)) = Nat.min b (a - i)).
  { induction b as [|b IH]; [reflexivity|]. rewrite seq_S, filter_app, app_length, IH. cbn [plus filter]. destruct (Nat.ltb_spec (i + b) n) as [L|L].
    - specialize (H (i + b) L). destruct (Nat.leb_spec m (row_len roff (nth (i + b) idx 0))) as [M|M]; cbn [length]; lia.
    - destruct (Nat.leb_spec m 0); [lia|]. cbn [length]. lia. }
  apply E.
Qed.
Lemma scan_at : forall m BD n roff idx a, 1 <= m -> 1 <= BD -> a <= n -> n = length idx -> (forall j, j < n -> (m <= row_len roff (nth j idx 0) <-> j < a)) ->
  forall fuel i tot, n <= fuel + i -> i <= n + BD -> tot = Nat.min i a -> long_scan fuel m BD n i tot roff idx = a.
Proof.
  intros m BD n roff idx a Hm HB Ha Hn H. induction fuel as [|fuel IH]; intros i tot Hf Hi Ht; cbn [long_scan].
  - lia.
  - destruct (Nat.ltb_spec i n) as [L|L]; [|lia]. rewrite (count_at m BD n i roff idx a) by auto. destruct (Nat.eqb_spec (Nat.min BD (a - i)) 0) as [Z|Z]; [lia|]. apply IH; lia.
Qed.
Lemma by_length_falling : forall len idx, StronglySorted (by_length len) idx -> falling len idx.
Proof.
  intros len idx S. induction S as [|a l S IH F]; constructor; auto. eapply Forall_impl; [|exact F]. intros b [Q|Q]; lia.
Qed.
Theorem split_both : forall thres idx roff n, n = length idx -> falling (row_len roff) idx ->
  splits (row_len roff) idx (Nat.max (16 * 64) (thres (longest (row_len roff) idx))) (split_cpu thres idx roff n) /\ split_cuda thres idx roff n = split_cpu thres idx roff n.
Proof.
  intros thres idx roff n Hn S. unfold split_cpu, split_cuda. destruct (Nat.eqb_spec n 0) as [E0|E0].
  { subst n. destruct idx; [|discriminate]. split; [|reflexivity]. exists [], []. repeat split; intros r []. }
  assert (El : longest (row_len roff) idx = row_len roff (nth 0 idx 0)). { destruct (falling_longest _ _ S) as [E| ->]; [exact E|]. cbn in Hn. lia. }
  rewrite <- El. change (min_long thres (longest (row_len roff) idx)) with (Nat.max split_min_len (thres (longest (row_len roff) idx))). change (16 * 64) with split_min_len. set (m := Nat.max split_min_len _).
  assert (Hm : 1 <= m). { unfold m, split_min_len. assert (Q := Nat.le_max_l 1024 (thres (longest (row_len roff) idx))). eapply Nat.le_trans; [|exact Q]. lia. }
  clearbody m. rewrite (firstn_all2 idx) by lia. destruct (falling_split (row_len roff) m idx S) as (long & short & Ei & A & B).
  assert (Ep : long_prefix m roff idx = length long) by (rewrite Ei; now apply prefix_at). rewrite Ep.
  assert (Ln : length long <= n) by (rewrite Hn, Ei, app_length; lia).
  rewrite (scan_at m 1024 n roff idx (length long) Hm ltac:(lia) Ln Hn).
  2:{ intros j Hj. rewrite Ei. split.
      - intros Q. destruct (Nat.lt_ge_cases j (length long)) as [|Ge]; [auto|exfalso]. rewrite app_nth2 in Q by auto. assert (R := B (nth (j - length long) short 0)). rewrite Hn, Ei, app_length in Hj. specialize (R ltac:(apply nth_In; lia)). lia.
      - intros Q. rewrite app_nth1 by auto. apply A. now apply nth_In. }
  2,3,4: lia. split; [|reflexivity]. unfold split_of, splits. exists long, short. split; [exact Ei|]. split; [reflexivity|]. split; [exact A|]. split; [exact B|].
  rewrite Ei in S. destruct (falling_app _ _ _ S) as [S1 S2]. split.
  - destruct (falling_longest _ _ S1) as [E|E]; [|rewrite E; reflexivity]. destruct long as [|a l]; [reflexivity|]. rewrite E, Ei. reflexivity.
  - rewrite Ei. rewrite app_nth2 by lia. rewrite Nat.sub_diag. destruct (falling_longest _ _ S2) as [E|E].
    + destruct short as [|a l]; [|rewrite E]. { rewrite app_nil_r in Ei. subst. rewrite Nat.ltb_irrefl. reflexivity. } destruct (Nat.ltb_spec (length long) n) as [|Q]; [reflexivity|]. rewrite Hn, Ei, app_length in Q. cbn in Q. lia.
    + rewrite E in *. rewrite app_nil_r in Ei. subst. rewrite Nat.ltb_irrefl. reflexivity.
Qed.
Lemma longest_perm : forall len l l', Permutation l l' -> longest len l = longest len l'.
Proof.
  intros len l l' P. unfold longest. assert (Q : forall a b, Permutation a b -> list_max a <= list_max b).
  { intros a b Pab. apply list_max_le. apply (Permutation_Forall (Permutation_sym Pab)). now apply list_max_le. }
  apply Nat.le_antisymm; apply Q, Permutation_map; [exact P|now apply Permutation_sym].
Qed.
