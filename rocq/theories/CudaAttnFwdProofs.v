(** The forward kernels of CUDA attention: one group. *)
From Coq Require Import List Arith Lia Bool Reals Lra Permutation FunctionalExtensionality.
From Verif Require Import TensorModel TensorProofs BigSum DiscoModel DiscoSortProofs AttnModel AttnSpec AttnCoreProofs GpuModel GpuSpec GpuProofs GpuProofs2 WarpProofs CudaDiscoModel CudaWarpModel WarpSumProofs CudaFwdProofs CudaAttnModel CudaAttnProofs CudaAttnLaneProofs.
From Verif Require Import AttnSpec.
Import ListNotations.
Local Open Scope nat_scope.

Lemma in_point_eq : forall Wi Wo wo c, 1 <= Wi -> in_point Wi Wo wo c = (c / Wi, (c mod Wi + Wi / Wo * wo) mod Wi).
Proof.
  intros Wi Wo wo c H. unfold in_point. f_equal. assert (Q : forall x, x - x / Wi * Wi = x mod Wi) by (intros x; rewrite (Nat.mod_eq x Wi) by lia; rewrite (Nat.mul_comm Wi); reflexivity). rewrite !Q. reflexivity.
Qed.
Lemma row_of_spec : forall P rows N ho, pattern_ok P rows N -> ho < rows -> row_of (offsets 0 P) (columns P) ho = Some (nth ho P []).
Proof.
  intros P rows N ho HP Hh. assert (L := proj1 HP). unfold row_of. rewrite offsets_starts.
  assert (Ls : length (starts 0 P) = length P + 1) by (rewrite starts_length; lia).
  destruct (nth_error (starts 0 P) ho) eqn:E1; [|apply nth_error_None in E1; lia]. cbn [bindo].
  destruct (nth_error (starts 0 P) (ho + 1)) as [e|] eqn:E2; [|apply nth_error_None in E2; lia]. cbn [bindo].
  assert (e <= length (columns P)) by (apply nth_error_In in E2; apply starts_le in E2; exact E2).
  rewrite (proj2 (Nat.leb_le _ _) H), orb_true_r. cbn [guard bindo]. f_equal. rewrite <- offsets_starts. apply csr_row_spec. lia.
Qed.

Section Group.
Variables (V B nh nci nco Hi Wi Ho Wo : nat) (fmin : R) (kw vw qw : tensor R) (quad : nat -> R) (P : pattern).
Notation Ck := (V * nci). Notation Cv := (V * nco).
Hypotheses (HV : 1 <= V) (HWi : 1 <= Wi) (HWo : 1 <= Wo).
Hypotheses (Sk : shp kw = [B; Hi; Wi; nh * Ck]) (Sv : shp vw = [B; Hi; Wi; nh * Cv]) (Sq : shp qw = [B; Ho; Wo; nh * Ck]).
Hypothesis (HP : pattern_ok P Ho (Hi * Wi)).
Definition arrays : list (nat * (nat -> R)) := [(prod_list (shp kw), flat kw); (prod_list (shp vw), flat vw); (prod_list (shp qw), flat qw); (Hi, quad)].
Notation inp := (joined arrays).
Notation insz := (list_sum (map fst arrays)).

Lemma reads_tensor : forall i x H W C b hd h w, i < 3 -> nth i arrays (0, fun _ => 0%R) = (prod_list (shp x), flat x) -> shp x = [B; H; W; nh * (V * C)] -> b < B -> hd < nh -> h < H -> w < W ->
  reads inp insz (part arrays i) (at_point V (nh * C) C H W b hd h w) (V * C) (head x (V * C) b hd h w).
Proof.
  intros i x H W C b hd h w Hi3 Ei Sx Hb Hhd Hh Hw c Hc. rewrite point_addr. pose proof (chan_lt nh (V * C) hd c Hhd Hc) as Hd. set (d := hd * (V * C) + c) in *.
  assert (Es : snd (part arrays i) = B * H * W * (nh * (V * C))). { unfold part. cbn [snd]. change 0 with (fst (0, fun _ : nat => 0%R)) at 1. rewrite map_nth, Ei. cbn [fst]. rewrite Sx. cbn [prod_list fold_right]. ring. }
  assert (Hl := addr4_lt B H W (nh * (V * C)) b h w d Hb Hh Hw Hd). rewrite <- Es in Hl. split; [exact Hl|]. split; [apply part_in; [cbn; lia|exact Hl]|].
  rewrite joined_part by (try exact Hl; cbn; lia). rewrite Ei. cbn [snd]. rewrite (flat4 x B H W (nh * (V * C)) b h w d Sx Hb Hh Hw Hd). reflexivity.
Qed.
Lemma reads_k : forall b hd h w, b < B -> hd < nh -> h < Hi -> w < Wi -> reads inp insz (part arrays 0) (at_point V (ldi nh nci) nci Hi Wi b hd h w) Ck (head kw Ck b hd h w).
Proof. intros. apply reads_tensor; auto. Qed.
Lemma reads_v : forall b hd h w, b < B -> hd < nh -> h < Hi -> w < Wi -> reads inp insz (part arrays 1) (at_point V (ldo nh nco) nco Hi Wi b hd h w) Cv (head vw Cv b hd h w).
Proof. intros. apply reads_tensor; auto. Qed.
Lemma reads_q : forall b hd h w, b < B -> hd < nh -> h < Ho -> w < Wo -> reads inp insz (part arrays 2) (at_point V (ldi nh nci) nci Ho Wo b hd h w) Ck (head qw Ck b hd h w).
Proof. intros. apply reads_tensor; auto. Qed.
Lemma reads_w : reads inp insz (part arrays 3) 0 Hi quad.
Proof.
  intros c Hc. assert (E : snd (part arrays 3) = Hi) by reflexivity. split; [rewrite E; exact Hc|]. split; [apply part_in; [cbn; lia|rewrite E; exact Hc]|]. rewrite joined_part by (try (rewrite E; exact Hc); cbn; lia). reflexivity.
Qed.
Definition ysize : nat := B * Ho * Wo * (nh * Cv).
Definition yb (b hd ho wo : nat) : nat := at_point V (ldo nh nco) nco Ho Wo b hd ho wo.
Lemma yb_lt : forall b hd ho wo c, b < B -> hd < nh -> ho < Ho -> wo < Wo -> c < Cv -> yb b hd ho wo + c < ysize.
Proof. intros. unfold yb, ldo. rewrite point_addr. apply addr4_lt; auto. now apply chan_lt. Qed.

(** The value at a point. *)
Definition pts (ho wo : nat) : list (nat * nat) := nbrs_gather P Wi Wo ho wo.
Definition Y (b hd ho wo c : nat) : R := attn_at Ck quad (pts ho wo) (head kw Ck b hd) (head vw Cv b hd) (head qw Ck b hd) ho wo c.
Lemma pts_eq : forall ho wo, pts ho wo = map (in_point Wi Wo wo) (nth ho P []).
Proof. intros. unfold pts, nbrs_gather, rotated. apply map_ext. intros c. symmetry. now apply in_point_eq. Qed.
Lemma in_point_ok : forall ho wo c, In c (nth ho P []) -> fst (in_point Wi Wo wo c) < Hi /\ snd (in_point Wi Wo wo c) < Wi.
Proof.
  intros ho wo c Hc. rewrite in_point_eq by auto. cbn [fst snd]. split; [|apply Nat.mod_upper_bound; lia]. apply Nat.div_lt_upper_bound; [lia|]. rewrite Nat.mul_comm. eapply row_bound; eauto.
Qed.

Section At.
Variables (b hd ho wo : nat).
Hypotheses (Hb : b < B) (Hhd : hd < nh) (Hho : ho < Ho) (Hwo : wo < Wo).
Notation kf := (head kw Ck b hd). Notation vf := (head vw Cv b hd). Notation qf := (head qw Ck b hd ho wo).
Definition sc (p : nat * nat) : R := score Ck kf (head qw Ck b hd) ho wo p.
Definition run_to (d : list nat) : osm := osm_run sc (fun p => quad (fst p)) (fun p c => vf (fst p) (snd p) c) (map (in_point Wi Wo wo) d) (mkO 0 fmin (fun _ => 0%R)).
Lemma run_to_step : forall d c, run_to (d ++ [c]) = let p := in_point Wi Wo wo c in osm_step (sc p) (quad (fst p)) (vf (fst p) (snd p)) (run_to d).
Proof. intros. unfold run_to. rewrite map_app. unfold osm_run. rewrite fold_left_app. reflexivity. Qed.
Hypothesis (Hq : forall h, h < Hi -> (0 < quad h)%R).
Hypothesis (Hne : pts ho wo <> []).
Lemma run_to_end : forall c, (1 / o_sum (run_to (nth ho P [])) * o_acc (run_to (nth ho P [])) c)%R = Y b hd ho wo c.
Proof.
  intros c. destruct (osm_run_final _ sc (fun p => quad (fst p)) (fun p c => vf (fst p) (snd p) c) (map (in_point Wi Wo wo) (nth ho P [])) fmin) as [H1 H2].
  - intros p Hp. apply in_map_iff in Hp. destruct Hp as (c0 & <- & Hc0). apply Hq. now apply (in_point_ok ho wo c0).
  - rewrite <- pts_eq. exact Hne.
  - fold (run_to (nth ho P [])) in H1, H2. transitivity (o_acc (run_to (nth ho P [])) c / o_sum (run_to (nth ho P [])))%R; [unfold Rdiv; ring|]. rewrite H2, <- pts_eq. reflexivity.
Qed.

Section Special.
Variables (NW nloc : nat) (as_out : bool).
Notation BD := (32 * NW).
Hypotheses (HNW : 1 <= NW <= 32) (Hnl : 1 <= nloc) (Hout : (nloc - 1) * BD <= nco <= nloc * BD) (Hin : as_out = true -> (nloc - 1) * BD <= nci <= nloc * BD).
Notation cin := (in_chans BD V nloc nci as_out).
Notation cout := (out_chans BD V nloc nco).
Lemma cin_covers : covers BD Ck (chan_own BD V) cin.
Proof. unfold in_chans. apply floats_covers; auto. destruct as_out; [apply unrolled_covers; auto|apply loop_covers; lia]. Qed.
Lemma cout_covers : covers BD Cv (chan_own BD V) cout.
Proof. apply floats_covers; auto. apply unrolled_covers; auto. Qed.
Lemma cout_init : forall t c, In c (cout t) -> In c (init_chans BD V nloc t).
Proof. intros t c. unfold out_chans, init_chans. rewrite !floats_in by auto. now apply unrolled_all. Qed.

Definition dot_seg (c : nat) : nat -> list instr := fun t => ISet r_dot (fun _ => 0%R) ::
  flat_map (fun x => [ILoad r_t x; get (part arrays 0) r_u (at_point V (ldi nh nci) nci Hi Wi b hd (fst (in_point Wi Wo wo c)) (snd (in_point Wi Wo wo c)) + x); ISet r_dot (fun r => r r_dot + r r_t * r r_u)%R]) (cin t).
Definition upd_seg (c : nat) : nat -> list instr := fun t => new_max (part arrays 3) (fst (in_point Wi Wo wo c)) ++
  flat_map (fun x => [get (part arrays 1) r_t (at_point V (ldo nh nco) nco Hi Wi b hd (fst (in_point Wi Wo wo c)) (snd (in_point Wi Wo wo c)) + x); ISet (r_loc x) (fun r => r r_exp * r (r_loc x) + r r_alpha * r r_t)%R]) (cout t) ++
  [ISet r_max (fun r => r r_new)].
Definition init_seg : nat -> list instr := fun t => map (fun c => ISet (r_loc c) (fun _ => 0%R)) (init_chans BD V nloc t) ++
  flat_map (fun c => [get (part arrays 2) r_t (at_point V (ldi nh nci) nci Ho Wo b hd ho wo + c); IStore c (fun r => r r_t)]) (cin t) ++ [ISet r_sum (fun _ => 0%R); ISet r_max (fun _ => fmin)].
Definition fin_seg : nat -> list instr := fun t => ISet r_sum (fun r => 1 / r r_sum)%R :: map (fun c => set_out (0, ysize) (yb b hd ho wo + c) (fun r => r r_sum * r (r_loc c))%R) (cout t).
Definition special_prog : list gstep := [Seg init_seg] ++ flat_map (fun c => [Seg (dot_seg c)] ++ the_sum BD (V * nci) r_dot ++ [Seg (upd_seg c)]) (nth ho P []) ++ [Seg fin_seg].
Definition special_lanes : list gstep := [Seg init_seg] ++ flat_map (fun c => [Seg (dot_seg c); sum_bar BD r_dot; Seg (upd_seg c)]) (nth ho P []) ++ [Seg fin_seg].
Lemma entry_eq : forall c, special_entry BD V nloc nh nci nco Hi Wi Wo as_out (part arrays 0) (part arrays 1) (part arrays 3) b hd wo c = [Seg (dot_seg c)] ++ the_sum BD (V * nci) r_dot ++ [Seg (upd_seg c)].
Proof. intros. unfold special_entry. destruct (in_point Wi Wo wo c) as [h w] eqn:E. unfold dot_seg, upd_seg. rewrite E. reflexivity. Qed.

Definition FInv (o : osm) (st : nat -> (nat -> R) * (nat -> R)) : Prop := forall t, t < BD ->
  fst (st t) r_sum = o_sum o /\ fst (st t) r_max = o_max o /\ (forall c, In c (cout t) -> fst (st t) (r_loc c) = o_acc o c) /\ (forall c, In c (cin t) -> snd (st t) c = qf c).
Lemma entry_lanes : forall d c st, In c (nth ho P []) -> FInv (run_to d) st ->
  FInv (run_to (d ++ [c])) (fst (lane_prog inp BD [Seg (dot_seg c); sum_bar BD r_dot; Seg (upd_seg c)] (st, []))) /\
  snd (lane_prog inp BD [Seg (dot_seg c); sum_bar BD r_dot; Seg (upd_seg c)] (st, [])) = [].
Proof.
  intros d c st Hc I. destruct (in_point_ok ho wo c Hc) as [Hh Hw]. rewrite run_to_step. cbv zeta. destruct (in_point Wi Wo wo c) as [h w] eqn:Ep. cbn [fst snd] in *.
  rewrite !lane_seg, lane_sum, lane_seg. cbn [fst snd lane_prog fold_left].
  set (p1 := dot_seg c). set (p2 := upd_seg c). set (st1 := after inp BD p1 st). set (st2 := after_sum BD r_dot st1).
  assert (Hd : forall t, t < BD -> let m := lrun inp (p1 t) (st t) in
     snd m = [] /\ snd (fst m) = snd (st t) /\ fst (fst m) r_dot = rlsum (fun x => qf x * kf h w x)%R (cin t) /\ forall r, 3 <= r -> fst (fst m) r = fst (st t) r).
  { intros t Ht. destruct (I t Ht) as (_ & _ & _ & I4). destruct (st t) as [rg sh] eqn:Est. cbn [fst snd] in *. unfold p1, dot_seg. rewrite Ep. cbn [fst snd].
    destruct (dot_load inp insz (part arrays 0) (at_point V (ldi nh nci) nci Hi Wi b hd h w) Ck (kf h w) (cin t) rg sh) as (D1 & D2 & D3 & D4); [intros x Hx; now apply (cin_covers t Ht)|now apply reads_k|]. split; [exact D1|]. split; [exact D2|]. split; [|exact D4].
    transitivity (rlsum (fun x => sh x * kf h w x)%R (cin t)); [exact D3|]. apply lsum_ext. intros x Hx. now rewrite I4. }
  assert (H1 : forall t, t < BD -> snd (st1 t) = snd (st t) /\ fst (st1 t) r_dot = rlsum (fun x => qf x * kf h w x)%R (cin t) /\ forall r, 3 <= r -> fst (st1 t) r = fst (st t) r).
  { intros t Ht. unfold st1. rewrite after_in by exact Ht. now destruct (Hd t Ht) as (_ & A). }
  assert (Hs : rsum BD (fun t => fst (st1 t) r_dot) = sc (h, w)).
  { unfold sc, score. cbn [fst snd]. rewrite <- (covers_sum BD Ck (chan_own BD V) cin) by (try apply cin_covers; intros; apply chan_own_lt; lia). apply bsum_ext. intros t Ht. now apply H1. }
  assert (Hu : forall t, t < BD -> let m := lrun inp (p2 t) (st2 t) in
     snd m = [] /\ snd (fst m) = snd (st t) /\ let o := osm_step (sc (h, w)) (quad h) (vf h w) (run_to d) in
     (forall c, In c (cout t) -> fst (fst m) (r_loc c) = o_acc o c) /\ fst (fst m) r_sum = o_sum o /\ fst (fst m) r_max = o_max o).
  { intros t Ht. destruct (I t Ht) as (I1 & I2 & I3 & _). destruct (H1 t Ht) as (E1 & E2 & E3). unfold st2. rewrite after_sum_in by exact Ht. rewrite Hs, E1. unfold p2, upd_seg. rewrite Ep. cbn [fst snd].
    set (rg := put r_dot _ _). assert (Rd : rg r_dot = sc (h, w)) by apply put_eq.
    assert (R3 : forall r, 3 <= r -> rg r = fst (st t) r) by (intros r Hr; unfold rg; rewrite put_ne by (unfold r_dot; lia); now apply E3). clearbody rg.
    destruct (new_max_run inp insz (part arrays 3) h Hi quad (flat_map (fun x => [get (part arrays 1) r_t (at_point V (ldo nh nco) nco Hi Wi b hd h w + x); ISet (r_loc x) (fun r => r r_exp * r (r_loc x) + r r_alpha * r r_t)%R]) (cout t) ++ [ISet r_max (fun r => r r_new)]) rg (snd (st t)) reads_w Hh) as [M1 M2].
    rewrite M1. specialize (M2 _ eq_refl). set (rg' := fst (fst _)) in M2 |- *. cbv zeta in M2. destruct M2 as (M3 & M4 & M5 & M6 & M7 & M8). clearbody rg'.
    destruct (loc_update inp insz (part arrays 1) (at_point V (ldo nh nco) nco Hi Wi b hd h w) Cv (vf h w) (cout t) rg' (snd (st t)) (proj1 (cout_covers t Ht)) ltac:(intros x Hx; now apply (cout_covers t Ht)) (reads_v b hd h w Hb Hhd Hh Hw)) as (U1 & U2 & U3 & U4 & U5).
    split; [exact U1|]. split; [exact U2|]. rewrite Rd, (R3 r_max), I2 in * by (unfold r_max; lia). rewrite (R3 r_sum), I1 in M6 by (unfold r_sum; lia). cbn [osm_step o_acc o_sum o_max]. split; [|split].
    - intros x Hx. rewrite (U3 x Hx), M4, M5, M8, R3, I3 by (auto; unfold r_loc; lia). ring.
    - rewrite U4, M6. reflexivity.
    - rewrite U5, M3. reflexivity. }
  split.
  - intros t Ht. rewrite after_in by exact Ht. destruct (Hu t Ht) as (_ & U2 & U3 & U4 & U5). split; [exact U4|]. split; [exact U5|]. split; [exact U3|]. rewrite U2. apply (I t Ht).
  - rewrite !quiet; [reflexivity| |]; intros t Ht; [apply (Hu t Ht)|apply (Hd t Ht)].
Qed.
Lemma init_lanes : forall st, FInv (run_to []) (after inp BD init_seg st) /\ forall t, t < BD -> snd (lrun inp (init_seg t) (st t)) = [].
Proof.
  intros st. assert (Q : forall t, t < BD -> let m := lrun inp (init_seg t) (st t) in snd m = [] /\
    fst (fst m) r_sum = 0%R /\ fst (fst m) r_max = fmin /\ (forall c, In c (cout t) -> fst (fst m) (r_loc c) = 0%R) /\ (forall c, In c (cin t) -> snd (fst m) c = qf c)).
  { intros t Ht. unfold init_seg. destruct (st t) as [rg sh]. cbv zeta. rewrite !lrun_app. cbn [fst snd].
    destruct (zero_locs inp (init_chans BD V nloc t) rg sh) as (Z1 & Z2 & Z3). destruct (fst (lrun inp (map _ _) (rg, sh))) as [rg1 sh1] eqn:E1. cbn [fst snd] in *. subst sh1.
    destruct (copy_cells inp insz (part arrays 2) (at_point V (ldi nh nci) nci Ho Wo b hd ho wo) Ck qf (cin t) rg1 sh ltac:(intros x Hx; now apply (cin_covers t Ht)) (reads_q b hd ho wo Hb Hhd Hho Hwo)) as (C1 & C2 & C3 & C4).
    destruct (fst (lrun inp (flat_map _ _) (rg1, sh))) as [rg2 sh2] eqn:E2. cbn [fst snd] in *. rewrite Z1, C1. lr. split; [reflexivity|]. split; [reflexivity|]. split; [reflexivity|]. split; [|exact C3].
    intros c Hc. rewrite !put_ne by (unfold r_loc, r_max, r_sum; lia). rewrite C2 by (unfold r_loc; lia). apply Z3. now apply cout_init. }
  split; [|intros t Ht; apply (Q t Ht)]. intros t Ht. rewrite after_in by exact Ht. apply (Q t Ht).
Qed.
Definition fwd_trace (ch : nat -> list nat) (nT : nat) : list (nat * uop * R) := flat_map (fun t => map (fun c => (yb b hd ho wo + c, USet, Y b hd ho wo c)) (ch t)) (seq 0 nT).
Lemma special_trace : forall st, snd (lane_prog inp BD special_lanes (st, [])) = fwd_trace cout BD.
Proof.
  intros st. unfold special_lanes. cbn [app]. rewrite lane_seg. cbn [snd]. destruct (init_lanes st) as [I0 Q0]. rewrite quiet by exact Q0. cbn [app]. rewrite lane_prog_app. cbn [snd].
  destruct (lane_loop nat inp BD (fun c => [Seg (dot_seg c); sum_bar BD r_dot; Seg (upd_seg c)]) (fun _ => []) (fun d st => FInv (run_to d) st) (nth ho P []) _ I0) as [I1 I2].
  { intros d x r st1 E H. apply entry_lanes; [rewrite E, in_app_iff; right; now left|exact H]. }
  rewrite I2, flat_map_nil. cbn [app]. set (st1 := fst _) in *. clearbody st1. rewrite lane_seg. cbn [snd lane_prog fold_left]. rewrite app_nil_r. unfold fwd_trace. apply flat_map_in_ext. intros t Ht. apply in_seq in Ht.
  destruct (I1 t ltac:(lia)) as (A1 & A2 & A3 & A4). unfold fin_seg. destruct (st1 t) as [rg sh]. cbn [fst snd] in *. rewrite lrun_cons. cbn [reg_of sh_of emit fst snd app]. rewrite map_flat.
  destruct (lrun_loop _ inp (fun c => [set_out (0, ysize) (yb b hd ho wo + c) (fun r => r r_sum * r (r_loc c))%R]) (fun c => [(yb b hd ho wo + c, USet, Y b hd ho wo c)])
    (fun _ m => fst m = put r_sum (1 / rg r_sum)%R rg) (cout t) (put r_sum (1 / rg r_sum)%R rg, sh)) as [_ L2]; [reflexivity| |rewrite L2; symmetry; apply map_flat].
  intros d x r [rg1 sh1] E EI. cbn [fst] in EI. subst rg1. assert (Hx : In x (cout t)) by (rewrite E, in_app_iff; right; now left). unfold set_out. cbn [fst snd].
  assert (Hc : x < Cv) by (apply (cout_covers t ltac:(lia)); exact Hx). rewrite (proj2 (Nat.ltb_lt _ _)) by (now apply yb_lt). lr. split; [reflexivity|]. rewrite put_eq, put_ne by (unfold r_loc, r_sum; lia). rewrite A1, (A3 x Hx). now rewrite run_to_end.
Qed.

Notation own := (own_of BD V Ck).
Lemma own_chan : forall c, c < Ck -> own c = chan_own BD V c.
Proof. intros. unfold own_of. now rewrite (proj2 (Nat.ltb_lt _ _)). Qed.
Lemma get_conforms : forall W R t p r i, conforms W R t (get p r i).
Proof. intros. unfold get. destruct (_ <? _); (split; [reflexivity|]; intros; cbn; split; intros; contradiction). Qed.
Lemma set_conforms : forall W R t p i f, conforms W R t (set_out p i f).
Proof. intros. unfold set_out. destruct (_ <? _); (split; [reflexivity|]; intros; cbn; split; intros; contradiction). Qed.
Lemma init_conforms : forall t, t < BD -> Forall (conforms (mine own) (mine own) t) (init_seg t).
Proof.
  intros t Ht. unfold init_seg. rewrite !Forall_app. split; [|split].
  - apply Forall_forall. intros i Hi0. apply in_map_iff in Hi0. destruct Hi0 as (c & <- & _). cf.
  - apply Forall_flat. intros c Hc. fl; [apply get_conforms|cf]. subst. apply (cin_covers t Ht) in Hc. unfold mine. rewrite own_chan; tauto.
  - cf.
Qed.
Lemma dot_conforms : forall c t, t < BD -> Forall (conforms (mine own) (mine own) t) (dot_seg c t).
Proof.
  intros c t Ht. unfold dot_seg. constructor; [cf|]. apply Forall_flat. intros x Hx. fl; [cf|apply get_conforms|cf]. subst. apply (cin_covers t Ht) in Hx. unfold mine. rewrite own_chan; tauto.
Qed.
Lemma max_conforms : forall W R t pw h, Forall (conforms W R t) (new_max pw h).
Proof. intros. unfold new_max. fl; try apply get_conforms; cf. Qed.
Lemma upd_conforms : forall c t, t < BD -> Forall (conforms (mine own) (mine own) t) (upd_seg c t).
Proof.
  intros c t Ht. unfold upd_seg. rewrite !Forall_app. split; [apply max_conforms|]. split; [|cf]. apply Forall_flat. intros x Hx. fl; [apply get_conforms|cf].
Qed.
Lemma fin_conforms : forall t, t < BD -> Forall (conforms (mine own) (mine own) t) (fin_seg t).
Proof.
  intros t Ht. unfold fin_seg. constructor; [cf|]. apply Forall_forall. intros i Hi0. apply in_map_iff in Hi0. destruct Hi0 as (x & <- & _). apply set_conforms.
Qed.
Lemma special_refines : refines inp BD own special_prog special_lanes.
Proof.
  unfold special_prog, special_lanes. apply refines_app; [apply refines_seg, init_conforms|]. apply refines_app; [|apply refines_seg, fin_conforms].
  apply refines_flat. intros c _. change [Seg (dot_seg c); sum_bar BD r_dot; Seg (upd_seg c)] with ([Seg (dot_seg c)] ++ [sum_bar BD r_dot] ++ [Seg (upd_seg c)]).
  apply refines_app; [apply refines_seg, dot_conforms|]. apply refines_app; [now apply sum_refines|apply refines_seg, upd_conforms].
Qed.
Lemma special_safe : forall k, k_threads k = BD -> safe k (W0 BD V Ck) (mine own) special_prog.
Proof.
  intros k Ek. unfold special_prog. cbn [app safe]. rewrite Ek. split; [intros t Ht; apply mine_conforms, init_conforms; exact Ht|]. induction (nth ho P []) as [|c l IH].
  - cbn [flat_map app safe]. rewrite Ek. split; [|exact I]. intros t Ht. apply mine_conforms, fin_conforms; exact Ht.
  - cbn [flat_map]. rewrite <- !app_assoc. cbn [app safe]. rewrite Ek. split; [intros t Ht; apply mine_conforms, dot_conforms; exact Ht|]. rewrite <- app_assoc. apply sum_safe; [exact Ek|]. cbn [app safe]. rewrite Ek.
    split; [intros t Ht; apply mine_conforms, upd_conforms; exact Ht|exact IH].
Qed.
Lemma get_bounds : forall k p base n f r c, k_in k = inp -> k_insize k = insz -> reads inp insz p base n f -> c < n -> in_bounds k (get p r (base + c)) = true.
Proof. intros k p base n f r c E1 E2 HR Hc. rewrite (get_reads inp insz p base n f r c HR Hc). cbn [in_bounds]. rewrite E2. apply Nat.ltb_lt. now apply (HR c Hc). Qed.
Lemma max_bounds : forall k h, k_in k = inp -> k_insize k = insz -> h < Hi -> Forall (fun i => in_bounds k i = true) (new_max (part arrays 3) h).
Proof. intros k h E1 E2 Hh. unfold new_max. fl; try reflexivity. exact (get_bounds k _ 0 Hi quad r_w h E1 E2 reads_w Hh). Qed.
Lemma special_bounds : forall k, k_threads k = BD -> k_in k = inp -> k_insize k = insz -> k_outsize k = ysize -> Ck <= k_shared k -> (1 < NW -> Ck + NW <= k_shared k) -> Forall (step_bounds k) special_prog.
Proof.
  intros k Ek E1 E2 E3 Hs1 Hs2. unfold special_prog. apply Forall_app. split; [|apply Forall_app; split].
  - fl. intros t Ht. rewrite Ek in Ht. unfold init_seg. rewrite !Forall_app. split; [|split; [|fl; reflexivity]].
    + apply Forall_forall. intros i Hi0. apply in_map_iff in Hi0. destruct Hi0 as (c & <- & _). reflexivity.
    + apply Forall_flat. intros c Hc. apply (cin_covers t Ht) in Hc. fl; [|apply Nat.ltb_lt; lia]. refine (get_bounds k _ _ _ _ _ _ E1 E2 (reads_q b hd ho wo Hb Hhd Hho Hwo) _). tauto.
  - apply Forall_flat. intros c Hc. destruct (in_point_ok ho wo c Hc) as [Hh Hw]. apply Forall_app. split; [|apply Forall_app; split; [now apply sum_bounds|]].
    + fl. intros t Ht. rewrite Ek in Ht. unfold dot_seg. constructor; [reflexivity|]. apply Forall_flat. intros x Hx. apply (cin_covers t Ht) in Hx. fl; [apply Nat.ltb_lt; lia| |reflexivity]. refine (get_bounds k _ _ _ _ _ _ E1 E2 (reads_k b hd _ _ Hb Hhd Hh Hw) _). tauto.
    + fl. intros t Ht. rewrite Ek in Ht. unfold upd_seg. rewrite !Forall_app. split; [now apply max_bounds|]. split; [|fl; reflexivity]. apply Forall_flat. intros x Hx. apply (cout_covers t Ht) in Hx. fl; [|reflexivity]. refine (get_bounds k _ _ _ _ _ _ E1 E2 (reads_v b hd _ _ Hb Hhd Hh Hw) _). tauto.
  - fl. intros t Ht. rewrite Ek in Ht. unfold fin_seg. constructor; [reflexivity|]. apply Forall_forall. intros i Hi0. apply in_map_iff in Hi0. destruct Hi0 as (x & <- & Hx). apply (cout_covers t Ht) in Hx.
    assert (Hy := yb_lt b hd ho wo x Hb Hhd Hho Hwo ltac:(tauto)). unfold set_out. cbn [fst snd]. rewrite (proj2 (Nat.ltb_lt _ _) Hy). cbn [in_bounds plus]. rewrite E3. now apply Nat.ltb_lt.
Qed.
(** what is written, and by whom *)
Lemma quiet_tidy : forall kind holds gt p, Forall (fun i => match i with IOut _ _ | IAtom _ _ _ => False | _ => True end) p -> Forall (tidy kind holds gt) p.
Proof. intros. eapply Forall_impl; [|exact H]. intros i Hi0. destruct i; try contradiction; exact I. Qed.
Lemma get_quiet : forall p r i, match get p r i with IOut _ _ | IAtom _ _ _ => False | _ => True end.
Proof. intros. unfold get. now destruct (_ <? _). Qed.
Lemma special_tidy : forall g (holds : nat -> nat * nat -> Prop), (forall t c, t < BD -> c < Cv -> chan_own BD V c = t -> holds (yb b hd ho wo + c) (g, t)) ->
  forall t x, t < BD -> In x special_prog -> match x with Seg p => Forall (tidy (fun _ => None) holds (g, t)) (p t) | _ => True end.
Proof.
  intros g holds Hh t x Ht Hx. destruct x as [p|f|who f]; auto. unfold special_prog in Hx. rewrite !in_app_iff in Hx. destruct Hx as [[E|[]]|[Hx|[E|[]]]].
  - inversion E; subst. apply quiet_tidy. unfold init_seg. rewrite !Forall_app. split; [|split; [|fl; exact I]].
    + apply Forall_forall. intros i Hi0. apply in_map_iff in Hi0. destruct Hi0 as (c & <- & _). exact I.
    + apply Forall_flat. intros c Hc. fl; [apply get_quiet|exact I].
  - apply in_flat_map in Hx. destruct Hx as (c & Hc & Hx). rewrite !in_app_iff in Hx. apply quiet_tidy. destruct Hx as [[E|[]]|[Hx|[E|[]]]].
    + inversion E; subst. unfold dot_seg. constructor; [exact I|]. apply Forall_flat. intros y Hy. fl; try exact I. apply get_quiet.
    + eapply sum_segs; eauto.
    + inversion E; subst. unfold upd_seg, new_max. rewrite !Forall_app. split; [fl; try exact I; apply get_quiet|]. split; [|fl; exact I]. apply Forall_flat. intros y Hy. fl; try exact I. apply get_quiet.
  - inversion E; subst. unfold fin_seg. constructor; [exact I|]. apply Forall_forall. intros i Hi0. apply in_map_iff in Hi0. destruct Hi0 as (y & <- & Hy). apply (cout_covers t Ht) in Hy. unfold set_out. destruct (_ <? _); [|exact I]. cbn [tidy fst plus]. split; [reflexivity|]. now apply Hh.
Qed.
End Special.

(** ** The generic kernel *)
Notation gin := (gin_chans V nci).
Notation gout := (gout_chans V nco).
Lemma gin_covers : covers 32 Ck (chan_own 32 V) gin.
Proof using HV. apply floats_covers; [exact HV|]. apply loop_covers. apply Nat.leb_le. reflexivity. Qed.
Lemma gout_covers : covers 32 Cv (chan_own 32 V) gout.
Proof using HV. apply floats_covers; [exact HV|]. apply loop_covers. apply Nat.leb_le. reflexivity. Qed.
Definition gdot_seg (c : nat) : nat -> list instr := fun t => ISet r_dot (fun _ => 0%R) ::
  flat_map (fun x => [get (part arrays 2) r_t (at_point V (ldi nh nci) nci Ho Wo b hd ho wo + x); get (part arrays 0) r_u (at_point V (ldi nh nci) nci Hi Wi b hd (fst (in_point Wi Wo wo c)) (snd (in_point Wi Wo wo c)) + x);
    ISet r_dot (fun r => r r_dot + r r_t * r r_u)%R]) (gin t).
Definition gupd_seg (c : nat) : nat -> list instr := fun t => new_max (part arrays 3) (fst (in_point Wi Wo wo c)) ++
  flat_map (fun x => [ILoad r_u x; get (part arrays 1) r_t (at_point V (ldo nh nco) nco Hi Wi b hd (fst (in_point Wi Wo wo c)) (snd (in_point Wi Wo wo c)) + x); IStore x (fun r => r r_exp * r r_u + r r_alpha * r r_t)%R]) (gout t) ++
  [ISet r_max (fun r => r r_new)].
Definition ginit_seg : nat -> list instr := fun t => map (fun c => IStore c (fun _ => 0%R)) (gout t) ++ [ISet r_sum (fun _ => 0%R); ISet r_max (fun _ => fmin)].
Definition gfin_seg : nat -> list instr := fun t => ISet r_sum (fun r => 1 / r r_sum)%R :: flat_map (fun c => [ILoad r_u c; set_out (0, ysize) (yb b hd ho wo + c) (fun r => r r_sum * r r_u)%R]) (gout t).
Definition generic_prog : list gstep := [Seg ginit_seg] ++ flat_map (fun c => [Seg (gdot_seg c)] ++ warp_sum (fun _ => true) r_dot ++ [Seg (gupd_seg c)]) (nth ho P []) ++ [Seg gfin_seg].
Definition generic_lanes : list gstep := [Seg ginit_seg] ++ flat_map (fun c => [Seg (gdot_seg c); sum_bar 32 r_dot; Seg (gupd_seg c)]) (nth ho P []) ++ [Seg gfin_seg].
Lemma gentry_eq : forall c, generic_entry V nh nci nco Hi Wi Wo (part arrays 0) (part arrays 1) (part arrays 2) (part arrays 3) b hd (at_point V (ldi nh nci) nci Ho Wo b hd ho wo) wo c =
  [Seg (gdot_seg c)] ++ warp_sum (fun _ => true) r_dot ++ [Seg (gupd_seg c)].
Proof. intros. unfold generic_entry. destruct (in_point Wi Wo wo c) as [h w] eqn:E. unfold gdot_seg, gupd_seg. rewrite E. reflexivity. Qed.
Definition GInv (o : osm) (st : nat -> (nat -> R) * (nat -> R)) : Prop := forall t, t < 32 ->
  fst (st t) r_sum = o_sum o /\ fst (st t) r_max = o_max o /\ (forall c, In c (gout t) -> snd (st t) c = o_acc o c).
Lemma gentry_lanes : forall d c st, In c (nth ho P []) -> GInv (run_to d) st ->
  GInv (run_to (d ++ [c])) (fst (lane_prog inp 32 [Seg (gdot_seg c); sum_bar 32 r_dot; Seg (gupd_seg c)] (st, []))) /\
  snd (lane_prog inp 32 [Seg (gdot_seg c); sum_bar 32 r_dot; Seg (gupd_seg c)] (st, [])) = [].
Proof.
  intros d c st Hc I. destruct (in_point_ok ho wo c Hc) as [Hh Hw]. rewrite run_to_step. cbv zeta. destruct (in_point Wi Wo wo c) as [h w] eqn:Ep. cbn [fst snd] in *.
  rewrite !lane_seg, lane_sum, lane_seg. cbn [fst snd lane_prog fold_left].
  set (p1 := gdot_seg c). set (p2 := gupd_seg c). set (st1 := after inp 32 p1 st). set (st2 := after_sum 32 r_dot st1).
  assert (Hd : forall t, t < 32 -> let m := lrun inp (p1 t) (st t) in
     snd m = [] /\ snd (fst m) = snd (st t) /\ fst (fst m) r_dot = rlsum (fun x => qf x * kf h w x)%R (gin t) /\ forall r, 3 <= r -> fst (fst m) r = fst (st t) r).
  { intros t Ht. destruct (st t) as [rg sh] eqn:Est. cbn [fst snd] in *. unfold p1, gdot_seg. rewrite Ep. cbn [fst snd].
    apply (dot_get inp insz (part arrays 0) (at_point V (ldi nh nci) nci Hi Wi b hd h w) (kf h w) (part arrays 2) _ qf Ck (gin t) rg sh); [intros x Hx; now apply (gin_covers t Ht)|now apply reads_k|now apply reads_q]. }
  assert (H1 : forall t, t < 32 -> snd (st1 t) = snd (st t) /\ fst (st1 t) r_dot = rlsum (fun x => qf x * kf h w x)%R (gin t) /\ forall r, 3 <= r -> fst (st1 t) r = fst (st t) r).
  { intros t Ht. unfold st1. rewrite after_in by exact Ht. now destruct (Hd t Ht) as (_ & A). }
  assert (Hs : rsum 32 (fun t => fst (st1 t) r_dot) = sc (h, w)).
  { unfold sc, score. cbn [fst snd]. rewrite <- (covers_sum 32 Ck (chan_own 32 V) gin) by (try apply gin_covers; intros; apply chan_own_lt; lia). apply bsum_ext. intros t Ht. now apply H1. }
  assert (Hu : forall t, t < 32 -> let m := lrun inp (p2 t) (st2 t) in
     snd m = [] /\ let o := osm_step (sc (h, w)) (quad h) (vf h w) (run_to d) in
     (forall c, In c (gout t) -> snd (fst m) c = o_acc o c) /\ fst (fst m) r_sum = o_sum o /\ fst (fst m) r_max = o_max o).
  { intros t Ht. destruct (I t Ht) as (I1 & I2 & I3). destruct (H1 t Ht) as (E1 & E2 & E3). unfold st2. rewrite after_sum_in by exact Ht. rewrite Hs, E1. unfold p2, gupd_seg. rewrite Ep. cbn [fst snd].
    set (rg := put r_dot _ _). assert (Rd : rg r_dot = sc (h, w)) by apply put_eq.
    assert (R3 : forall r, 3 <= r -> rg r = fst (st t) r) by (intros r Hr; unfold rg; rewrite put_ne by (unfold r_dot; lia); now apply E3). clearbody rg.
    destruct (new_max_run inp insz (part arrays 3) h Hi quad (flat_map (fun x => [ILoad r_u x; get (part arrays 1) r_t (at_point V (ldo nh nco) nco Hi Wi b hd h w + x); IStore x (fun r => r r_exp * r r_u + r r_alpha * r r_t)%R]) (gout t) ++ [ISet r_max (fun r => r r_new)]) rg (snd (st t)) reads_w Hh) as [M1 M2].
    rewrite M1. specialize (M2 _ eq_refl). set (rg' := fst (fst _)) in M2 |- *. cbv zeta in M2. destruct M2 as (M3 & M4 & M5 & M6 & M7 & M8). clearbody rg'.
    destruct (sh_update inp insz (part arrays 1) (at_point V (ldo nh nco) nco Hi Wi b hd h w) Cv (vf h w) (gout t) rg' (snd (st t)) (proj1 (gout_covers t Ht)) ltac:(intros x Hx; now apply (gout_covers t Ht)) (reads_v b hd h w Hb Hhd Hh Hw)) as (U1 & U3 & U4 & U5).
    split; [exact U1|]. rewrite Rd, (R3 r_max), I2 in * by (unfold r_max; lia). rewrite (R3 r_sum), I1 in M6 by (unfold r_sum; lia). cbn [osm_step o_acc o_sum o_max]. split; [|split].
    - intros x Hx. rewrite (U3 x Hx), M4, M5, I3 by auto. ring.
    - rewrite U4, M6. reflexivity.
    - rewrite U5, M3. reflexivity. }
  split.
  - intros t Ht. rewrite after_in by exact Ht. destruct (Hu t Ht) as (_ & U3 & U4 & U5). split; [exact U4|]. split; [exact U5|]. exact U3.
  - rewrite !quiet; [reflexivity| |]; intros t Ht; [apply (Hu t Ht)|apply (Hd t Ht)].
Qed.
Lemma ginit_lanes : forall st, GInv (run_to []) (after inp 32 ginit_seg st) /\ forall t, t < 32 -> snd (lrun inp (ginit_seg t) (st t)) = [].
Proof.
  intros st. assert (Q : forall t, t < 32 -> let m := lrun inp (ginit_seg t) (st t) in snd m = [] /\
    fst (fst m) r_sum = 0%R /\ fst (fst m) r_max = fmin /\ (forall c, In c (gout t) -> snd (fst m) c = 0%R)).
  { intros t Ht. unfold ginit_seg. destruct (st t) as [rg sh]. cbv zeta. rewrite !lrun_app. cbn [fst snd].
    destruct (zero_cells inp (gout t) rg sh) as (Z1 & Z2). destruct (fst (lrun inp (map _ _) (rg, sh))) as [rg1 sh1] eqn:E1. cbn [fst snd] in *. rewrite Z1. lr. split; [reflexivity|]. split; [reflexivity|]. split; [reflexivity|]. exact Z2. }
  split; [|intros t Ht; apply (Q t Ht)]. intros t Ht. rewrite after_in by exact Ht. apply (Q t Ht).
Qed.
Lemma generic_trace : forall st, snd (lane_prog inp 32 generic_lanes (st, [])) = fwd_trace gout 32.
Proof.
  intros st. unfold generic_lanes. cbn [app]. rewrite lane_seg. cbn [snd]. destruct (ginit_lanes st) as [I0 Q0]. rewrite quiet by exact Q0. cbn [app]. rewrite lane_prog_app. cbn [snd].
  destruct (lane_loop nat inp 32 (fun c => [Seg (gdot_seg c); sum_bar 32 r_dot; Seg (gupd_seg c)]) (fun _ => []) (fun d st => GInv (run_to d) st) (nth ho P []) _ I0) as [I1 I2].
  { intros d x r st1 E H. apply gentry_lanes; [rewrite E, in_app_iff; right; now left|exact H]. }
  rewrite I2, flat_map_nil. cbn [app]. set (st1 := fst _) in *. clearbody st1. rewrite lane_seg. cbn [snd lane_prog fold_left]. rewrite app_nil_r. unfold fwd_trace. apply flat_map_in_ext. intros t Ht. apply in_seq in Ht.
  destruct (I1 t ltac:(lia)) as (A1 & A2 & A3). unfold gfin_seg. destruct (st1 t) as [rg sh]. cbn [fst snd] in *. rewrite lrun_cons. cbn [reg_of sh_of emit fst snd app].
  destruct (lrun_loop _ inp (fun c => [ILoad r_u c; set_out (0, ysize) (yb b hd ho wo + c) (fun r => r r_sum * r r_u)%R]) (fun c => [(yb b hd ho wo + c, USet, Y b hd ho wo c)])
    (fun _ m => fst m r_sum = (1 / rg r_sum)%R /\ snd m = sh) (gout t) (put r_sum (1 / rg r_sum)%R rg, sh)) as [_ L2]; [split; reflexivity| |rewrite L2; symmetry; apply map_flat].
  intros d x r [rg1 sh1] E [EI ES]. cbn [fst snd] in EI, ES. subst sh1. assert (Hx : In x (gout t)) by (rewrite E, in_app_iff; right; now left). unfold set_out. cbn [fst snd].
  assert (Hc : x < Cv) by (apply (gout_covers t ltac:(lia)); exact Hx). rewrite (proj2 (Nat.ltb_lt _ _)) by (now apply yb_lt). lr. split; [split; [rewrite put_ne by (unfold r_sum, r_u; lia); exact EI|reflexivity]|]. rewrite put_eq, put_ne by (unfold r_u, r_sum; lia). rewrite EI, A1, (A3 x Hx). now rewrite run_to_end.
Qed.
Notation gown := (own_of 32 V Cv).
Lemma gown_chan : forall c, c < Cv -> gown c = chan_own 32 V c.
Proof. intros. unfold own_of. now rewrite (proj2 (Nat.ltb_lt _ _)). Qed.
Lemma gseg_conforms : forall p t, t < 32 -> In (Seg p) generic_lanes -> Forall (conforms (mine gown) (mine gown) t) (p t).
Proof.
  assert (Q : forall t x, t < 32 -> In x (gout t) -> gown x = t) by (intros t x Ht Hx; apply (gout_covers t Ht) in Hx; rewrite gown_chan; tauto).
  intros p t Ht H. unfold generic_lanes in H. rewrite !in_app_iff in H. destruct H as [[E|[]]|[Hx|[E|[]]]].
  - inversion E; subst. unfold ginit_seg. apply Forall_app. split; [|cf]. apply Forall_forall. intros i Hi0. apply in_map_iff in Hi0. destruct Hi0 as (x & <- & Hx). cf. subst. now apply Q.
  - apply in_flat_map in Hx. destruct Hx as (c & Hc & [E|[E|[E|[]]]]); inversion E; subst.
    + unfold gdot_seg. constructor; [cf|]. apply Forall_flat. intros x Hx. fl; try apply get_conforms. cf.
    + unfold gupd_seg. rewrite !Forall_app. split; [apply max_conforms|]. split; [|cf]. apply Forall_flat. intros x Hx. fl; try apply get_conforms; cf; subst; now apply Q.
  - inversion E; subst. unfold gfin_seg. constructor; [cf|]. apply Forall_flat. intros x Hx. fl; [cf; subst; now apply Q|apply set_conforms].
Qed.
Lemma gparts : forall c, In c (nth ho P []) -> In (Seg (gdot_seg c)) generic_lanes /\ In (Seg (gupd_seg c)) generic_lanes.
Proof. intros c Hc. unfold generic_lanes. rewrite !in_app_iff, !in_flat_map. split; right; left; exists c; (split; [exact Hc|]); cbn; auto. Qed.
Lemma gends : In (Seg ginit_seg) generic_lanes /\ In (Seg gfin_seg) generic_lanes.
Proof. unfold generic_lanes. rewrite !in_app_iff. split; [left|right; right]; now left. Qed.
Lemma generic_refines : refines inp 32 gown generic_prog generic_lanes.
Proof.
  unfold generic_prog, generic_lanes. apply refines_app; [apply refines_seg; intros; apply gseg_conforms; auto; apply gends|]. apply refines_app; [|apply refines_seg; intros; apply gseg_conforms; auto; apply gends].
  apply refines_flat. intros c Hc. change [Seg (gdot_seg c); sum_bar 32 r_dot; Seg (gupd_seg c)] with ([Seg (gdot_seg c)] ++ [sum_bar 32 r_dot] ++ [Seg (gupd_seg c)]).
  apply refines_app; [apply refines_seg; intros; apply gseg_conforms; auto; now apply gparts|]. apply refines_app; [exact (sum_refines inp 1 V Cv r_dot ltac:(lia))|apply refines_seg; intros; apply gseg_conforms; auto; now apply gparts].
Qed.
Lemma generic_safe : forall k, k_threads k = 32 -> safe k (W0 32 V Cv) (mine gown) generic_prog.
Proof.
  intros k Ek. unfold generic_prog. cbn [app safe]. rewrite Ek. split; [intros t Ht; apply mine_conforms, gseg_conforms; auto; apply gends|]. assert (Q := gparts). induction (nth ho P []) as [|c l IH].
  - cbn [flat_map app safe]. rewrite Ek. split; [|exact I]. intros t Ht. apply mine_conforms, gseg_conforms; auto; apply gends.
  - cbn [flat_map]. rewrite <- !app_assoc. cbn [app safe]. rewrite Ek. split; [intros t Ht; apply mine_conforms, gseg_conforms; auto; apply Q; now left|]. split; [|apply IH; intros; apply Q; now right].
    intros t Ht; rewrite Ek in Ht; apply mine_conforms, gseg_conforms; auto; apply Q; now left.
Qed.
Lemma generic_bounds : forall k, k_threads k = 32 -> k_in k = inp -> k_insize k = insz -> k_outsize k = ysize -> Cv <= k_shared k -> Forall (step_bounds k) generic_prog.
Proof.
  intros k Ek E1 E2 E3 Hs1. unfold generic_prog. apply Forall_app. split; [|apply Forall_app; split].
  - fl. intros t Ht. rewrite Ek in Ht. unfold ginit_seg. apply Forall_app. split; [|fl; reflexivity].
    apply Forall_forall. intros i Hi0. apply in_map_iff in Hi0. destruct Hi0 as (c & <- & Hc). apply (gout_covers t Ht) in Hc. apply Nat.ltb_lt. lia.
  - apply Forall_flat. intros c Hc. destruct (in_point_ok ho wo c Hc) as [Hh Hw]. apply Forall_app. split; [|apply Forall_app; split; [repeat constructor|]].
    + fl. intros t Ht. rewrite Ek in Ht. unfold gdot_seg. constructor; [reflexivity|]. apply Forall_flat. intros x Hx. apply (gin_covers t Ht) in Hx. fl; [| |reflexivity].
      * refine (get_bounds k _ _ _ _ _ _ E1 E2 (reads_q b hd _ _ Hb Hhd Hho Hwo) _). tauto.
      * refine (get_bounds k _ _ _ _ _ _ E1 E2 (reads_k b hd _ _ Hb Hhd Hh Hw) _). tauto.
    + fl. intros t Ht. rewrite Ek in Ht. unfold gupd_seg. rewrite !Forall_app. split; [now apply max_bounds|]. split; [|fl; reflexivity]. apply Forall_flat. intros x Hx. apply (gout_covers t Ht) in Hx. fl; [apply Nat.ltb_lt; lia| |apply Nat.ltb_lt; lia]. refine (get_bounds k _ _ _ _ _ _ E1 E2 (reads_v b hd _ _ Hb Hhd Hh Hw) _). tauto.
  - fl. intros t Ht. rewrite Ek in Ht. unfold gfin_seg. constructor; [reflexivity|]. apply Forall_flat. intros x Hx. apply (gout_covers t Ht) in Hx.
    assert (Hy := yb_lt b hd ho wo x Hb Hhd Hho Hwo ltac:(tauto)). fl; [apply Nat.ltb_lt; lia|]. unfold set_out. cbn [fst snd]. rewrite (proj2 (Nat.ltb_lt _ _) Hy). cbn [in_bounds plus]. rewrite E3. now apply Nat.ltb_lt.
Qed.
Lemma generic_tidy : forall g (holds : nat -> nat * nat -> Prop), (forall t c, t < 32 -> c < Cv -> chan_own 32 V c = t -> holds (yb b hd ho wo + c) (g, t)) ->
  forall t x, t < 32 -> In x generic_prog -> match x with Seg p => Forall (tidy (fun _ => None) holds (g, t)) (p t) | _ => True end.
Proof.
  intros g holds Hh t x Ht Hx. destruct x as [p|f|who f]; auto. unfold generic_prog in Hx. rewrite !in_app_iff in Hx. destruct Hx as [[E|[]]|[Hx|[E|[]]]].
  - inversion E; subst. apply quiet_tidy. unfold ginit_seg. apply Forall_app. split; [|fl; exact I]. apply Forall_forall. intros i Hi0. apply in_map_iff in Hi0. destruct Hi0 as (c & <- & _). exact I.
  - apply in_flat_map in Hx. destruct Hx as (c & Hc & Hx). rewrite !in_app_iff in Hx. apply quiet_tidy. destruct Hx as [[E|[]]|[Hx|[E|[]]]].
    + inversion E; subst. unfold gdot_seg. constructor; [exact I|]. apply Forall_flat. intros y Hy. fl; try exact I; apply get_quiet.
    + exfalso. unfold warp_sum in Hx. apply in_map_iff in Hx. destruct Hx as (i & E & _). discriminate.
    + inversion E; subst. unfold gupd_seg, new_max. rewrite !Forall_app. split; [fl; try exact I; apply get_quiet|]. split; [|fl; exact I]. apply Forall_flat. intros y Hy. fl; try exact I. apply get_quiet.
  - inversion E; subst. unfold gfin_seg. constructor; [exact I|]. apply Forall_flat. intros y Hy. fl; [exact I|]. apply (gout_covers t Ht) in Hy. unfold set_out. destruct (_ <? _); [|exact I]. cbn [tidy fst plus]. split; [reflexivity|]. now apply Hh.
Qed.
End At.
End Group.
