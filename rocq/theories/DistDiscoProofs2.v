(** The ranks of the distributed DISCO layers, and the reordered schedule. *)
From Coq Require Import List Arith Lia Bool Reals Lra Permutation Sorted.
From Verif Require Import TensorModel TensorProofs BigSum PrimModel PrimSpec PrimProofs PrimProofs2 PrimAutogradModel PrimPropProofs DistSHTModel DistSHTProofs DistSHTProofs2 DistMiscProofs DistSpectralProofs
  DiscoModel DiscoSpec DiscoTensorProofs DiscoLayerProofs DiscoRunProofs DistDiscoModel DistDiscoSpec DistDiscoProofs.
Import ListNotations.
Local Open Scope nat_scope.

Lemma rank_init : forall junk opt P A hi wi ho wo G Og Cg K weight bias es p a,
  layer_ok K hi wi ho wo G Og Cg weight bias es -> slices_filled hi wi P es ->
  1 <= P <= hi -> P <= ho -> 1 <= A <= wi -> A <= wo -> p < P ->
  let les := map (local_entry (chunk_lo hi P p) wi) (lat_slice hi wi P p es) in
  exists roff es', dist_conv_init junk opt P A hi wi ho wo G K weight bias es p a = Some (mkD K (chunk_len hi P p) wi ho wo G weight bias roff es' les) /\
    (opt = true -> preprocess_psi junk K ho les = Some (roff, es')).
Proof.
  intros junk opt P A hi wi ho wo G Og Cg K weight bias es p a L F HP HPo HA HAo Hp les. destruct L. unfold dist_conv_init. rewrite !css_some by lia. cbn [bindo].
  rewrite chunk_len_nth by lia. rewrite (split_psi_spec P p hi wi es) by (auto; lia). cbn [bindo]. fold les.
  assert (W : psi_wf K ho (chunk_len hi P p * wi) les) by (apply slice_wf; auto).
  assert (N : les <> []). { intros E. pose proof (F p Hp) as L. unfold les in E. apply map_eq_nil in E. rewrite E in L. cbn in L. lia. }
  destruct opt.
  - rewrite (preprocess_spec junk K ho (chunk_len hi P p * wi) les) by (auto; apply slice_sorted; auto). cbn [bindo fst snd]. eexists _, _. split; [reflexivity|]. intros _. reflexivity.
  - unfold get_psi. rewrite (in_range_true _ _ _ _ W). cbn [guard bindo]. exists [], []. split; [reflexivity|discriminate].
Qed.
Lemma rank_works : forall junk junk' opt P A hi wi ho wo G Og Cg K B weight bias es,
  layer_ok K hi wi ho wo G Og Cg weight bias es -> slices_filled hi wi P es -> (opt = true -> slices_separated K hi wi P es) -> (opt = false -> ho <= wi) ->
  1 <= P <= hi -> P <= ho -> 1 <= A <= wi -> A <= wo ->
  rank_ok P A hi wi ho wo G K B weight bias es junk' opt (dist_conv_init junk opt P A hi wi ho wo G K weight bias es).
Proof.
  intros junk junk' opt P A hi wi ho wo G Og Cg K B weight bias es L F S HH HP HPo HA HAo p a Hp Ha.
  destruct (rank_init junk opt P A hi wi ho wo G Og Cg K weight bias es p a) as (roff & es' & E & PP); auto. rewrite E. eexists. split; [reflexivity|]. cbn [d_nlon_in d_groups d_weight d_bias].
  do 4 (split; [reflexivity|]). intros C t St. destruct L. unfold local_contraction. cbn [d_K d_nlat_out d_nlon_out d_roff d_es d_nlat_in d_nlon_in d_raw].
  set (les := map (local_entry (chunk_lo hi P p) wi) (lat_slice hi wi P p es)) in *.
  assert (W : psi_wf K ho (chunk_len hi P p * wi) les) by (apply slice_wf; auto).
  destruct opt.
  - eapply (cpu_fwd_spec junk junk' K ho wo les roff es' t B C); eauto.
    + apply slice_sorted; auto.
    + apply slice_separated. apply S; auto.
    + intros E0. pose proof (F p Hp) as L. unfold les in E0. apply map_eq_nil in E0. rewrite E0 in L. cbn in L. lia.
  - unfold get_psi. rewrite (in_range_true _ _ _ _ W). cbn [guard bindo]. apply (torch_fwd_spec K ho wo les t B C); auto.
Qed.

Lemma wf_col : forall K Ho N es, psi_wf K Ho N es -> forall e, In e es -> col e < N.
Proof. intros K Ho N es W e He. apply W; auto. Qed.
(** The standard schedule returns the shards of the serial layer's output. *)
Theorem dist_conv_serial : forall junk junk' junk'' debug P A hi wi ho wo G Og Cg K B weight bias es s (X : tensor R) x,
  layer_ok K hi wi ho wo G Og Cg weight bias es -> conv_s2_init junk hi wi ho wo G K weight bias es = Some s ->
  slices_filled hi wi P es -> slices_separated K hi wi P es ->
  1 <= P <= hi -> P <= ho -> 1 <= A <= wi -> A <= wo -> A <= G * Cg ->
  shp X = [B; G * Cg; hi; wi] -> holds2 P A x (fun p a => shard 2 P p (shard 3 A a X)) ->
  exists Y, conv_s2_opt junk'' s X = Some Y /\
    holds2 P A (dist_conv junk' true debug P A (dist_conv_init junk true P A hi wi ho wo G K weight bias es) x) (fun p a => shard 2 P p (shard 3 A a Y)).
Proof.
  intros junk junk' junk'' debug P A hi wi ho wo G Og Cg K B weight bias es s X x L I F S HP HPo HA HAo HAC SX Hx.
  destruct (conv_opt_spec junk junk'' hi wi ho wo G Og Cg K weight bias es s X B L I SX) as (Y & EY & TY). exists Y. split; auto.
  destruct L. eapply holds2_teq; [eapply (dist_conv_ok P A hi wi ho wo G Og Cg K B weight bias es); eauto; try lia|].
  - eapply wf_col; eauto.
  - eapply rank_works; eauto; [econstructor; eauto|discriminate].
  - intros p a Hp Ha. cbn beta. apply shard_proper; try lia. apply shard_proper; try lia. apply teq_sym; auto.
Qed.
Theorem dist_conv_torch_serial : forall junk junk' debug P A hi wi ho wo G Og Cg K B weight bias es s (X : tensor R) x,
  layer_ok K hi wi ho wo G Og Cg weight bias es -> conv_s2_init junk hi wi ho wo G K weight bias es = Some s ->
  slices_filled hi wi P es -> ho <= wi ->
  1 <= P <= hi -> P <= ho -> 1 <= A <= wi -> A <= wo -> A <= G * Cg ->
  shp X = [B; G * Cg; hi; wi] -> holds2 P A x (fun p a => shard 2 P p (shard 3 A a X)) ->
  exists Y, conv_s2_torch s X = Some Y /\
    holds2 P A (dist_conv junk' false debug P A (dist_conv_init junk false P A hi wi ho wo G K weight bias es) x) (fun p a => shard 2 P p (shard 3 A a Y)).
Proof.
  intros junk junk' debug P A hi wi ho wo G Og Cg K B weight bias es s X x L I F HH HP HPo HA HAo HAC SX Hx.
  destruct (conv_torch_spec junk hi wi ho wo G Og Cg K weight bias es s X B L I SX HH) as (Y & EY & TY). exists Y. split; auto.
  destruct L. eapply holds2_teq; [eapply (dist_conv_ok P A hi wi ho wo G Og Cg K B weight bias es); eauto; try lia|].
  - eapply wf_col; eauto.
  - eapply rank_works; eauto; [econstructor; eauto|discriminate].
  - intros p a Hp Ha. cbn beta. apply shard_proper; try lia. apply shard_proper; try lia. apply teq_sym; auto.
Qed.
