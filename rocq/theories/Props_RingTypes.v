(** C79: element types in the distributed attention, and what the GPU kernels read. *)
From Coq Require Import List Arith Lia.
From Verif Require Import MixedPrecModel MixedPrecSpec RingTypesModel RingTypesProofs.

(** As constructed, with or without autocast, whatever type rms_norm returns under it: every kernel reads every array in its own type, and
    the distributed layer returns the type of the serial one. *)
Theorem C79_types : forall rms ac qknorm xk xv xq n m nlat, inputs_ok ac (make qknorm None) xk xv xq ->
  ring_forward rms ac (make qknorm None) xk xv xq n m nlat = Some (Right, conv_dt ac F32) /\
  serial_forward rms ac (make qknorm None) xk xv xq n m nlat = Some (Right, conv_dt ac F32).
Proof. intros. destruct (forward_ok rms ac (make qknorm None) xk xv xq n m nlat) as (A & B & _); auto. intros s E. discriminate. Qed.
Print Assumptions C79_types.

(** The backward kernels too, and each gradient has the type of the tensor it belongs to. *)
Theorem C79_backward : forall rms ac qknorm xk xv xq n m p nlat, inputs_ok ac (make qknorm None) xk xv xq ->
  exists k v q, qkv rms ac (make qknorm None) xk xv xq = Some (k, v, q) /\ ring_backward rms ac (make qknorm None) xk xv xq n m p nlat = Some (Right, (k, v, q)).
Proof.
  intros. destruct (forward_ok rms ac (make qknorm None) xk xv xq n m nlat) as (_ & _ & k & v & q & E & B); auto. intros s Es; discriminate. exists k, v, q. split; auto.
Qed.
Print Assumptions C79_backward.

(** A scale tensor is harmless under autocast, or if it does not promote the query. *)
Theorem C79_scale : forall rms ac qknorm s xk xv xq n m nlat, inputs_ok ac (make qknorm (Some s)) xk xv xq -> ac <> None \/ s <> F64 ->
  ring_forward rms ac (make qknorm (Some s)) xk xv xq n m nlat = Some (Right, conv_dt ac F32) /\
  serial_forward rms ac (make qknorm (Some s)) xk xv xq n m nlat = Some (Right, conv_dt ac F32).
Proof.
  intros rms ac qknorm s xk xv xq n m nlat I H. destruct (forward_ok rms ac (make qknorm (Some s)) xk xv xq n m nlat) as (A & B & _); auto.
  intros s' E. injection E as <-. destruct H as [H|H]; [left; exact H|right]. destruct s; auto. congruence.
Qed.
Print Assumptions C79_scale.

(** A float64 scale tensor without autocast: the serial layer raises; the ring kernel reads the keys outside their array. *)
Theorem C79_scale_refuted : forall rms qknorm n m nlat, 1 <= n ->
  serial_forward rms None (make qknorm (Some F64)) F32 F32 F32 n m nlat = None /\
  ring_forward rms None (make qknorm (Some F64)) F32 F32 F32 n m nlat = Some (Outside, F32).
Proof. intros. apply (scale_wide rms (make qknorm (Some F64)) F64); auto. cbn. lia. Qed.
Print Assumptions C79_scale_refuted.

(** After half() or bfloat16() the GPU kernels, serial and distributed, read the quadrature weights outside their array; after double() they
    take the wrong numbers; the CPU kernel raises. *)
Theorem C79_converted_refuted : forall rms ac qknorm t xk xv xq n m nlat, t <> F32 -> inputs_ok ac (convert t (make qknorm None)) xk xv xq -> 1 <= nlat ->
  let bad := match t with F64 => Wrong | _ => Outside end in
  ring_forward rms ac (convert t (make qknorm None)) xk xv xq n m nlat = Some (bad, conv_dt ac t) /\
  serial_forward rms ac (convert t (make qknorm None)) xk xv xq n m nlat = Some (bad, conv_dt ac t) /\
  serial_cpu_forward rms ac (convert t (make qknorm None)) xk xv xq = None.
Proof.
  intros rms ac qknorm t xk xv xq n m nlat Ht I Hn bad. destruct (forward_quad rms ac (convert t (make qknorm None)) xk xv xq n m nlat) as (A & B & C); auto.
  cbn [convert a_quad a_dt] in *. assert (E : narrow t = bad) by (unfold bad; destruct t; auto; congruence). rewrite E in A, B. auto.
Qed.
Print Assumptions C79_converted_refuted.

(** The backward of the ring runs in the autocast state of the forward, whatever surrounds it and whatever ctx held; with custom_fwd alone
    a fresh ctx makes it raise. *)
Theorem C79_autocast_state : forall forward ambient c, custom_bwd ambient (custom_setup_context forward c) = Some forward /\
  custom_bwd ambient (custom_fwd_only forward None) = None.
Proof. intros [d e] ambient c. split; reflexivity. Qed.
Print Assumptions C79_autocast_state.

Example C79_case : inputs_ok (Some BF16) (make true None) F32 BF16 F16 /\ inputs_ok None (convert F16 (make true None)) F16 F16 F16 /\ inputs_ok None (make false (Some F16)) F32 F32 F32.
Proof. cbn. repeat split; discriminate. Qed.
