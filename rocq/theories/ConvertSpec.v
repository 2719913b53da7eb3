(** Specification of the floating-point types by the widths of their fields (IEEE 754, bfloat16). *)
From Coq Require Import ZArith Reals.
From Flocq Require Import Core.
From Verif Require Import MixedPrecModel.

Definition exponent_bits (t : dtype) : Z := match t with F16 => 5 | BF16 => 8 | F32 => 8 | F64 => 11 end.
Definition fraction_bits (t : dtype) : Z := match t with F16 => 10 | BF16 => 7 | F32 => 23 | F64 => 52 end.
(** The exponent of the least normal number *)
Definition normal (t : dtype) : Z := 2 - 2 ^ (exponent_bits t - 1).
(** The numbers a type holds, its range not limited above *)
Definition holds (t : dtype) (x : R) : Prop :=
  exists m e : Z, x = (IZR m * bpow radix2 e)%R /\ (Z.abs m < 2 ^ (fraction_bits t + 1))%Z /\ (normal t - fraction_bits t <= e)%Z.
