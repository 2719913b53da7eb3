(** A machine for CUDA kernels without data-dependent control flow.

    This file models the execution environment of the kernels, as documented in the CUDA
    programming guide: groups of threads (thread blocks, or warps of kernels that only
    synchronise within a warp) run concurrently, each thread executes its instructions in
    order, any thread may take the next step, the threads of a group share an array that is
    not initialised, and a barrier is passed when all threads of the group have arrived.
    Threads of one warp (32 consecutive threads) exchange registers when all of them have
    arrived at the exchange.
    Reads and writes of the shared array and of the output are single steps of the
    interleaving; a read-modify-write is a load and a store.  An access outside the arrays
    can never be executed.  Numbers are exact reals. *)
From Coq Require Import List Arith Lia Bool Reals.
From Verif Require Import TensorModel.
Import ListNotations.
Local Open Scope nat_scope.

Definition put {A} (i : nat) (v : A) (a : nat -> A) : nat -> A := fun j => if j =? i then v else a j.

(** atomicAdd and atomicMax *)
Inductive aop := AAdd | AMax.
Definition aop_fun (o : aop) : R -> R -> R := match o with AAdd => Rplus | AMax => Rmax end.

(** Registers of a thread. *)
Notation regs := (nat -> R) (only parsing).

Inductive instr :=
| IGet (r a : nat)                          (* r := in[a], the constant input *)
| ISet (r : nat) (f : regs -> R)            (* arithmetic on registers *)
| ILoad (r a : nat)                         (* r := shared[a] *)
| IStore (a : nat) (f : regs -> R)          (* shared[a] := ... *)
| IOut (a : nat) (f : regs -> R)            (* out[a] := ... *)
| IAtom (o : aop) (a : nat) (f : regs -> R) (* atomic update of out[a] *)
| ISync (f : (nat -> regs) -> regs)         (* barrier; f: what the thread receives from the registers of the group *)
| IFault                                    (* an access in front of an array *)
| IShfl (f : (nat -> regs) -> regs).        (* __shfl_sync, __syncwarp: what the thread receives from the registers of its warp *)

(** Group and thread numbers, sizes of the arrays, the input and the programs. *)
Record kernel := mkKernel { k_groups : nat; k_threads : nat; k_shared : nat; k_insize : nat; k_in : nat -> R; k_outsize : nat;
  k_code : nat -> nat -> list instr }.
Record state := mkSt { s_code : nat -> nat -> list instr; s_reg : nat -> nat -> regs; s_sh : nat -> nat -> R; s_out : nat -> R }.

(** What one instruction does to the thread's registers, the shared array, the output. *)
Definition reg_of (inp : nat -> R) (i : instr) (rg : regs) (sh : nat -> R) : regs :=
  match i with
  | IGet r a => put r (inp a) rg
  | ISet r f => put r (f rg) rg
  | ILoad r a => put r (sh a) rg
  | _ => rg
  end.
Definition sh_of (i : instr) (rg : regs) (sh : nat -> R) : nat -> R := match i with IStore a f => put a (f rg) sh | _ => sh end.
Definition out_of (i : instr) (rg : regs) (out : nat -> R) : nat -> R :=
  match i with
  | IOut a f => put a (f rg) out
  | IAtom o a f => put a (aop_fun o (out a) (f rg)) out
  | _ => out
  end.
(** The access is inside the arrays. *)
Definition in_bounds (k : kernel) (i : instr) : bool :=
  match i with
  | IGet _ a => a <? k_insize k
  | ISet _ _ => true
  | ILoad _ a | IStore a _ => a <? k_shared k
  | IOut a _ | IAtom _ a _ => a <? k_outsize k
  | ISync _ | IShfl _ | IFault => false
  end.

Definition warp_size : nat := 32.
Definition in_warp (k : kernel) (w t : nat) : bool := (t <? k_threads k) && (t / warp_size =? w).

Inductive label := LThread (g t : nat) | LSync (g : nat) | LShfl (g w : nat).
Definition sync_of (c : list instr) : option (((nat -> regs) -> regs) * list instr) := match c with ISync f :: c' => Some (f, c') | _ => None end.
Definition at_sync (c : list instr) : bool := match c with ISync _ :: _ => true | _ => false end.
Definition shfl_of (c : list instr) : option (((nat -> regs) -> regs) * list instr) := match c with IShfl f :: c' => Some (f, c') | _ => None end.
Definition at_shfl (c : list instr) : bool := match c with IShfl _ :: _ => true | _ => false end.
(** the registers an exchange of warp w can see *)
Definition warp_regs (nT w : nat) (rg : nat -> regs) : nat -> regs := fun t => if (t <? nT) && (t / warp_size =? w) then rg t else fun _ => 0%R.
(** One step: the next instruction of a thread, all threads of a group leave a barrier, or
    all threads of a warp exchange registers. *)
Definition exec (k : kernel) (l : label) (s : state) : option state :=
  match l with
  | LThread g t =>
      do _ <- guard ((g <? k_groups k) && (t <? k_threads k));
      match s_code s g t with
      | [] => None
      | i :: c =>
          do _ <- guard (in_bounds k i);
          let rg := s_reg s g t in let sh := s_sh s g in
          Some (mkSt (put g (put t c (s_code s g)) (s_code s)) (put g (put t (reg_of (k_in k) i rg sh) (s_reg s g)) (s_reg s))
                     (put g (sh_of i rg sh) (s_sh s)) (out_of i rg (s_out s)))
      end
  | LSync g =>
      do _ <- guard ((g <? k_groups k) && (1 <=? k_threads k) && forallb (fun t => at_sync (s_code s g t)) (seq 0 (k_threads k)));
      Some (mkSt (put g (fun t => if t <? k_threads k then tl (s_code s g t) else s_code s g t) (s_code s))
                 (put g (fun t => if t <? k_threads k then match sync_of (s_code s g t) with Some (f, _) => f (s_reg s g) | None => s_reg s g t end else s_reg s g t) (s_reg s))
                 (s_sh s) (s_out s))
  | LShfl g w =>
      do _ <- guard ((g <? k_groups k) && (w * warp_size <? k_threads k) && forallb (fun t => negb (in_warp k w t) || at_shfl (s_code s g t)) (seq 0 (k_threads k)));
      Some (mkSt (put g (fun t => if in_warp k w t then tl (s_code s g t) else s_code s g t) (s_code s))
                 (put g (fun t => if in_warp k w t then match shfl_of (s_code s g t) with Some (f, _) => f (warp_regs (k_threads k) w (s_reg s g)) | None => s_reg s g t end else s_reg s g t) (s_reg s))
                 (s_sh s) (s_out s))
  end.

(** The state in which a kernel is started: arbitrary registers and shared arrays. *)
Definition start (k : kernel) (rg : nat -> nat -> regs) (sh : nat -> nat -> R) (out : nat -> R) : state := mkSt (k_code k) rg sh out.

(** Registers as threads use them: __syncthreads() or __syncwarp() by thread t *)
Definition barrier (t : nat) : instr := ISync (fun all => all t).
(** for (int i = a; i < n; i += d): at most n iterations *)
Fixpoint strided (fuel a n d : nat) : list nat :=
  match fuel with 0 => [] | S fuel' => if a <? n then a :: strided fuel' (a + d) n d else [] end.

(** A way to write the code of all threads of a group at once: segments without barriers, one per thread,
    barriers, and exchanges of registers in those warps that take part. *)
Inductive gstep := Seg (p : nat -> list instr) | Bar (f : nat -> (nat -> nat -> R) -> nat -> R) | Shf (who : nat -> bool) (f : nat -> (nat -> nat -> R) -> nat -> R).
Definition code1 (st : gstep) (t : nat) : list instr :=
  match st with Seg p => p t | Bar f => [ISync (f t)] | Shf who f => if who (t / warp_size) then [IShfl (f t)] else [] end.
Definition code_of (prog : list gstep) (t : nat) : list instr := flat_map (fun st => code1 st t) prog.
