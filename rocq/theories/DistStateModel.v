(** Models of the process-group registry (torch_harmonics/distributed/utils.py)
    and of the ring schedule (torch_harmonics/distributed/distributed_attention.py). *)
From Coq Require Import List Arith Lia Bool ZArith.
From Verif Require Import TensorModel PrimModel.
Import ListNotations.

(** ** distributed/utils.py *)
(** A torch process group object as seen by this process: an identity and the
    list of its global ranks. *)
Record pgroup := mkG { gid : nat; granks : list nat }.

(** Module state: lines 40-49 (the three globals); [destroyed] is the part of
    torch.distributed's state the code touches (ids already destroyed). *)
Record reg := mkReg { polar : option pgroup; azimuth : option pgroup; inited : bool; destroyed : list nat }.
Definition reg0 : reg := mkReg None None false [].

(** 83-140 [init] *)
Definition init (p a : option pgroup) (s : reg) : reg := mkReg p a true (destroyed s).

(** dist.destroy_process_group raises ValueError on a group that is not (any more) registered. *)
Definition destroy (g : pgroup) (d : list nat) : option (list nat) :=
  if existsb (Nat.eqb (gid g)) d then None else Some (gid g :: d).

(** 143-162 [finalize].  The boolean tells whether the call raised; the state
    is the one left behind in either case. *)
Definition finalize (s : reg) : bool * reg :=
  if inited s then
    match polar s with
    | None =>
        match azimuth s with
        | None => (false, mkReg None None false (destroyed s))
        | Some g => match destroy g (destroyed s) with
                    | None => (true, s)
                    | Some d => (false, mkReg None None false d)
                    end
        end
    | Some g =>
        match destroy g (destroyed s) with
        | None => (true, s)
        | Some d =>
            match azimuth s with
            | None => (false, mkReg None None false d)
            | Some g' => match destroy g' d with
                         | None => (true, mkReg None (azimuth s) true d)
                         | Some d' => (false, mkReg None None false d')
                         end
            end
        end
    end
  else (false, mkReg (polar s) (azimuth s) false (destroyed s)).

(** 165-177 *)
Definition is_initialized (s : reg) : bool := inited s.
Definition is_distributed_polar (s : reg) : bool := match polar s with None => false | Some _ => true end.
Definition is_distributed_azimuth (s : reg) : bool := match azimuth s with None => false | Some _ => true end.
(** 180-209; torch returns -1 when the caller is not a member. [me] is the global rank. *)
Definition world_size (me : nat) (g : pgroup) : Z :=
  match index_of me (granks g) with None => (-1)%Z | Some _ => Z.of_nat (length (granks g)) end.
Definition group_rank (me : nat) (g : pgroup) : Z :=
  match index_of me (granks g) with None => (-1)%Z | Some i => Z.of_nat i end.
Definition polar_group_size me s : Z := match polar s with None => 1%Z | Some g => world_size me g end.
Definition azimuth_group_size me s : Z := match azimuth s with None => 1%Z | Some g => world_size me g end.
Definition polar_group_rank me s : Z := match polar s with None => 0%Z | Some g => group_rank me g end.
Definition azimuth_group_rank me s : Z := match azimuth s with None => 0%Z | Some g => group_rank me g end.

(** Calls a program can make (queries do not change the state). *)
Inductive call := CInit (p a : option pgroup) | CFinalize.
Definition exec (c : call) (s : reg) : bool * reg :=
  match c with CInit p a => (false, init p a s) | CFinalize => finalize s end.
(** Run a history; the flag says whether some call raised. *)
Fixpoint run (h : list call) (s : reg) : bool * reg :=
  match h with
  | [] => (false, s)
  | c :: h' => let (e, s1) := exec c s in let (e', s2) := run h' s1 in (e || e', s2)
  end.

(** 52-66 [_DistributedConfig]: [_debug] None means "read the environment". *)
Definition debug_get (stored : option bool) (env : bool) : bool := match stored with None => env | Some b => b end.
Definition debug_set (v : bool) (stored : option bool) : option bool := Some v.

(** ** Ring schedule *)
Section Ring.
Context {B : Type} (width : B -> nat).

(** distributed_attention.py:54-76 [_ring_kv] for the whole group.  Position
    [r] sends its chunk to its previous neighbour and receives from its next
    one.  A receive is matched only if the sender's destination is the
    receiver, and the posted buffer width [next_w r] must be the width of the
    message.  (The k and v chunks travel together; one chunk here.) *)
Definition ring_kv (ranks : list nat) (next_w : nat -> option nat) (chunk : fam B) : fam B :=
  fun r =>
    do me <- nth_error ranks r;
    do nb <- get_group_neighbors ranks me;
    let recv_from := snd nb in
    do q <- index_of recv_from ranks;
    do nbq <- get_group_neighbors ranks recv_from;
    do _ <- guard (fst nbq =? me);
    do c <- chunk q;
    do w <- next_w r;
    do _ <- guard (width c =? w);
    Some c.

(** distributed_attention.py:141-176, the loop of [_RingNeighborhoodAttentionFn.forward]
    (the backward loops 290-330, 370-430 and the upsample loops use the same
    schedule).  [steps] iterations remain, the current one is [step].  The
    result at position [r] is the list of (announced source, chunk) pairs handed
    to the kernel, in order. *)
Fixpoint ring_loop (ranks : list nat) (nlon_kx_list : list nat) (steps step : nat) (chunk : fam B)
  : fam (list (nat * B)) :=
  let az_size := length ranks in
  match steps with
  | 0 => fun _ => Some []
  | S steps' =>
      let chunk' := if step <? az_size - 1
                    then ring_kv ranks (fun r => nth_error nlon_kx_list ((r + step + 1) mod az_size)) chunk
                    else chunk in
      let rest := ring_loop ranks nlon_kx_list steps' (step + 1) chunk' in
      fun r => do c <- chunk r;
               do l <- rest r;
               Some (((r + step) mod az_size, c) :: l)
  end.
Definition ring (ranks nlon_kx_list : list nat) (chunk : fam B) : fam (list (nat * B)) :=
  ring_loop ranks nlon_kx_list (length ranks) 0 chunk.
End Ring.
