(** What callers see, histories of calls and mutations, and the recency order. *)
From Coq Require Import String List Arith Bool ZArith.
From Verif Require Import CacheModel.
Import ListNotations.
Local Open Scope list_scope.
Local Open Scope nat_scope.

(** The value [v] unfolded to depth [n]. *)
Inductive tree := TAtom (z : Z) | TNode (mut : bool) (l : list tree) | TCut | TDangling.
Fixpoint view (n : nat) (h : heap) (v : cell) : tree :=
  match v with
  | At z => TAtom z
  | Ref a => match n with
      | 0 => TCut
      | S n => match nth_error h a with Some o => TNode (mutable o) (map (view n h) (cells o)) | None => TDangling end
      end
  end.
(** [v] looks in heap [h] like [v'] in heap [h'], to any depth *)
Definition same_value (h : heap) (v : cell) (h' : heap) (v' : cell) : Prop := forall n, view n h v = view n h' v'.

(** The addresses a program can get to from the values it knows. *)
Inductive reachable (h : heap) (known : list cell) : nat -> Prop :=
| R_known : forall a, In (Ref a) known -> reachable h known a
| R_follow : forall a o b, reachable h known a -> nth_error h a = Some o -> In (Ref b) (cells o) -> reachable h known b.
Definition usable (h : heap) (known : list cell) (c : cell) : Prop := match c with At _ => True | Ref a => reachable h known a end.

(** the objects among the arguments of a call *)
Fixpoint objs_of (a : arg) : list nat := match a with PObj x => [x] | PTuple l => flat_map objs_of l | _ => [] end.
Definition mentions (args : list arg) (kw : list (string * arg)) : list nat := flat_map objs_of (args ++ map snd kw).

(** The functions wrapped return blocks without dangling references. *)
Definition graph_ok (g : graph) : Prop :=
  (forall o a, In o (g_objs g) -> In (Ref a) (cells o) -> a < length (g_objs g)) /\ (forall a, g_root g = Ref a -> a < length (g_objs g)).

(** A program: it calls the wrapped function, overwrites mutable objects it can reach (among
    those [may_write] allows) and creates objects. *)
Record world := mkW { w_st : lst; w_known : list cell }.
Inductive event := ECall (args : list arg) (kw : list (string * arg)) (r : option cell) | EWrite (a : nat) (cs : list cell) | ENew (m : bool) (cs : list cell).
Definition replace (h : heap) (a : nat) (o : obj) : heap := firstn a h ++ o :: skipn (S a) h.

Section History.
Variables (f : func) (maxsize : option nat) (typed copy : bool).
Variables (may_call : list arg -> list (string * arg) -> Prop) (may_write : nat -> Prop).
Inductive step : world -> event -> world -> Prop :=
| S_call : forall s known args kw s' r, may_call args kw -> (forall a, In a (mentions args kw) -> reachable (l_heap s) known a) ->
    wrapper f maxsize typed copy s args kw = (s', r) ->
    step (mkW s known) (ECall args kw r) (mkW s' (match r with Some v => v :: known | None => known end))
| S_write : forall s known a o cs, may_write a -> reachable (l_heap s) known a -> nth_error (l_heap s) a = Some o -> mutable o = true ->
    (forall c, In c cs -> usable (l_heap s) known c) ->
    step (mkW s known) (EWrite a cs) (mkW (mkL (replace (l_heap s) a (mkO true cs)) (l_cache s)) known)
| S_new : forall s known m cs, (forall c, In c cs -> usable (l_heap s) known c) ->
    step (mkW s known) (ENew m cs) (mkW (mkL (l_heap s ++ [mkO m cs]) (l_cache s)) (Ref (length (l_heap s)) :: known)).
(** histories, latest event first *)
Inductive run : world -> list event -> Prop :=
| run_nil : run (mkW (mkL [] []) []) []
| run_cons : forall w es e w', run w es -> step w e w' -> run w' (e :: es).
End History.

(** The heap [h'] is a later state of [h] in which nothing outside [may_write] has changed. *)
Definition later (may_write : nat -> Prop) (h h' : heap) : Prop :=
  forall a o, ~ may_write a -> nth_error h a = Some o -> nth_error h' a = Some o.
(** Equal keys mean equal results, as long as the objects they mention are not written to. *)
Definition respects_keys (f : func) (typed : bool) (may_call : list arg -> list (string * arg) -> Prop) (may_write : nat -> Prop) : Prop :=
  forall h h' args kw args' kw' k, may_call args kw -> may_call args' kw' -> (forall a, In a (mentions args kw) -> a < length h) -> later may_write h h' ->
    make_key typed args kw = Some k -> make_key typed args' kw' = Some k -> f h args kw = f h' args' kw'.

(** The keys of the calls that returned, latest first, without repetitions. *)
Fixpoint returned_keys (typed : bool) (es : list event) : list key :=
  match es with
  | [] => []
  | ECall args kw (Some _) :: es => match make_key typed args kw with Some k => k :: returned_keys typed es | None => returned_keys typed es end
  | _ :: es => returned_keys typed es
  end.
Fixpoint latest (l : list key) : list key :=
  match l with [] => [] | k :: l' => k :: filter (fun x => negb (key_eqb k x)) (latest l') end.
Definition cut {A} (maxsize : option nat) (l : list A) : list A := match maxsize with Some n => firstn n l | None => l end.
