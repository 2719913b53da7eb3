(** The copying LRU cache (torch_harmonics/cache.py) on a heap of mutable objects. *)
From Coq Require Import String List Arith Lia Bool ZArith.
Import ListNotations.
Local Open Scope list_scope.
Local Open Scope nat_scope.

(** ** Python objects *)
(** A heap cell holds a plain value or a reference to an object; an object is a list of cells
    (the elements of a tuple or list, the entries of a tensor), and may be immutable.  Addresses
    are never reused (the cache keeps its keys and values alive). *)
Inductive cell := At (z : Z) | Ref (a : nat).
Record obj := mkO { mutable : bool; cells : list cell }.
Definition heap := list obj.

(** What a function returns: a block of new objects (references are positions in the block) and
    the returned value.  *)
Record graph := mkG { g_objs : list obj; g_root : cell }.
Definition shift (b : nat) (c : cell) : cell := match c with At z => At z | Ref a => Ref (b + a) end.
Definition map_obj (f : cell -> cell) (o : obj) : obj := mkO (mutable o) (map f (cells o)).
(** the new objects are placed at the end of the heap *)
Definition install (h : heap) (g : graph) : heap * cell :=
  (h ++ map (map_obj (shift (length h))) (g_objs g), shift (length h) (g_root g)).

(** ** copy.deepcopy *)
Definition refs (o : obj) : list nat := flat_map (fun c => match c with At _ => [] | Ref a => [a] end) (cells o).
Definition memb (a : nat) (l : list nat) : bool := existsb (Nat.eqb a) l.
(** the objects met, each once, as deepcopy's memo records them *)
Definition add_new (l : list nat) (a : nat) : list nat := if memb a l then l else l ++ [a].
Definition refs_at (h : heap) (a : nat) : list nat := match nth_error h a with Some o => refs o | None => [] end.
Definition expand (h : heap) (l : list nat) : list nat := fold_left add_new (flat_map (refs_at h) l) l.
Definition reach (h : heap) (a : nat) : list nat := Nat.iter (length h) (expand h) [a].
Fixpoint pos (a : nat) (l : list nat) : nat := match l with [] => 0 | x :: l' => if x =? a then 0 else S (pos a l') end.
(** cache.py:72 deepcopy(res): every object met is copied once and references are redirected to
    the copies, so that sharing and cycles are kept.  (Python does not copy tuples of plain
    values, which cannot be told apart from a copy.) *)
Definition relocate (b : nat) (R : list nat) (c : cell) : cell := match c with At z => At z | Ref a => Ref (b + pos a R) end.
Definition deepcopy (h : heap) (v : cell) : heap * cell :=
  match v with
  | At z => (h, At z)
  | Ref a => let R := reach h a in
      (h ++ map (fun x => match nth_error h x with Some o => map_obj (relocate (length h) R) o | None => mkO false [] end) R, relocate (length h) R v)
  end.

(** ** Keys *)
(** Arguments: numbers (of type int, bool or float; [z] is any injective code of the numeric
    value), strings, None, tuples, objects hashed by identity (tensors, filter bases), and
    unhashable values (lists). *)
Inductive numty := TInt | TBool | TFloat.
Inductive arg := PNum (t : numty) (z : Z) | PStr (s : string) | PNone | PTuple (l : list arg) | PObj (a : nat) | PUnhashable.
(** type(v) *)
Inductive ty := YNum (t : numty) | YStr | YNone | YTuple | YObj | YOther.
Definition typ (a : arg) : ty :=
  match a with PNum t _ => YNum t | PStr _ => YStr | PNone => YNone | PTuple _ => YTuple | PObj _ => YObj | PUnhashable => YOther end.
Fixpoint hashable (a : arg) : bool :=
  match a with PTuple l => forallb hashable l | PUnhashable => false | _ => true end.
(** Python compares 1, 1.0 and True as equal, also inside tuples: the form below keeps what
    == sees *)
Fixpoint erase (a : arg) : arg := match a with PNum _ z => PNum TInt z | PTuple l => PTuple (map erase l) | _ => a end.
(** Python's functools._make_key(args, kwds, typed): the arguments, the keyword arguments in
    the order given, and the types of all of them if [typed]; a single int or str is its own
    key. *)
Inductive key := Bare (a : arg) | Seq (pos_ : list arg) (kw : list (string * arg)) (types : option (list ty)).
Definition make_key (typed : bool) (args : list arg) (kw : list (string * arg)) : option key :=
  if forallb hashable args && forallb (fun x => hashable (snd x)) kw then
    Some (match typed, args, kw with
      | false, [PNum TInt z], [] => Bare (PNum TInt z)
      | false, [PStr s], [] => Bare (PStr s)
      | _, _, _ => Seq (map erase args) (map (fun x => (fst x, erase (snd x))) kw)
                       (if typed then Some (map typ args ++ map (fun x => typ (snd x)) kw) else None)
      end)
  else None.

(** ** functools.lru_cache *)
Definition numty_eqb (a b : numty) : bool := match a, b with TInt, TInt | TBool, TBool | TFloat, TFloat => true | _, _ => false end.
Definition ty_eqb (a b : ty) : bool :=
  match a, b with YNum s, YNum t => numty_eqb s t | YStr, YStr | YNone, YNone | YTuple, YTuple | YObj, YObj | YOther, YOther => true | _, _ => false end.
Section ListEqb.
Context {A : Type} (eqb : A -> A -> bool).
Fixpoint list_eqb (l m : list A) : bool :=
  match l, m with [], [] => true | x :: l', y :: m' => eqb x y && list_eqb l' m' | _, _ => false end.
End ListEqb.
Fixpoint arg_eqb (a b : arg) {struct a} : bool :=
  match a, b with
  | PNum s x, PNum t y => numty_eqb s t && Z.eqb x y
  | PStr s, PStr t => String.eqb s t
  | PNone, PNone => true
  | PTuple l, PTuple m => list_eqb arg_eqb l m
  | PObj x, PObj y => x =? y
  | PUnhashable, PUnhashable => true
  | _, _ => false
  end.
Definition key_eqb (k l : key) : bool :=
  match k, l with
  | Bare a, Bare b => arg_eqb a b
  | Seq p w t, Seq p' w' t' => list_eqb arg_eqb p p' && list_eqb (fun x y => String.eqb (fst x) (fst y) && arg_eqb (snd x) (snd y)) w w' &&
      match t, t' with None, None => true | Some t, Some t' => list_eqb ty_eqb t t' | _, _ => false end
  | _, _ => false
  end.

(** The cached entries, most recently used first. *)
Record lst := mkL { l_heap : heap; l_cache : list (key * cell) }.
Definition lookup (k : key) (c : list (key * cell)) : option cell :=
  match find (fun e => key_eqb k (fst e)) c with Some e => Some (snd e) | None => None end.
Definition drop_key (k : key) (c : list (key * cell)) : list (key * cell) := filter (fun e => negb (key_eqb k (fst e))) c.
(** a function called with its arguments in a heap; None is an exception *)
Definition func := heap -> list arg -> list (string * arg) -> option graph.

Section Cache.
Variables (f : func) (maxsize : option nat) (typed copy : bool).
(** cache.py:67 functools.lru_cache(maxsize, typed)(f): maxsize None is unbounded, 0 disables
    the cache; exceptions are not cached; a full cache drops the least recently used entry.
    (One thread; [f] does not call itself.) *)
Definition cached_func (s : lst) (args : list arg) (kw : list (string * arg)) : lst * option cell :=
  let run k := match f (l_heap s) args kw with None => (s, None) | Some g => let '(h, v) := install (l_heap s) g in k h v end in
  match maxsize with
  | Some 0 => run (fun h v => (mkL h (l_cache s), Some v))
  | _ =>
    match make_key typed args kw with
    | None => (s, None)
    | Some k =>
      match lookup k (l_cache s) with
      | Some v => (mkL (l_heap s) ((k, v) :: drop_key k (l_cache s)), Some v)
      | None => run (fun h v =>
          let c := (k, v) :: l_cache s in
          (mkL h (match maxsize with Some n => if n <? length c then removelast c else c | None => c end), Some v))
      end
    end
  end.
(** cache.py:69-75 wrapper *)
Definition wrapper (s : lst) (args : list arg) (kw : list (string * arg)) : lst * option cell :=
  let '(s, res) := cached_func s args kw in
  match res with
  | None => (s, None)
  | Some v => if copy then let '(h, v) := deepcopy (l_heap s) v in (mkL h (l_cache s), Some v) else (s, Some v)
  end.
End Cache.
