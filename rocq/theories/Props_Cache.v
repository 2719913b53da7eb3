(** C46: the copying LRU cache. *)
From Coq Require Import String List Arith Lia Bool ZArith.
From Verif Require Import CacheModel CacheSpec CacheProofs CacheProofs2 CacheProofs3.
Import ListNotations.
Local Open Scope list_scope.
Local Open Scope nat_scope.

(** after any history of calls, mutations of reachable objects and allocations, a call with
    copying returns what the function itself would return *)
Theorem C46_transparent : forall f maxsize typed may_call may_write, (forall h a kw g, f h a kw = Some g -> graph_ok g) -> respects_keys f typed may_call may_write ->
  forall w es args kw r w', run f maxsize typed true may_call may_write w es -> step f maxsize typed true may_call may_write w (ECall args kw r) w' ->
  (maxsize = Some 0 \/ make_key typed args kw <> None) ->
  match f (l_heap (w_st w)) args kw with None => r = None | Some g => exists v, r = Some v /\ same_value (l_heap (w_st w')) v (g_objs g) (g_root g) end.
Proof. intros f maxsize typed D W HF. exact (transparent f maxsize typed D W HF). Qed.
(** everything reachable from a returned value is new: results share nothing with each other,
    with the cache or with the arguments *)
Theorem C46_results_are_new : forall f maxsize typed may_call may_write, (forall h a kw g, f h a kw = Some g -> graph_ok g) ->
  forall w es args kw v w', run f maxsize typed true may_call may_write w es -> step f maxsize typed true may_call may_write w (ECall args kw (Some v)) w' ->
  forall a, reachable (l_heap (w_st w')) [v] a -> length (l_heap (w_st w)) <= a.
Proof. intros f maxsize typed D W HF. exact (results_new f maxsize typed D W HF). Qed.
(** without copying the same holds as long as nothing is written *)
Theorem C46_transparent_without_copy : forall f maxsize typed may_call, (forall h a kw g, f h a kw = Some g -> graph_ok g) -> respects_keys f typed may_call (fun _ => False) ->
  forall w es args kw r w', run f maxsize typed false may_call (fun _ => False) w es -> step f maxsize typed false may_call (fun _ => False) w (ECall args kw r) w' ->
  (maxsize = Some 0 \/ make_key typed args kw <> None) ->
  match f (l_heap (w_st w)) args kw with None => r = None | Some g => exists v, r = Some v /\ same_value (l_heap (w_st w')) v (g_objs g) (g_root g) end.
Proof. intros f maxsize typed D HF. exact (transparent_unwritten f maxsize typed D _ HF (fun a H => H)). Qed.
(** the entries are the keys of the latest calls that returned, most recent first *)
Theorem C46_recency : forall f maxsize typed copy may_call may_write w es, run f maxsize typed copy may_call may_write w es ->
  map fst (l_cache (w_st w)) = cut maxsize (latest (returned_keys typed es)).
Proof. intros f maxsize typed copy D W. exact (recency f maxsize typed D W copy). Qed.
Theorem C46_size_bound : forall f maxsize typed copy may_call may_write w es n, run f maxsize typed copy may_call may_write w es -> maxsize = Some n -> length (l_cache (w_st w)) <= n.
Proof. intros f maxsize typed copy D W. exact (bounded f maxsize typed D W copy). Qed.
(** a call whose key is among these does not run the function *)
Theorem C46_hit_skips_function : forall f maxsize typed copy may_call may_write w es args kw k, run f maxsize typed copy may_call may_write w es -> make_key typed args kw = Some k ->
  In k (cut maxsize (latest (returned_keys typed es))) ->
  (forall f', wrapper f' maxsize typed copy (w_st w) args kw = wrapper f maxsize typed copy (w_st w) args kw) /\ exists v, snd (wrapper f maxsize typed copy (w_st w) args kw) = Some v.
Proof. exact hit_iff_recent. Qed.
(** deepcopy: a faithful copy made of new objects only, sharing and cycles included *)
Theorem C46_deepcopy : forall h (S : nat -> Prop) v h' v', closed_in S h -> in_set S v -> deepcopy h v = (h', v') ->
  length h <= length h' /\ (forall a, a < length h -> nth_error h' a = nth_error h a) /\
  closed_in (fun a => length h <= a < length h') h' /\ in_set (fun a => length h <= a < length h') v' /\ same_value h' v' h v.
Proof. exact deepcopy_ok. Qed.
(** typed keys tell the types of the arguments apart *)
Theorem C46_typed_keys : forall args kw args' kw' k, make_key true args kw = Some k -> make_key true args' kw' = Some k ->
  map typ args = map typ args' /\ map (fun x => typ (snd x)) kw = map (fun x => typ (snd x)) kw' /\ map erase args = map erase args' /\
  map (fun x => (fst x, erase (snd x))) kw = map (fun x => (fst x, erase (snd x))) kw'.
Proof. exact typed_keys. Qed.
(** unhashable arguments (lists) always raise, whatever the function would do *)
Theorem C46_unhashable_raises : forall f maxsize typed may_call may_write copy w args kw r w', step f maxsize typed copy may_call may_write w (ECall args kw r) w' ->
  maxsize <> Some 0 -> make_key typed args kw = None -> r = None.
Proof. intros f maxsize typed D W. exact (unhashable_raises f maxsize typed D W). Qed.
(** functions of a tensor's contents (_precompute_legpoly): fine for tensors not written to, *)
Theorem C46_frozen_arguments : forall frozen : nat -> Prop, respects_keys f_contents true (fun args kw => forall a, In a (mentions args kw) -> frozen a) (fun a => ~ frozen a).
Proof. exact f_contents_keys. Qed.
(** stale otherwise *)
Theorem C46_mutated_argument_refuted : exists w es args r w' g, run f_contents (Some 20) true true any_call all_addrs w es /\
  step f_contents (Some 20) true true any_call all_addrs w (ECall args [] (Some r)) w' /\
  f_contents (l_heap (w_st w)) args [] = Some g /\ ~ same_value (l_heap (w_st w')) r (g_objs g) (g_root g).
Proof. exact mutated_argument. Qed.
(** without copying a mutated result is returned again *)
Theorem C46_leak_without_copy : exists w es args r w' g, run f_sum (Some 20) true false any_call all_addrs w es /\
  step f_sum (Some 20) true false any_call all_addrs w (ECall args [] (Some r)) w' /\
  f_sum (l_heap (w_st w)) args [] = Some g /\ ~ same_value (l_heap (w_st w')) r (g_objs g) (g_root g).
Proof. exact nocopy_leaks. Qed.
(** the types of tuple elements are not part of the key *)
Theorem C46_nested_types_refuted : exists w es args v w' g, run f_types (Some 20) true true any_call all_addrs w es /\
  step f_types (Some 20) true true any_call all_addrs w (ECall args [] (Some v)) w' /\
  f_types (l_heap (w_st w)) args [] = Some g /\ ~ same_value (l_heap (w_st w')) v (g_objs g) (g_root g).
Proof. exact nested_types. Qed.

Print Assumptions C46_transparent.
Print Assumptions C46_results_are_new.
Print Assumptions C46_transparent_without_copy.
Print Assumptions C46_recency.
Print Assumptions C46_size_bound.
Print Assumptions C46_hit_skips_function.
Print Assumptions C46_deepcopy.
Print Assumptions C46_typed_keys.
Print Assumptions C46_unhashable_raises.
Print Assumptions C46_frozen_arguments.
Print Assumptions C46_mutated_argument_refuted.
Print Assumptions C46_leak_without_copy.
Print Assumptions C46_nested_types_refuted.

Example C46_function_case : respects_keys f_sum true any_call all_addrs /\ forall h a kw g, f_sum h a kw = Some g -> graph_ok g.
Proof. exact (conj f_sum_keys f_sum_graph). Qed.
Example C46_history_case : exists w es, run f_sum (Some 20) true true any_call all_addrs w es /\ length es = 3.
Proof. exact history_exists. Qed.
Example C46_cycle_case : deepcopy ex_cyc (Ref 0) = (ex_cyc ++ [mkO true [Ref 4; Ref 4; At 5]; mkO true [Ref 3]], Ref 3).
Proof. exact ex_cyc_copy. Qed.
