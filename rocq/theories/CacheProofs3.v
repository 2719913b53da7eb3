(** Concrete histories. *)
From Coq Require Import String List Arith Lia Bool ZArith.
From Verif Require Import CacheModel CacheSpec CacheProofs CacheProofs2.
Import ListNotations.
Local Open Scope list_scope.
Local Open Scope nat_scope.

Lemma typed_keys : forall args kw args' kw' k, make_key true args kw = Some k -> make_key true args' kw' = Some k ->
  map typ args = map typ args' /\ map (fun x => typ (snd x)) kw = map (fun x => typ (snd x)) kw' /\ map erase args = map erase args' /\
  map (fun x => (fst x, erase (snd x))) kw = map (fun x => (fst x, erase (snd x))) kw'.
Proof.
  intros args kw args' kw' k E E'. unfold make_key in E, E'. destruct (forallb hashable args && _); [|discriminate]. destruct (forallb hashable args' && _); [|discriminate].
  rewrite <- E in E'. injection E' as E1 E2 E3.
  assert (LA : length (map typ args') = length (map typ args)) by (rewrite !map_length, <- (map_length erase args'), E1, map_length; reflexivity).
  assert (T : forall (l m l' m' : list ty), length l = length m -> l ++ l' = m ++ m' -> l = m /\ l' = m').
  { induction l as [|x l IH]; intros [|y m] l' m' L Q; cbn in *; try discriminate; auto. injection Q as -> Q. injection L as L. destruct (IH m l' m' L Q). subst. auto. }
  destruct (T _ _ _ _ LA E3) as (T1 & T2). auto.
Qed.

Definition any_call (args : list arg) (kw : list (string * arg)) : Prop := True.
Definition all_addrs (a : nat) : Prop := True.
(** a function of its arguments' values: one mutable object holding the sum of the numbers *)
Definition num (a : arg) : Z := match a with PNum _ z => z | _ => 0%Z end.
Definition f_sum : func := fun _ args kw => Some (mkG [mkO true [At (fold_right Z.add 0%Z (map num args))]] (Ref 0)).
Lemma f_sum_graph : forall h a kw g, f_sum h a kw = Some g -> graph_ok g.
Proof. intros h a kw g E. injection E as <-. split; [intros o x [<-|[]] [Q|[]]; discriminate|intros x Q; injection Q as <-; cbn; lia]. Qed.
Lemma num_erase : forall a, num (erase a) = num a. Proof. intros []; reflexivity. Qed.
Lemma f_sum_keys : respects_keys f_sum true any_call all_addrs.
Proof.
  intros h h' args kw args' kw' k _ _ _ _ E E'. destruct (typed_keys _ _ _ _ _ E E') as (_ & _ & Q & _). unfold f_sum. do 3 f_equal. f_equal. f_equal. f_equal.
  assert (M : forall l, map num l = map num (map erase l)) by (intros l; rewrite map_map; apply map_ext; intros; symmetry; apply num_erase). rewrite (M args), (M args'), Q. reflexivity.
Qed.
(** two calls with a mutation of the first result in between *)
Definition one := [PNum TInt 1].
Lemma history_exists : exists w es, run f_sum (Some 20) true true any_call all_addrs w es /\ length es = 3.
Proof.
  eexists. eexists. split.
  - eapply run_cons; [eapply run_cons; [eapply run_cons; [apply run_nil|]|]|].
    + apply (S_call _ _ _ _ _ _ _ _ one []); [exact I|intros a []|reflexivity].
    + cbn. apply (S_write _ _ _ _ _ _ _ _ 1 (mkO true [At 1]) [At 7]); [exact I|apply R_known; left; reflexivity|reflexivity|reflexivity|intros c [<-|[]]; exact I].
    + cbn. apply (S_call _ _ _ _ _ _ _ _ one []); [exact I|intros a []|reflexivity].
  - reflexivity.
Qed.
(** without copying the mutation shows in the next result *)
Lemma nocopy_leaks : exists w es args r w' g, run f_sum (Some 20) true false any_call all_addrs w es /\ step f_sum (Some 20) true false any_call all_addrs w (ECall args [] (Some r)) w' /\
  f_sum (l_heap (w_st w)) args [] = Some g /\ ~ same_value (l_heap (w_st w')) r (g_objs g) (g_root g).
Proof.
  eexists. eexists. exists one. eexists. eexists. eexists. split; [|split; [|split]].
  - eapply run_cons; [eapply run_cons; [apply run_nil|]|].
    + apply (S_call _ _ _ _ _ _ _ _ one []); [exact I|intros a []|reflexivity].
    + cbn. apply (S_write _ _ _ _ _ _ _ _ 0 (mkO true [At 1]) [At 7]); [exact I|apply R_known; left; reflexivity|reflexivity|reflexivity|intros c [<-|[]]; exact I].
  - cbn. apply (S_call _ _ _ _ _ _ _ _ one []); [exact I|intros a []|reflexivity].
  - reflexivity.
  - intros H. specialize (H 1). cbn in H. discriminate.
Qed.
(** a function of the contents of a tensor argument *)
Definition f_contents : func := fun h args kw =>
  match args with
  | [PObj a] => match nth_error h a with
      | Some o => Some (mkG [mkO true (flat_map (fun c => match c with At z => [At z] | Ref _ => [] end) (cells o))] (Ref 0))
      | None => None
      end
  | _ => None
  end.
Lemma f_contents_graph : forall h a kw g, f_contents h a kw = Some g -> graph_ok g.
Proof.
  intros h a kw g E. unfold f_contents in E. destruct a as [|[| | | |x|] [|? ?]]; try discriminate. destruct (nth_error h x) as [o|]; [|discriminate]. injection E as <-.
  split; [|intros y Q; injection Q as <-; cbn; lia]. intros o' y [<-|[]] Hy. cbn [cells] in Hy. apply in_flat_map in Hy. destruct Hy as ([z|b] & _ & Hy); [destruct Hy as [Q|[]]; discriminate|destruct Hy].
Qed.
(** fine as long as the tensors used as arguments are not written to, *)
Lemma f_contents_keys : forall frozen : nat -> Prop, respects_keys f_contents true (fun args kw => forall a, In a (mentions args kw) -> frozen a) (fun a => ~ frozen a).
Proof.
  intros frozen h h' args kw args' kw' k H H' HL HH E E'. destruct (typed_keys _ _ _ _ _ E E') as (_ & _ & Q & _).
  unfold f_contents. destruct args as [|x [|y args]], args' as [|x' [|y' args']]; try discriminate; auto.
  - cbn [map] in Q. injection Q as Q. destruct x as [t z|s| |l|a|], x' as [t' z'|s'| |l'|a'|]; try discriminate; auto. cbn [erase] in Q. injection Q as <-.
    destruct (nth_error h a) as [o|] eqn:Eo.
    + rewrite (HH a o); [reflexivity| |exact Eo]. intros NF. apply NF. apply H. left. reflexivity.
    + apply nth_error_None in Eo. specialize (HL a (or_introl eq_refl)). lia.
  - destruct x, x'; reflexivity.
Qed.
(** otherwise the cached result is stale, even with copying *)
Lemma mutated_argument : exists w es args r w' g, run f_contents (Some 20) true true any_call all_addrs w es /\ step f_contents (Some 20) true true any_call all_addrs w (ECall args [] (Some r)) w' /\
  f_contents (l_heap (w_st w)) args [] = Some g /\ ~ same_value (l_heap (w_st w')) r (g_objs g) (g_root g).
Proof.
  eexists. eexists. exists [PObj 0]. eexists. eexists. eexists. split; [|split; [|split]].
  - eapply run_cons; [eapply run_cons; [eapply run_cons; [apply run_nil|]|]|].
    + apply (S_new _ _ _ _ _ _ _ _ true [At 1]). intros c [<-|[]]. exact I.
    + cbn. apply (S_call _ _ _ _ _ _ _ _ [PObj 0] []); [exact I|intros a [<-|[]]; apply R_known; left; reflexivity|reflexivity].
    + cbn. apply (S_write _ _ _ _ _ _ _ _ 0 (mkO true [At 1]) [At 7]); [exact I|apply R_known; right; left; reflexivity|reflexivity|reflexivity|intros c [<-|[]]; exact I].
  - cbn. apply (S_call _ _ _ _ _ _ _ _ [PObj 0] []); [exact I|intros a [<-|[]]; apply R_known; right; left; reflexivity|reflexivity].
  - reflexivity.
  - intros H. specialize (H 1). cbn in H. discriminate.
Qed.
(** the types inside tuples are not part of the key *)
Definition f_types : func := fun _ args kw =>
  match args with [PTuple [PNum t _]] => Some (mkG [] (At (match t with TInt => 0 | TBool => 1 | TFloat => 2 end))) | _ => None end.
Lemma nested_types : exists w es args v w' g, run f_types (Some 20) true true any_call all_addrs w es /\ step f_types (Some 20) true true any_call all_addrs w (ECall args [] (Some v)) w' /\
  f_types (l_heap (w_st w)) args [] = Some g /\ ~ same_value (l_heap (w_st w')) v (g_objs g) (g_root g).
Proof.
  eexists. eexists. exists [PTuple [PNum TFloat 3]]. eexists. eexists. eexists. split; [|split; [|split]].
  - eapply run_cons; [apply run_nil|]. apply (S_call _ _ _ _ _ _ _ _ [PTuple [PNum TInt 3]] []); [exact I|intros a []|reflexivity].
  - cbn. apply (S_call _ _ _ _ _ _ _ _ [PTuple [PNum TFloat 3]] []); [exact I|intros a []|reflexivity].
  - reflexivity.
  - intros H. specialize (H 1). cbn in H. discriminate.
Qed.
(** sharing and a cycle survive deepcopy *)
Definition ex_cyc : heap := [mkO true [Ref 1; Ref 1; At 5]; mkO true [Ref 0]; mkO true [At 9]].
Lemma ex_cyc_copy : deepcopy ex_cyc (Ref 0) = (ex_cyc ++ [mkO true [Ref 4; Ref 4; At 5]; mkO true [Ref 3]], Ref 3).
Proof. reflexivity. Qed.
