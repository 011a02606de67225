(** Property theorems C07. *)
From Coq Require Import List Arith Bool NArith String.
From Verif Require Import Text SettingsModel ResolverModel ResolverSpec ResolverProofs.
Import ListNotations.

(** Every reported old value is that of the abstract map. *)
Theorem c07_outputs_match_map : forall V (fb : V) (h : list (op V)),
  snd (resolver_run fb h) = snd (spec_run h).
Proof. exact run_outputs. Qed.
Print Assumptions c07_outputs_match_map.

(** Resolution after any history is the deepest stored ancestor-or-self. *)
Theorem c07_resolve_is_deepest_ancestor : forall V (fb : V) (h : list (op V)) p,
  resolver_resolve (fst (resolver_run fb h)) p = spec_resolve (fst (spec_run h)) p.
Proof. exact run_resolve. Qed.
Print Assumptions c07_resolve_is_deepest_ancestor.

Theorem c07_resolve_or_fallback : forall V (fb : V) (h : list (op V)) p,
  resolve_or_fallback (fst (resolver_run fb h)) p =
  match spec_resolve (fst (spec_run h)) p with Some (_, v) => v | None => fb end.
Proof. exact run_resolve_or_fallback. Qed.
Print Assumptions c07_resolve_or_fallback.

(** What "deepest ancestor" means, independent of any list order. *)
Theorem c07_deepest_characterised : forall V (m : store V) p q v,
  spec_resolve m p = Some (q, v) <->
  m q = Some v /\ (exists r, p = q ++ r) /\
  (forall q', (exists r, p = q' ++ r) -> List.length q < List.length q' -> m q' = None).
Proof. exact spec_resolve_deepest. Qed.
Print Assumptions c07_deepest_characterised.

(** All stored ancestors are visited by [matches]. *)
Theorem c07_matches_all_ancestors : forall V (fb : V) (h : list (op V)) p q v,
  In (q, v) (resolver_matches (fst (resolver_run fb h)) p) <->
  fst (spec_run h) q = Some v /\ exists r, p = q ++ r.
Proof. exact run_matches. Qed.
Print Assumptions c07_matches_all_ancestors.

Example c07_example :
  let h := [OpAdd [$"a"; $"b"] 1; OpAdd [$"a"] 2; OpAdd [$"a"; $"b"; $"c"] 3;
            OpAdd [$"a"; $"b.R"] 4; OpAdd [$"a"; $"b"] 5; OpRemove [$"a"; $"b"; $"c"]] in
  resolver_run 0 h =
    ({| fallback := 0; items := [([$"a"], 2); ([$"a"; $"b"], 5); ([$"a"; $"b.R"], 4)] |},
     [None; None; None; None; Some 1; Some 3]) /\
  resolver_resolve (fst (resolver_run 0 h)) [$"a"; $"b"; $"c"; $"x.R"] = Some ([$"a"; $"b"], 5) /\
  resolve_or_fallback (fst (resolver_run 0 h)) [$"z"] = 0.
Proof. vm_compute. repeat split. Qed.
