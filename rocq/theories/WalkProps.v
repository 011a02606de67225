(** Property theorems C10 and C11.  [outcome ... k roots files] says that [files] is
    what some complete schedule of the parallel walk with [k] threads delivers. *)
From Coq Require Import List Arith Bool NArith String Permutation.
From Verif Require Import Text ResolverModel ResolverSpec DiscoverModel DiscoverSpec
  WalkModel WalkSpec WalkProofs CliProofs.
Import ListNotations.

(** C10: exactly the selected files are delivered, under every schedule. *)
Theorem c10_selected_files :
  forall S user_exclude default_exclude default_include settings_for dropped (force : bool),
  (forall p ps, user_exclude (settings_for p) = Some ps -> starts_with p (p_root ps) = true) ->
  forall k roots files f,
  outcome S user_exclude default_exclude default_include settings_for dropped force k roots files ->
  (In (FOk f) files <-> exists start n, In (start, n) roots /\
     selects S user_exclude default_exclude default_include settings_for dropped force start n f).
Proof. exact selection. Qed.
Print Assumptions c10_selected_files.

(** ... and a failure is reported for exactly the directories that cannot be listed
    and the entries that cannot be inspected where the walk gets to. *)
Theorem c10_failures_reported :
  forall S user_exclude default_exclude default_include settings_for dropped (force : bool),
  (forall p ps, user_exclude (settings_for p) = Some ps -> starts_with p (p_root ps) = true) ->
  forall k roots files q,
  outcome S user_exclude default_exclude default_include settings_for dropped force k roots files ->
  (In (FErr q) files <-> exists start n, In (start, n) roots /\
     fails S user_exclude default_exclude settings_for dropped force start n q).
Proof. exact failures. Qed.
Print Assumptions c10_failures_reported.

(** C11: two schedules, even with different numbers of threads, deliver the same
    multiset of files and errors. *)
Theorem c11_schedule_independent :
  forall S user_exclude default_exclude default_include settings_for dropped (force : bool) k k' roots files files',
  outcome S user_exclude default_exclude default_include settings_for dropped force k roots files ->
  outcome S user_exclude default_exclude default_include settings_for dropped force k' roots files' ->
  Permutation files files'.
Proof. exact schedule_independent. Qed.
Print Assumptions c11_schedule_independent.

(** Every schedule ends: each step shrinks the remaining work... *)
Theorem c11_every_step_decreases :
  forall S user_exclude default_exclude default_include settings_for dropped (force : bool) a b,
  pstep S user_exclude default_exclude default_include settings_for dropped
    (if force then ExNothing else ExMatched) (if force then InEverything else InMatched) a b ->
  psize b < psize a.
Proof. exact step_decreases. Qed.
Print Assumptions c11_every_step_decreases.

(** ... and never gets stuck (in particular no pattern search panics). *)
Theorem c11_never_stuck :
  forall S user_exclude default_exclude default_include settings_for dropped (force : bool),
  (forall p ps, user_exclude (settings_for p) = Some ps -> starts_with p (p_root ps) = true) ->
  forall st, threads st <> [] -> pending st <> [] ->
  exists st', pstep S user_exclude default_exclude default_include settings_for dropped
    (if force then ExNothing else ExMatched) (if force then InEverything else InMatched) st st'.
Proof. exact step_progress. Qed.
Print Assumptions c11_never_stuck.

(** Nothing is delivered twice if the given paths do not overlap. *)
Theorem c11_no_duplicates :
  forall S user_exclude default_exclude default_include settings_for dropped (force : bool) k roots files,
  disjoint_starts roots -> (forall r, In r roots -> names_distinct (snd r)) ->
  outcome S user_exclude default_exclude default_include settings_for dropped force k roots files ->
  NoDup (oks files).
Proof. exact outcome_files_nodup. Qed.
Print Assumptions c11_no_duplicates.

(** A concrete project: /p with R files, an excluded directory "gen" (user pattern),
    a built-in excluded directory "renv", a hidden directory, a non-R file. *)
Definition ex_tree : node :=
  Dir [($"a.R", File);
       ($"gen", Dir [($"b.R", File); ($"keep.R", File)]);
       ($"renv", Dir [($"activate.R", File)]);
       ($".hid", Dir [($"h.R", File)]);
       ($"cpp11.R", File);
       ($"notes.txt", File);
       ($"sub", Dir [($"c.r", File); ($"locked", Unlistable)])].
(** User patterns ["gen/"] and ["!gen/keep.R"] rooted at /p. *)
Definition ex_patterns : patterns :=
  {| p_root := [$"p"];
     p_match := fun _ q d =>
       if path_eqb q [$"gen"; $"keep.R"] then MWhitelist
       else if path_eqb q [$"gen"] && d then MIgnore else MNone |}.
Definition ex_dropped (start q : path) (d : bool) : bool :=
  match rev q with name :: _ => match name with c :: _ => N.eqb c 46 | [] => false end | [] => false end.
Definition ex_walk := walk unit (fun _ => Some ex_patterns) (fun _ => true) (fun _ => true) (fun _ => tt) ex_dropped.

Example c10_example :
  ex_walk false [$"p"] [$"p"] true ex_tree =
    [FOk [$"p"; $"a.R"]; FOk [$"p"; $"sub"; $"c.r"]; FErr [$"p"; $"sub"; $"locked"]] /\
  ex_walk true [$"p"] [$"p"] true ex_tree =
    [FOk [$"p"; $"a.R"]; FOk [$"p"; $"gen"; $"b.R"]; FOk [$"p"; $"gen"; $"keep.R"];
     FOk [$"p"; $"renv"; $"activate.R"]; FOk [$"p"; $"cpp11.R"]; FOk [$"p"; $"notes.txt"];
     FOk [$"p"; $"sub"; $"c.r"]; FErr [$"p"; $"sub"; $"locked"]] /\
  ex_walk false [$"p"; $"renv"; $"activate.R"] [$"p"; $"renv"; $"activate.R"] true File = [].
Proof. vm_compute. repeat split. Qed.

(** "A file in an excluded directory is never formatted, whether given directly or
    found": false with a negated pattern.  Found by walking, gen/keep.R is skipped;
    given directly, it is formatted. *)
Theorem c10_direct_equals_found_refuted :
  exists f, ~ In (FOk f) (ex_walk false [$"p"] [$"p"] true ex_tree) /\
            ex_walk false f f true File = [FOk f].
Proof.
  exists [$"p"; $"gen"; $"keep.R"]. split; [|vm_compute; reflexivity].
  vm_compute. intros H. repeat (destruct H as [H|H]; [discriminate|]). exact H.
Qed.
Print Assumptions c10_direct_equals_found_refuted.

(** "Only files ending in .R or .r are picked up without force": false, the class in
    the built-in pattern ["**/*.[R,r]"] also contains a comma. *)
Theorem c10_only_r_files_refuted :
  exists f, ex_walk false [$"p"] [$"p"] true (Dir [(f, File)]) = [FOk [$"p"; f]] /\
            f = $"data.,".
Proof. exists ($"data.,"). split; vm_compute; reflexivity. Qed.
Print Assumptions c10_only_r_files_refuted.

(** "No file is processed twice": false for overlapping paths on the command line. *)
Theorem c11_overlapping_paths_duplicate_refuted :
  exists roots f,
    walk_all unit (fun _ => Some ex_patterns) (fun _ => true) (fun _ => true) (fun _ => tt) ex_dropped false roots
    = [FOk f; FOk f].
Proof.
  exists [([$"p"], Dir [($"a.R", File)]); ([$"p"; $"a.R"], File)], [$"p"; $"a.R"].
  vm_compute. reflexivity.
Qed.
Print Assumptions c11_overlapping_paths_duplicate_refuted.
