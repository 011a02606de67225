(** Property theorems C09 (command part), C12-C15 and C48. *)
From Coq Require Import List Arith Bool NArith String Permutation Sorted.
From Verif Require Import Text ResolverModel ResolverSpec DiscoverModel DiscoverSpec
  WalkModel WalkSpec WalkProofs CliModel CliSpec CliProofs.
Import ListNotations.

(** C48 *)
Theorem c48_format_result_faithful : forall O (parse_ok : text -> bool) (print : O -> text -> option text) src o,
  (format_source parse_ok print src o = FParseError <-> parse_ok src = false) /\
  (format_source parse_ok print src o = FFormatError <-> parse_ok src = true /\ print o src = None) /\
  (format_source parse_ok print src o = FUnchanged <-> parse_ok src = true /\ print o src = Some src) /\
  (forall t, format_source parse_ok print src o = FChanged t <->
     parse_ok src = true /\ print o src = Some t /\ t <> src).
Proof. exact format_source_cases. Qed.
Print Assumptions c48_format_result_faithful.

Example c48_example :
  let parse_ok t := negb (text_eqb t ($"(")) in
  let print (_ : unit) t := Some (if text_eqb t ($"1+1") then $"1 + 1" else t) in
  format_source parse_ok print ($"1+1") tt = FChanged ($"1 + 1") /\
  format_source parse_ok print ($"1 + 1") tt = FUnchanged /\
  format_source parse_ok print ($"(") tt = FParseError.
Proof. vm_compute. repeat split. Qed.

Section Commands.
  Context {S O : Type}.
  Context (parse_ok : text -> bool) (print : O -> text -> option text) (options_of : S -> text -> O).
  Context (user_exclude : S -> option patterns) (default_exclude default_include : S -> bool) (fb : S).
  Context (is_file : path -> bool) (parse_settings : path -> path -> option S) (A1 A2 : text).
  Context (node_of : path -> node) (dropped : path -> path -> bool -> bool).
  Context (write_outcome : path -> write_result).
  (** Facts about the settings loader: the default settings carry no user patterns, and
      patterns read in a directory are rooted there (toml_options.rs:262-268). *)
  Context (fb_no_user : user_exclude fb = None).
  Context (rooted_here : forall t d s ps, parse_settings t d = Some s -> user_exclude s = Some ps -> p_root ps = d).

  Notation resolver_for := (resolver_for S fb is_file parse_settings A1 A2).
  Notation command := (format_command S O parse_ok print options_of user_exclude default_exclude default_include fb
    is_file parse_settings A1 A2 node_of dropped write_outcome).
  Notation stdin := (format_stdin S O parse_ok print options_of user_exclude default_exclude default_include fb
    is_file parse_settings A1 A2).
  Notation toml_of := (find_air_toml_in_directory is_file A1 A2).
  Notation sel := (selected S user_exclude default_exclude default_include node_of dropped).
  Notation fmt_at r := (formatted S O parse_ok print options_of (resolve_or_fallback r)).
  Notation changes_at r := (would_change S O parse_ok print options_of (resolve_or_fallback r)).
  Notation formats_at r := (formats S O parse_ok print options_of (resolve_or_fallback r)).

  (** A run always has a result, whatever the number of threads. *)
  Theorem c10_command_total : forall check force k d paths, 0 < k ->
    exists res, command check force k d paths res.
  Proof. exact (command_exists S O parse_ok print options_of user_exclude default_exclude default_include fb
    is_file parse_settings A1 A2 node_of dropped write_outcome fb_no_user rooted_here). Qed.

  (** C09 *)
  Theorem c09_broken_config_stops_run : forall check force k d paths res,
    (exists p dir, In p paths /\ nearest toml_of p dir /\ broken S toml_of parse_settings dir) ->
    command check force k d paths res ->
    r_status res = Error /\ r_ops res = [] /\ r_reported res = [] /\ forall q, apply_ops d (r_ops res) q = d q.
  Proof. exact (broken_stops S O parse_ok print options_of user_exclude default_exclude default_include fb
    is_file parse_settings A1 A2 node_of dropped write_outcome). Qed.

  (** C12 *)
  Theorem c12_stdin_like_direct_file : forall check force k d p t res,
    node_of p = File -> d p = Some t -> write_outcome p = WOk ->
    command check force k d [p] res ->
    exists st out, stdin check force p (Some t) = Some (st, out) /\ st = r_status res /\
      (check = true -> out = None) /\
      (check = false -> st = Success -> out = apply_ops d (r_ops res) p).
  Proof. exact (stdin_is_file S O parse_ok print options_of user_exclude default_exclude default_include fb
    is_file parse_settings A1 A2 node_of dropped write_outcome fb_no_user rooted_here). Qed.

  (** C13 *)
  Theorem c13_check_never_writes_and_reports_exactly : forall force k k' d paths res res' p,
    pairwise_disjoint paths -> (forall q, In q paths -> names_distinct (node_of q)) ->
    write_outcome p <> WOpenErr ->
    command true force k d paths res -> command false force k' d paths res' ->
    r_ops res = [] /\ Sorted path_le (r_reported res) /\
    (In p (r_reported res) <-> touches (r_ops res') p).
  Proof. exact (check_command S O parse_ok print options_of user_exclude default_exclude default_include fb
    is_file parse_settings A1 A2 node_of dropped write_outcome fb_no_user rooted_here). Qed.

  Theorem c13_check_status : forall force k d paths r res,
    resolver_for paths = Some r -> command true force k d paths res ->
    (r_status res = Failure -> exists p, sel force r paths p /\ changes_at r d p) /\
    (r_status res = Success -> forall p, sel force r paths p -> formats_at r d p /\ ~ changes_at r d p) /\
    ((exists p, sel force r paths p /\ ~ formats_at r d p) -> r_status res = Error) /\
    ((exists p, sel force r paths p /\ changes_at r d p) -> r_status res <> Success).
  Proof. exact (check_command_status S O parse_ok print options_of user_exclude default_exclude default_include fb
    is_file parse_settings A1 A2 node_of dropped write_outcome fb_no_user rooted_here). Qed.

  (** C14 *)
  Theorem c14_write_result : forall force k d paths r res p,
    resolver_for paths = Some r -> pairwise_disjoint paths ->
    (forall q, In q paths -> names_distinct (node_of q)) ->
    command false force k d paths res ->
    (sel force r paths p -> write_outcome p = WOk ->
       forall t, d p = Some t ->
       apply_ops d (r_ops res) p = Some (match fmt_at r p t with Some out => out | None => t end)) /\
    (~ sel force r paths p -> apply_ops d (r_ops res) p = d p) /\
    (touches (r_ops res) p -> sel force r paths p /\ changes_at r d p).
  Proof. exact (write_command S O parse_ok print options_of user_exclude default_exclude default_include fb
    is_file parse_settings A1 A2 node_of dropped write_outcome fb_no_user rooted_here). Qed.

  Theorem c14_write_status : forall force k d paths r res,
    resolver_for paths = Some r -> pairwise_disjoint paths ->
    (forall q, In q paths -> names_distinct (node_of q)) ->
    (forall q, write_outcome q = WOk) ->
    command false force k d paths res ->
    (r_status res = Success -> forall p, sel force r paths p -> formats_at r d p) /\
    (r_status res = Success \/ r_status res = Error).
  Proof. exact (write_command_status S O parse_ok print options_of user_exclude default_exclude default_include fb
    is_file parse_settings A1 A2 node_of dropped write_outcome fb_no_user rooted_here). Qed.
End Commands.
Print Assumptions c10_command_total.
Print Assumptions c09_broken_config_stops_run.
Print Assumptions c12_stdin_like_direct_file.
Print Assumptions c13_check_never_writes_and_reports_exactly.
Print Assumptions c13_check_status.
Print Assumptions c14_write_result.
Print Assumptions c14_write_status.

(** C14, failures: no error is logged exactly if every delivered entry is a file that
    can be read and formatted, and written where that changes it. *)
Theorem c14_errors_iff : forall S O parse_ok print options_of settings_for write_outcome l d,
  NoDup (oks l) ->
  (snd (format_paths_write (S:=S) (O:=O) parse_ok print options_of settings_for write_outcome d l) = [] <->
   forall f, In f l -> match f with
     | FErr _ => False
     | FOk p => formats S O parse_ok print options_of settings_for d p /\
                (would_change S O parse_ok print options_of settings_for d p -> write_outcome p = WOk) end).
Proof. exact write_errors. Qed.
Print Assumptions c14_errors_iff.

(** C15: interrupt after any number of files, run again in any delivery order. *)
Theorem c15_restartable_between_files :
  forall S O parse_ok print options_of settings_for write_outcome d l l' k p,
  (forall q, write_outcome q = WOk) ->
  idempotent S O parse_ok print options_of settings_for ->
  NoDup (oks l) -> Permutation l' l ->
  after S O parse_ok print options_of settings_for write_outcome
    (after S O parse_ok print options_of settings_for write_outcome d (firstn k l)) l' p
  = after S O parse_ok print options_of settings_for write_outcome d l p.
Proof. exact restartable. Qed.
Print Assumptions c15_restartable_between_files.

(** Concrete runs. *)
Definition ex_print (_ : unit) (t : text) : option text :=
  Some (if text_eqb t ($"1+1") then $"1 + 1" else t).
Definition ex_parse_ok (t : text) : bool := negb (text_eqb t ($"(")).
Definition ex_disk : disk := fun p =>
  if path_eqb p [$"a.R"] then Some ($"1+1")
  else if path_eqb p [$"b.R"] then Some ($"x")
  else if path_eqb p [$"bad.R"] then Some ($"(") else None.
Definition ex_files := [FOk [$"bad.R"]; FOk [$"b.R"]; FErr [$"locked"]; FOk [$"a.R"]; FOk [$"gone.R"]].
Definition ex_write d l :=
  format_paths_write (S:=unit) (O:=unit) ex_parse_ok ex_print (fun _ _ => tt) (fun _ => tt) (fun _ => WOk) d l.

Example c14_example :
  ex_write ex_disk ex_files =
    ([Truncate [$"a.R"]; Fill [$"a.R"] ($"1 + 1")],
     [EFormat [$"bad.R"]; EIgnore [$"locked"]; ERead [$"gone.R"]]).
Proof. vm_compute. reflexivity. Qed.

Example c13_example :
  let r := format_files (S:=unit) (O:=unit) ex_parse_ok ex_print (fun _ _ => tt) (fun _ => tt) (fun _ => WOk) true in
  r_reported (r (fun _ => Some ($"1+1")) [FOk [$"b"]; FOk [$"a"; $"z"]; FOk [$"a"]]) = [[$"a"]; [$"a"; $"z"]; [$"b"]] /\
  r_status (r ex_disk [FOk [$"a.R"]; FOk [$"b.R"]]) = Failure /\
  r_status (r ex_disk [FOk [$"b.R"]]) = Success /\
  r_status (r ex_disk ex_files) = Error.
Proof. vm_compute. repeat split. Qed.

Example c15_idempotent_example : idempotent unit unit ex_parse_ok ex_print (fun _ _ => tt) (fun _ => tt).
Proof.
  intros p t out. unfold formatted, ex_print.
  destruct (ex_parse_ok t) eqn:Ep; [|discriminate].
  destruct (text_eqb t ($"1+1")) eqn:E; intro H; injection H as <-.
  - vm_compute. reflexivity.
  - rewrite Ep, E. reflexivity.
Qed.

(** Restartability fails for an interruption inside one write: after the file was
    truncated and before it was filled, its text is lost; a second run leaves it empty. *)
Theorem c15_crash_inside_write_refuted :
  exists n, let ops := fst (ex_write ex_disk [FOk [$"a.R"]]) in
    let crashed := apply_ops ex_disk (firstn n ops) in
    apply_ops ex_disk ops [$"a.R"] = Some ($"1 + 1") /\
    apply_ops crashed (fst (ex_write crashed [FOk [$"a.R"]])) [$"a.R"] = Some [].
Proof. exists 1. vm_compute. split; reflexivity. Qed.
Print Assumptions c15_crash_inside_write_refuted.

(** A project meeting the hypotheses of the command theorems: /p/air.toml governs both
    given paths, its patterns are rooted at /p; /q has no configuration. *)
Definition ex_node (p : path) : node :=
  if path_eqb p [$"p"; $"R"] then Dir [($"a.R", File); ($"b.R", File); ($"c.txt", File)]
  else if path_eqb p [$"q"] then Dir [($"d.R", File)] else File.
Definition ex_is_file (p : path) : bool := path_eqb p [$"p"; $"air.toml"].
Definition ex_parse (toml dir : path) : option (option patterns) :=
  Some (Some {| p_root := dir; p_match := fun _ q _ => if path_eqb q [$"R"; $"b.R"] then MIgnore else MNone |}).
Definition ex_fs_disk : disk := fun p =>
  if path_eqb p [$"p"; $"R"; $"a.R"] then Some ($"1+1") else Some ($"x").
Definition ex_command := format_command (option patterns) unit ex_parse_ok ex_print (fun _ _ => tt)
  (fun s => s) (fun _ => true) (fun _ => true) None ex_is_file ex_parse ($"air.toml") ($".air.toml")
  ex_node (fun _ _ _ => false) (fun _ => WOk).

Ltac ex_step :=
  eapply PTrans;
  [ match goal with |- pstep _ _ _ _ _ _ _ _ {| pending := ?w :: ?b; threads := ?ts |} _ =>
      change (w :: b) with ([] ++ w :: b); eapply PStep with (i := 0);
      [vm_compute; reflexivity | cbn; auto with arith]
    end
  | cbn [app push_thread firstn skipn] ].

Example command_hypotheses_met :
  let paths := [[$"p"; $"R"]; [$"q"]] in
  (exists r, resolver_for (option patterns) None ex_is_file ex_parse ($"air.toml") ($".air.toml") paths = Some r) /\
  pairwise_disjoint paths /\ (forall q, In q paths -> names_distinct (ex_node q)) /\
  (forall t d s ps, ex_parse t d = Some s -> s = Some ps -> p_root ps = d) /\
  (exists res, ex_command false false 2 ex_fs_disk paths res /\
     r_status res = Success /\
     r_ops res = [Truncate [$"p"; $"R"; $"a.R"]; Fill [$"p"; $"R"; $"a.R"] ($"1 + 1")]) /\
  (exists res, ex_command true false 2 ex_fs_disk paths res /\
     r_status res = Failure /\ r_reported res = [[$"p"; $"R"; $"a.R"]]).
Proof.
  cbn zeta. split; [eexists; vm_compute; reflexivity|].
  split. { cbn. split; [|split; [intros q []|exact I]].
    intros q [<-|[]]. split; intros [r H]; discriminate. }
  split. { intros q [<-|[<-|[]]]; vm_compute; repeat split; repeat constructor; cbn; intuition discriminate. }
  split. { unfold ex_parse. intros t d s ps H. injection H as <-. intro H. injection H as <-. reflexivity. }
  split; (eexists; split;
    [ eapply CmdRun;
      [ vm_compute; reflexivity
      | unfold start_works; cbn [map fst snd repeat]; do 6 ex_step; apply PRefl
      | reflexivity
      | apply Permutation_refl ]
    | vm_compute; repeat split ]).
Qed.
