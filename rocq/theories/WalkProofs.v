From Coq Require Import String.
From Coq Require Import List Arith Bool NArith Lia Permutation.
From Verif Require Import Text TextFacts SettingsModel ResolverModel ResolverSpec ResolverProofs
  DiscoverModel DiscoverSpec DiscoverProofs WalkModel WalkSpec.
Import ListNotations.

Section NodeInd.
  Variable P : node -> Prop.
  Hypothesis HF : P File.
  Hypothesis HD : forall es, (forall c n, In (c, n) es -> P n) -> P (Dir es).
  Hypothesis HL : P Unlistable.
  Hypothesis HR : P Unreadable.
  Fixpoint node_ind' (n : node) : P n :=
    match n with
    | File => HF
    | Dir es => HD es
        ((fix go (l : list (text * node)) : forall c m, In (c, m) l -> P m :=
            match l with
            | [] => fun c m H => match H with end
            | e :: r => fun c m H =>
                match H with
                | or_introl E => eq_ind (snd e) P (node_ind' (snd e)) m (f_equal snd E)
                | or_intror H' => go r c m H'
                end
            end) es)
    | Unlistable => HL
    | Unreadable => HR
    end.
End NodeInd.

Lemma starts_with_refl_app : forall a r, starts_with (a ++ r) a = true.
Proof. intros. apply starts_with_iff. exists r. reflexivity. Qed.

Lemma strip_under : forall root rel, strip_root root (root ++ rel) = (false, rel).
Proof.
  intros. unfold strip_root. rewrite starts_with_refl_app.
  rewrite skipn_app, skipn_all, Nat.sub_diag. reflexivity.
Qed.

(* the built-in patterns by name *)
Lemma glob_lit : forall t g x, glob_match (lit t ++ g) x = true <-> exists y, x = t ++ y /\ glob_match g y = true.
Proof.
  induction t as [|c t IH]; intros g x.
  - cbn. split; [intro H; exists x; auto|intros [y [-> H]]; exact H].
  - cbn [lit map app glob_match]. destruct x as [|a x].
    + split; [discriminate|intros [y [H _]]; discriminate].
    + rewrite andb_true_iff, N.eqb_eq. fold (lit t). rewrite IH. split.
      * intros [-> [y [-> H]]]. exists y. auto.
      * intros [y [H1 H2]]. injection H1 as -> ->. split; [reflexivity|exists y; auto].
Qed.
Lemma glob_star : forall g x, glob_match (GStar :: g) x = true <-> exists a b, x = a ++ b /\ glob_match g b = true.
Proof.
  intros g x. cbn [glob_match]. induction x as [|c x IH].
  - rewrite orb_false_r. split; [intro H; exists [], []; auto|]. intros [a [b [H1 H2]]]. symmetry in H1. apply app_eq_nil in H1. destruct H1 as [-> ->]. exact H2.
  - rewrite orb_true_iff. split.
    + intros [H|H]; [exists [], (c :: x); auto|]. apply IH in H. destruct H as [a [b [-> H]]]. exists (c :: a), b. auto.
    + intros [a [b [H1 H2]]]. destruct a as [|c' a]; [left; cbn in H1; subst b; exact H2|right]. injection H1 as -> ->. apply IH. exists a, b. auto.
Qed.
Lemma glob_exact : forall t x, glob_match (lit t) x = true <-> x = t.
Proof.
  intros t x. rewrite <- (app_nil_r (lit t)). rewrite glob_lit. split.
  - intros [y [-> H]]. destruct y; [apply app_nil_r|discriminate].
  - intros ->. exists []. rewrite app_nil_r. auto.
Qed.

Lemma dp_last : forall dp dir name d, dp_matched dp (dir ++ [name]) d = glob_match (dp_glob dp) name && (negb (dp_dir_only dp) || d).
Proof. intros. unfold dp_matched. rewrite rev_app_distr. reflexivity. Qed.

Lemma exclude_by_name : forall dir name d, df_matched DEFAULT_EXCLUDE (dir ++ [name]) d = true <-> builtin_excluded name d.
Proof.
  intros dir name d. unfold df_matched, DEFAULT_EXCLUDE, builtin_excluded. cbn [existsb]. rewrite !dp_last. cbn [dp_glob dp_dir_only negb orb].
  rewrite !orb_true_iff, !andb_true_iff, !glob_exact, glob_lit. 
  assert ((exists y, name = $"import-standalone-" ++ y /\ glob_match ([GStar] ++ lit $".R") y = true) <-> exists x, name = $"import-standalone-" ++ x ++ $".R") as E.
  { split.
    - intros [y [-> H]]. cbn [app] in H. apply glob_star in H. destruct H as [a [b [-> H]]]. apply glob_exact in H. subst b. exists a. reflexivity.
    - intros [x ->]. exists (x ++ $".R"). split; [reflexivity|]. apply glob_star. exists x, $".R". split; [reflexivity|]. apply glob_exact. reflexivity. }
  rewrite E. clear E. intuition discriminate.
Qed.

Lemma include_by_name : forall dir name d, df_matched DEFAULT_INCLUDE (dir ++ [name]) d = true <-> builtin_included name.
Proof.
  intros dir name d. unfold df_matched, DEFAULT_INCLUDE, builtin_included. cbn [existsb]. rewrite dp_last. cbn [dp_glob dp_dir_only negb orb].
  rewrite orb_false_r, andb_true_r. cbn [app]. rewrite glob_star. split.
  - intros [a [b [-> H]]]. apply glob_lit in H. destruct H as [y [-> H]]. destruct y as [|c y]; [discriminate|]. cbn [glob_match] in H.
    apply andb_true_iff in H. destruct H as [H1 H2]. destruct y; [|discriminate]. exists a, c. split; [reflexivity|].
    apply existsb_exists in H1. destruct H1 as [x [H1 H3]]. apply N.eqb_eq in H3. subst x. exact H1.
  - intros [x [c [-> H]]]. exists x, ($"." ++ [c]). split; [reflexivity|]. apply glob_lit. exists [c]. split; [reflexivity|].
    cbn [glob_match]. rewrite andb_true_r. apply existsb_exists. exists c. split; [exact H|apply N.eqb_refl].
Qed.

Lemma df_nil : forall ds d, df_matched ds [] d = false.
Proof. intros ds d. unfold df_matched. induction ds as [|x ds IH]; [reflexivity|exact IH]. Qed.

Lemma df_named : forall ds (P : text -> Prop) q d, (forall dir name, df_matched ds (dir ++ [name]) d = true <-> P name) ->
  (df_matched ds q d = true <-> exists dir name, q = dir ++ [name] /\ P name).
Proof.
  intros ds P q d H. destruct q as [|name dir _] using rev_ind.
  - rewrite df_nil. split; [discriminate|]. intros [dir [name [E _]]]. destruct dir; discriminate.
  - rewrite H. split; [intro Hn; exists dir, name; auto|]. intros [dir' [name' [E Hn]]]. apply app_inj_tail in E. destruct E as [_ <-]. exact Hn.
Qed.

Lemma self_and_parents_In : forall p d a k,
  In (a, k) (self_and_parents p d) <-> ancestor_or_self a p /\ k = (if path_eqb a p then d else true).
Proof.
  intros p d a k. unfold self_and_parents.
  destruct p as [|c p] using rev_ind.
  - rewrite ancestors_nil. cbn [map In]. split.
    + intros [H|[]]. inversion H; subst. split; [exists []; reflexivity|reflexivity].
    + intros [[r H] ->]. symmetry in H. apply app_eq_nil in H. destruct H as [-> ->]. left. reflexivity.
  - clear IHp. rewrite ancestors_snoc. cbn [In]. split.
    + intros [H|H].
      * inversion H; subst. rewrite path_eqb_refl. split; [exists []; symmetry; apply app_nil_r|reflexivity].
      * apply in_map_iff in H. destruct H as [b [H1 H2]]. inversion H1; subst. apply ancestors_In in H2.
        split; [destruct H2 as [r ->]; exists (r ++ [c]); rewrite app_assoc; reflexivity|].
        destruct (path_eqb a (p ++ [c])) eqn:E; [|reflexivity].
        apply path_eqb_eq in E. subst. destruct H2 as [r H2]. apply (f_equal (@length _)) in H2.
        rewrite !app_length in H2. cbn in H2. lia.
    + intros [H ->]. destruct (path_eqb a (p ++ [c])) eqn:E.
      * apply path_eqb_eq in E. subst. left. reflexivity.
      * right. apply in_map_iff. exists a. split; [reflexivity|]. apply ancestors_In.
        apply ancestors_In in H. rewrite ancestors_snoc in H. destruct H as [<-|H].
        -- rewrite path_eqb_refl in E. discriminate.
        -- apply ancestors_In. exact H.
Qed.

Lemma self_and_parents_snoc p c d : self_and_parents (p ++ [c]) d = (p ++ [c], d) :: self_and_parents p true.
Proof.
  unfold self_and_parents. rewrite ancestors_snoc. destruct p as [|x p _] using rev_ind; [reflexivity|].
  rewrite ancestors_snoc. reflexivity.
Qed.
Lemma innermost m p : forall d, first_match m (self_and_parents p d) = MIgnore <->
  exists a b, p = a ++ b /\ m a (match b with [] => d | _ => true end) = MIgnore /\
    forall a' b', p = a' ++ b' -> List.length a < List.length a' ->
      m a' (match b' with [] => d | _ => true end) = MNone.
Proof.
  induction p as [|c p IH] using rev_ind; intros d.
  - unfold self_and_parents. rewrite ancestors_nil. cbn [map first_match]. split.
    + intros H. exists [], []. split; [reflexivity|]. split; [destruct (m [] d); congruence|].
      intros a' b' E L. symmetry in E. apply app_eq_nil in E. destruct E as [-> _]. cbn in L. lia.
    + intros [a [b [E [H _]]]]. symmetry in E. apply app_eq_nil in E. destruct E as [-> ->]. rewrite H. reflexivity.
  - rewrite self_and_parents_snoc. cbn [first_match].
    assert (Split : forall a b, p ++ [c] = a ++ b -> (a = p ++ [c] /\ b = []) \/ exists b', b = b' ++ [c] /\ p = a ++ b').
    { intros a b E. destruct b as [|y b _] using rev_ind; [left; rewrite app_nil_r in E; auto|right].
      rewrite app_assoc in E. apply app_inj_tail in E. destruct E as [-> <-]. exists b. auto. }
    assert (Kind : forall (b : path), match b ++ [c] with [] => d | _ => true end = true) by (intros []; reflexivity).
    assert (Kind' : forall (b : path), match b with [] => true | _ => true end = true) by (intros []; reflexivity).
    destruct (m (p ++ [c]) d) eqn:E.
    + rewrite IH. split; intros [a [b [Ep [H1 H2]]]].
      * exists a, (b ++ [c]). split; [rewrite Ep, app_assoc; reflexivity|]. rewrite Kind. rewrite Kind' in H1.
        split; [exact H1|]. intros a' b' Ea L. destruct (Split _ _ Ea) as [[-> ->]|[b0 [-> Ep']]]; [exact E|].
        rewrite Kind. rewrite <- (Kind' b0). exact (H2 a' b0 Ep' L).
      * destruct (Split _ _ Ep) as [[-> ->]|[b0 [-> Ep']]]; [congruence|]. exists a, b0. split; [exact Ep'|].
        rewrite Kind in H1. rewrite Kind'. split; [exact H1|]. intros a' b' Ea L. rewrite Kind'.
        specialize (H2 a' (b' ++ [c])). rewrite Kind in H2. apply H2; [|exact L]. rewrite Ea, app_assoc. reflexivity.
    + split; [intros _|reflexivity]. exists (p ++ [c]), []. split; [symmetry; apply app_nil_r|]. split; [exact E|].
      intros a' b' Ea L. exfalso. apply (f_equal (@List.length _)) in Ea. rewrite (app_length a' b') in Ea. lia.
    + split; [discriminate|]. intros [a [b [Ep [H1 H2]]]]. destruct (Split _ _ Ep) as [[-> ->]|[b0 [-> Ep']]]; [congruence|].
      specialize (H2 (p ++ [c]) [] (eq_sym (app_nil_r _))). cbn in H2. rewrite H2 in E; [discriminate|].
      rewrite Ep'. rewrite !app_length. cbn [List.length]. lia.
Qed.

Section W.
  Variable S : Type.
  Variable user_exclude : S -> option patterns.
  Variable default_exclude default_include : S -> bool.
  Variable settings_for : path -> S.
  Variable dropped : path -> path -> bool -> bool.
  Variable force : bool.
  (* Settings found for a path have their patterns rooted at or above that path. *)
  Hypothesis rooted : forall p ps, user_exclude (settings_for p) = Some ps ->
    starts_with p (p_root ps) = true.

  Let emode := if force then ExNothing else ExMatched.
  Let imode := if force then InEverything else InMatched.
  Notation visit := (visit_format S user_exclude default_exclude default_include settings_for emode imode).
  Notation proc := (process S user_exclude default_exclude default_include settings_for dropped emode imode).
  Notation ex_self := (excluded_itself S user_exclude default_exclude settings_for).
  Notation ex_par := (excluded_or_parents S user_exclude default_exclude settings_for).
  Notation incl := (included S default_include settings_for).
  Notation pass := (passes S user_exclude default_exclude settings_for dropped force).
  Notation sel := (selects S user_exclude default_exclude default_include settings_for dropped force).

  Lemma ex_self_iff : forall q d,
    any_exclude_matched_path S user_exclude default_exclude (settings_for q) q d = true <-> ex_self q d.
  Proof.
    intros q d. unfold any_exclude_matched_path, excluded_itself. rewrite orb_true_iff, andb_true_iff.
    split; (intros [H|[H1 H2]]; [left|right]).
    - destruct (user_exclude (settings_for q)) as [ps|] eqn:E; [|discriminate].
      pose proof (rooted _ _ E) as Hr. apply starts_with_iff in Hr. destruct Hr as [rel Hq].
      exists ps, rel. split; [reflexivity|]. split; [exact Hq|]. unfold fp_matched, gi_matched in H.
      assert (strip_root (p_root ps) q = (false, rel)) as Es by (rewrite Hq; apply strip_under).
      rewrite Es in H. destruct (p_match ps false rel d); try discriminate. reflexivity.
    - split; [exact H1|]. revert H2. apply df_named. intros dir name. apply exclude_by_name.
    - destruct H as [ps [rel [-> [Hq H]]]]. unfold fp_matched, gi_matched.
      assert (strip_root (p_root ps) q = (false, rel)) as -> by (rewrite Hq; apply strip_under).
      rewrite H. reflexivity.
    - split; [exact H1|]. revert H2. apply df_named. intros dir name. apply exclude_by_name.
  Qed.

  Lemma df_par_iff : forall q d,
    df_matched_or_parents DEFAULT_EXCLUDE q d = true <->
    exists dir name rest, q = dir ++ name :: rest /\
       builtin_excluded name (match rest with [] => d | _ => true end).
  Proof.
    intros q d. unfold df_matched_or_parents. rewrite existsb_exists. split.
    - intros [[a k] [H1 H2]]. cbn [fst snd] in H2. apply self_and_parents_In in H1. destruct H1 as [[rest ->] ->].
      rewrite (df_named _ (fun name => builtin_excluded name (if path_eqb a (a ++ rest) then d else true))) in H2 by (intros dir name; apply exclude_by_name).
      destruct H2 as [dir [name [-> H2]]]. exists dir, name, rest. split; [rewrite <- app_assoc; reflexivity|].
      destruct rest as [|c rest].
      + rewrite app_nil_r, path_eqb_refl in H2. exact H2.
      + destruct (path_eqb (dir ++ [name]) ((dir ++ [name]) ++ c :: rest)) eqn:E; [|exact H2]. exfalso. apply path_eqb_eq in E.
        apply (f_equal (@List.length _)) in E. rewrite (app_length (dir ++ [name])) in E. cbn [List.length] in E. lia.
    - intros [dir [name [rest [-> H]]]].
      exists (dir ++ [name], if path_eqb (dir ++ [name]) (dir ++ name :: rest) then d else true). split.
      + apply self_and_parents_In. split; [|reflexivity]. exists rest. rewrite <- app_assoc. reflexivity.
      + cbn [fst snd]. apply exclude_by_name. destruct rest as [|c rest]; [rewrite path_eqb_refl; exact H|].
        destruct (path_eqb (dir ++ [name]) (dir ++ name :: c :: rest)) eqn:E; [|exact H]. exfalso. apply path_eqb_eq in E.
        apply (f_equal (@List.length _)) in E. rewrite !app_length in E. cbn [List.length] in E. lia.
  Qed.

  Lemma ex_par_iff : forall q d,
    exists b, any_exclude_matched_path_or_any_parents S user_exclude default_exclude (settings_for q) q d = Some b /\
      (b = true <-> ex_par q d).
  Proof.
    intros q d. unfold any_exclude_matched_path_or_any_parents, excluded_or_parents.
    destruct (user_exclude (settings_for q)) as [ps|] eqn:E.
    - pose proof (rooted _ _ E) as Hr. apply starts_with_iff in Hr. destruct Hr as [rel Hq].
      unfold fp_matched_or_parents, gi_matched_or_parents.
      assert (strip_root (p_root ps) q = (false, rel)) as -> by (rewrite Hq; apply strip_under).
      destruct (is_ignore (first_match (p_match ps false) (self_and_parents rel d))) eqn:Ei.
      + exists true. split; [reflexivity|]. split; [intros _|reflexivity]. left. exists ps. split; [reflexivity|].
        destruct (first_match _ _) eqn:Ef; try discriminate. apply innermost in Ef.
        destruct Ef as [a [b [-> [H2 H3]]]]. exists a, b. auto.
      + exists (default_exclude (settings_for q) && df_matched_or_parents DEFAULT_EXCLUDE q d).
        split; [reflexivity|]. rewrite andb_true_iff, df_par_iff. split; [tauto|].
        intros [[ps' [H1 H2]]|H]; [|exact H]. injection H1 as <-.
        destruct H2 as [a [b [G1 [G2 G3]]]].
        assert (rel = a ++ b) as -> by (rewrite Hq in G1; apply app_inv_head in G1; auto).
        assert (first_match (p_match ps false) (self_and_parents (a ++ b) d) = MIgnore) as Hx.
        { apply innermost. exists a, b. auto. }
        rewrite Hx in Ei. discriminate.
    - exists (default_exclude (settings_for q) && df_matched_or_parents DEFAULT_EXCLUDE q d).
      split; [reflexivity|]. rewrite andb_true_iff, df_par_iff. split; [tauto|].
      intros [[ps' [H1 H2]]|H]; [discriminate|exact H].
  Qed.

  Lemma incl_iff : forall q,
    any_include_matched_path S default_include (settings_for q) q = true <-> incl q.
  Proof.
    intro q. unfold any_include_matched_path, included. rewrite andb_true_iff.
    rewrite (df_named _ builtin_included) by (intros dir name; apply include_by_name). reflexivity.
  Qed.

  Lemma visit_no_panic : forall b p d, visit b p d <> VPanic.
  Proof.
    intros b p d. unfold visit_format. destruct (ex_par_iff p d) as [x [Hx _]].
    destruct emode; [destruct b|].
    - rewrite Hx. destruct x; [discriminate|]. destruct d; [discriminate|].
      destruct imode; [destruct (any_include_matched_path _ _ _ _)|]; discriminate.
    - destruct (any_exclude_matched_path _ _ _ _ _ _); [discriminate|]. destruct d; [discriminate|].
      destruct imode; [destruct (any_include_matched_path _ _ _ _)|]; discriminate.
    - destruct d; [discriminate|].
      destruct imode; [destruct (any_include_matched_path _ _ _ _)|]; discriminate.
  Qed.

  Definition ok_here (b : bool) (p : path) (d : bool) : Prop :=
    force = false -> if b then ~ ex_par p d else ~ ex_self p d.

  Lemma visit_dir : forall b p,
    (visit b p true = VContinue [] /\ ok_here b p true) \/ (visit b p true = VSkip /\ ~ ok_here b p true).
  Proof.
    intros b p. unfold visit_format, ok_here, emode. destruct force.
    - left. split; [reflexivity|discriminate].
    - destruct b.
      + destruct (ex_par_iff p true) as [x [-> Hx]]. destruct x.
        * right. split; [reflexivity|]. intro H. apply H; [reflexivity|]. apply Hx. reflexivity.
        * left. split; [reflexivity|]. intros _ H. apply Hx in H. discriminate.
      + pose proof (ex_self_iff p true) as Hx. destruct (any_exclude_matched_path _ _ _ _ _ _).
        * right. split; [reflexivity|]. intro H. apply H; [reflexivity|]. apply Hx. reflexivity.
        * left. split; [reflexivity|]. intros _ H. apply Hx in H. discriminate.
  Qed.

  Lemma visit_file : forall b p,
    (exists o, visit b p false = o /\ (o = VContinue [FOk p] \/ o = VContinue [] \/ o = VSkip) /\
     (o = VContinue [FOk p] <-> ok_here b p false /\ (force = false -> incl p))).
  Proof.
    intros b p. eexists. split; [reflexivity|].
    unfold visit_format, ok_here, emode, imode. pose proof (incl_iff p) as Hi. destruct force.
    - split; [left; reflexivity|]. split; [split; discriminate|reflexivity].
    - destruct b.
      + destruct (ex_par_iff p false) as [x [-> Hx]]. destruct x.
        * split; [right; right; reflexivity|]. split; [discriminate|]. intros [H _]. exfalso.
          apply H; [reflexivity|]. apply Hx. reflexivity.
        * destruct (any_include_matched_path _ _ _ _).
          -- split; [left; reflexivity|]. split; [|reflexivity]. intros _. split.
             ++ intros _ H. apply Hx in H. discriminate.
             ++ intros _. apply Hi. reflexivity.
          -- split; [right; left; reflexivity|]. split; [discriminate|]. intros [_ H].
             specialize (H eq_refl). apply Hi in H. discriminate.
      + pose proof (ex_self_iff p false) as Hx. destruct (any_exclude_matched_path _ _ _ _ _ _).
        * split; [right; right; reflexivity|]. split; [discriminate|]. intros [H _]. exfalso.
          apply H; [reflexivity|]. apply Hx. reflexivity.
        * destruct (any_include_matched_path _ _ _ _).
          -- split; [left; reflexivity|]. split; [|reflexivity]. intros _. split.
             ++ intros _ H. apply Hx in H. discriminate.
             ++ intros _. apply Hi. reflexivity.
          -- split; [right; left; reflexivity|]. split; [discriminate|]. intros [_ H].
             specialize (H eq_refl). apply Hi in H. discriminate.
  Qed.

  (* Sequential depth-first reading of the walk. *)
  Fixpoint walk (start p : path) (b : bool) (n : node) : list found :=
    match n with
    | Unreadable => [FErr p]
    | File => match visit b p false with VContinue out => out | _ => [] end
    | Unlistable => match visit b p true with VContinue out => out ++ [FErr p] | _ => [] end
    | Dir es =>
      match visit b p true with
      | VContinue out =>
        out ++ flat_map (fun e =>
          if dropped start (p ++ [fst e]) (is_dir_node (snd e)) then []
          else walk start (p ++ [fst e]) false (snd e)) es
      | _ => []
      end
    end.
  Definition walk_work (w : work) : list found := walk (w_start w) (w_path w) (w_direct w) (w_node w).

  Lemma flat_map_filter_map : forall (A B C : Type) (f : B -> list C) (g : A -> B) (h : A -> bool) l,
    flat_map f (map g (filter (fun x => negb (h x)) l)) = flat_map (fun x => if h x then [] else f (g x)) l.
  Proof.
    intros A B C f g h l. induction l as [|x l IH]; cbn; [reflexivity|].
    destruct (h x); cbn; rewrite IH; reflexivity.
  Qed.

  Lemma process_walk : forall w out new, proc w = Some (out, new) ->
    walk_work w = out ++ flat_map walk_work new.
  Proof.
    intros [start p b n] out new H. unfold process in H. cbn [w_node w_path w_direct w_start] in H.
    unfold walk_work at 1. cbn [w_node w_path w_direct w_start].
    destruct n as [|es| |]; cbn [walk].
    - destruct (visit b p false); inversion H; subst; cbn; rewrite ?app_nil_r; reflexivity.
    - destruct (visit b p true); inversion H; subst; cbn [flat_map app]; [reflexivity|].
      f_equal. rewrite flat_map_filter_map. reflexivity.
    - destruct (visit b p true); inversion H; subst; cbn; rewrite ?app_nil_r; reflexivity.
    - inversion H; subst. reflexivity.
  Qed.

  Lemma process_total : forall w, exists out new, proc w = Some (out, new).
  Proof.
    intros [start p b n]. unfold process. cbn [w_node w_path w_direct w_start].
    destruct n as [|es| |]; [pose proof (visit_no_panic b p false)|pose proof (visit_no_panic b p true)|pose proof (visit_no_panic b p true)|];
      try (destruct (visit b p _)); try contradiction; eauto.
  Qed.

  (* parallel = sequential up to order *)
  Lemma push_thread_perm : forall ts i out, i < length ts ->
    Permutation (concat (push_thread i out ts)) (concat ts ++ out) /\ length (push_thread i out ts) = length ts.
  Proof.
    intros ts. induction ts as [|t ts IH]; intros [|i] out Hi; cbn in Hi; try lia.
    - unfold push_thread. cbn. split; [|reflexivity]. rewrite <- !app_assoc.
      apply Permutation_app_head. apply Permutation_app_comm.
    - destruct (IH i out) as [H1 H2]; [lia|]. unfold push_thread in *. cbn [firstn skipn app concat].
      split; [|cbn; rewrite H2; reflexivity]. rewrite <- app_assoc. apply Permutation_app_head. exact H1.
  Qed.

  Definition total (st : pstate) : list found := concat (threads st) ++ flat_map walk_work (pending st).

  Notation step := (pstep S user_exclude default_exclude default_include settings_for dropped emode imode).
  Notation steps := (psteps S user_exclude default_exclude default_include settings_for dropped emode imode).

  Lemma step_total : forall a b, step a b -> Permutation (total a) (total b) /\ length (threads a) = length (threads b).
  Proof.
    intros a b H. destruct H as [b1 w b2 ts i out new Hp Hi]. unfold total. cbn [threads pending].
    destruct (push_thread_perm ts i out Hi) as [H1 H2]. split; [|symmetry; exact H2].
    rewrite !flat_map_app. cbn [flat_map]. rewrite (process_walk _ _ _ Hp).
    rewrite H1. rewrite <- !app_assoc. apply Permutation_app_head.
    rewrite (app_assoc out _ (flat_map walk_work b2)), (app_assoc out _ (_ ++ _)).
    apply Permutation_app_swap_app.
  Qed.

  Lemma steps_total : forall a b, steps a b -> Permutation (total a) (total b) /\ length (threads a) = length (threads b).
  Proof.
    intros a b H. induction H as [s|a b c H _ [IH1 IH2]].
    - split; reflexivity.
    - destruct (step_total _ _ H) as [H1 H2]. split; [rewrite H1; exact IH1|rewrite H2; exact IH2].
  Qed.

  Lemma deliver_concat : forall order, deliver order = concat order.
  Proof.
    intro order. unfold deliver.
    assert (forall (l : list (list found)) acc, fold_left (fun files t => match files with [] => t | _ => files ++ t end) l acc = acc ++ concat l) as H.
    { induction l as [|t l IH]; intro acc; cbn; [symmetry; apply app_nil_r|].
      rewrite IH. destruct acc; cbn; [reflexivity|]. rewrite <- app_assoc. reflexivity. }
    apply H.
  Qed.

  Lemma concat_perm : forall (A : Type) (l l' : list (list A)), Permutation l l' -> Permutation (concat l) (concat l').
  Proof.
    intros A l l' H. induction H; cbn.
    - constructor.
    - apply Permutation_app_head. exact IHPermutation.
    - rewrite !app_assoc. apply Permutation_app_tail. apply Permutation_app_comm.
    - etransitivity; eassumption.
  Qed.

  Lemma concat_repeat_nil : forall (A : Type) k, concat (repeat (@nil A) k) = [].
  Proof. induction k; cbn; auto. Qed.

  (* the set of results any complete schedule delivers *)
  Definition outcome (k : nat) (roots : list (path * node)) (files : list found) : Prop :=
    exists fin order,
      steps {| pending := start_works roots; threads := repeat [] k |} fin /\
      pending fin = [] /\ Permutation order (threads fin) /\ files = deliver order.

  Definition walk_all (roots : list (path * node)) : list found :=
    flat_map (fun r => walk (fst r) (fst r) true (snd r)) roots.

  Lemma outcome_perm : forall k roots files, outcome k roots files -> Permutation files (walk_all roots).
  Proof.
    intros k roots files [fin [order [H1 [H2 [H3 ->]]]]].
    destruct (steps_total _ _ H1) as [H4 _]. unfold total in H4. cbn [threads pending] in H4.
    rewrite H2 in H4. cbn [flat_map] in H4. rewrite app_nil_r, concat_repeat_nil in H4. cbn in H4.
    rewrite deliver_concat, (concat_perm _ _ _ H3), <- H4.
    unfold start_works, walk_all. rewrite flat_map_concat_map, map_map, <- flat_map_concat_map. reflexivity.
  Qed.

  Lemma schedule_independent : forall k k' roots files files',
    outcome k roots files -> outcome k' roots files' -> Permutation files files'.
  Proof. intros. rewrite (outcome_perm _ _ _ H), (outcome_perm _ _ _ H0). reflexivity. Qed.

  (* every schedule ends *)
  Fixpoint nsize (n : node) : nat :=
    match n with Dir es => 1 + list_sum (map (fun e => nsize (snd e)) es) | _ => 1 end.
  Definition psize (st : pstate) : nat := list_sum (map (fun w => nsize (w_node w)) (pending st)).

  Lemma list_sum_filter : forall (A : Type) (f : A -> nat) h l,
    list_sum (map f (filter h l)) <= list_sum (map f l).
  Proof.
    intros A f h l. unfold list_sum. induction l as [|x l IH]; cbn [filter map fold_right]; [lia|].
    destruct (h x); cbn [map fold_right]; lia.
  Qed.

  Lemma process_size : forall w out new, proc w = Some (out, new) ->
    list_sum (map (fun w => nsize (w_node w)) new) < nsize (w_node w).
  Proof.
    intros [start p b n] out new H. unfold process in H. cbn [w_node w_path w_direct w_start] in *.
    destruct n as [|es| |].
    - destruct (visit b p false); inversion H; subst; cbn; lia.
    - destruct (visit b p true); inversion H; subst; cbn [nsize map]; [cbn; lia|].
      rewrite map_map. cbn [w_node].
      pose proof (list_sum_filter _ (fun e : text * node => nsize (snd e)) (fun e => negb (dropped start (p ++ [fst e]) (is_dir_node (snd e)))) es). lia.
    - destruct (visit b p true); inversion H; subst; cbn; lia.
    - inversion H; subst. cbn. lia.
  Qed.

  Lemma step_decreases : forall a b, step a b -> psize b < psize a.
  Proof.
    intros a b H. destruct H as [b1 w b2 ts i out new Hp Hi]. unfold psize. cbn [pending].
    pose proof (process_size _ _ _ Hp) as Hs. unfold list_sum in *.
    rewrite !map_app. change (map ?f (w :: b2)) with (f w :: map f b2).
    pose proof list_sum_app as Ha. unfold list_sum in Ha. rewrite !Ha. cbn [fold_right]. lia.
  Qed.

  Lemma step_progress : forall st, threads st <> [] -> pending st <> [] -> exists st', step st st'.
  Proof.
    intros [pend ts] Ht Hp. cbn in *. destruct pend as [|w pend]; [contradiction|].
    destruct (process_total w) as [out [new Hw]].
    exists {| pending := new ++ [] ++ pend; threads := push_thread 0 out ts |}.
    apply (PStep _ _ _ _ _ _ _ _ [] w pend ts 0 out new Hw). destruct ts; [contradiction|cbn; lia].
  Qed.

  Lemma run_to_end : forall m st, psize st <= m -> threads st <> [] -> exists fin, steps st fin /\ pending fin = [].
  Proof.
    induction m as [|m IH]; intros st Hm Ht; destruct (pending st) as [|w r] eqn:E.
    - exists st. split; [constructor|exact E].
    - unfold psize in Hm. rewrite E in Hm. cbn in Hm. destruct (w_node w); cbn in Hm; lia.
    - exists st. split; [constructor|exact E].
    - destruct (step_progress st Ht) as [st' Hs]; [rewrite E; discriminate|].
      pose proof (step_decreases _ _ Hs).
      destruct (step_total _ _ Hs) as [_ Hl].
      destruct (IH st') as [fin [H1 H2]]; [lia| |].
      + intro H0. rewrite H0 in Hl. destruct (threads st); [contradiction|discriminate].
      + exists fin. split; [econstructor; eassumption|exact H2].
  Qed.

  Lemma outcome_exists : forall k roots, 0 < k -> exists files, outcome k roots files.
  Proof.
    intros k roots Hk.
    destruct (run_to_end _ {| pending := start_works roots; threads := repeat [] k |} (le_n _)) as [fin [H1 H2]].
    - destruct k; [lia|discriminate].
    - exists (deliver (threads fin)), fin, (threads fin). auto.
  Qed.

  (* selection *)
  Lemma at_path_dir : forall n c r m, at_path n (c :: r) m -> exists es n', n = Dir es /\ In (c, n') es /\ at_path n' r m.
  Proof. intros n c r m H. inversion H; subst. eauto. Qed.

  Lemma at_file_isdir : forall n r, at_path n r File -> is_dir_node n = nonempty r.
  Proof. intros n r H. inversion H; subst; reflexivity. Qed.

  Lemma walk_ok_iff : forall n start p b f,
    In (FOk f) (walk start p b n) <->
    exists rel, f = p ++ rel /\ at_path n rel File /\ (force = false -> incl f) /\
      ok_here b p (nonempty rel) /\
      (forall r1 r2, rel = r1 ++ r2 -> r1 <> [] -> pass start (p ++ r1) (nonempty r2)).
  Proof.
    induction n as [|es IH| |] using node_ind'; intros start p b f; cbn [walk].
    - destruct (visit_file b p) as [o [-> [Hc Ho]]]. split.
      + intro H. assert (o = VContinue [FOk p]) as Eo.
        { destruct Hc as [E|[E|E]]; subst o; [reflexivity|cbn in H; contradiction|cbn in H; contradiction]. }
        rewrite Eo in H. destruct H as [H|[]]. injection H as <-. apply Ho in Eo. destruct Eo as [E1 E2].
        exists []. rewrite app_nil_r. split; [reflexivity|]. split; [constructor|]. split; [exact E2|].
        split; [exact E1|]. intros [|x r1] r2 Hr Hn; [contradiction|discriminate].
      + intros [rel [-> [H1 [H2 [H3 _]]]]]. inversion H1; subst. rewrite app_nil_r in *.
        assert (o = VContinue [FOk p]) as -> by (apply Ho; split; assumption). left. reflexivity.
    - destruct (visit_dir b p) as [[-> Hk]|[-> Hk]].
      + cbn [app]. rewrite in_flat_map. split.
        * intros [[c n'] [He Hin]]. cbn [fst snd] in Hin.
          destruct (dropped start (p ++ [c]) (is_dir_node n')) eqn:Ed; [destruct Hin|].
          apply (IH c n' He) in Hin. destruct Hin as [rel [-> [H1 [H2 [H3 H4]]]]].
          exists (c :: rel). rewrite <- app_assoc. cbn [app]. split; [reflexivity|].
          split; [econstructor; eassumption|]. split; [rewrite <- app_assoc in H2; exact H2|]. split; [exact Hk|].
          intros r1 r2 Hr Hn. destruct r1 as [|x r1]; [contradiction|]. cbn in Hr. inversion Hr; subst.
          destruct r1 as [|y r1].
          -- cbn [app] in *. split; [exact H3|]. rewrite (at_file_isdir _ _ H1) in Ed. exact Ed.
          -- specialize (H4 (y :: r1) r2 eq_refl). rewrite <- app_assoc in H4. apply H4. discriminate.
        * intros [rel [-> [H1 [H2 [H3 H4]]]]]. destruct rel as [|c rel]; [inversion H1|].
          apply at_path_dir in H1. destruct H1 as [es' [n' [E [He Hn]]]]. injection E as <-.
          exists (c, n'). split; [exact He|]. cbn [fst snd].
          destruct (H4 [c] rel eq_refl) as [P1 P2]; [discriminate|].
          rewrite (at_file_isdir _ _ Hn), P2. apply (IH c n' He). exists rel. rewrite <- app_assoc. cbn [app].
          split; [reflexivity|]. split; [exact Hn|]. split; [exact H2|]. split; [exact P1|].
          intros r1 r2 -> Hr1. rewrite <- app_assoc. cbn [app]. apply (H4 (c :: r1) r2); [reflexivity|discriminate].
      + split; [intros []|]. intros [rel [-> [H1 [H2 [H3 _]]]]]. inversion H1; subst. cbn in H3. contradiction.
    - split.
      + destruct (visit_dir b p) as [[-> _]|[-> _]]; cbn; [intros [H|[]]; discriminate|intros []].
      + intros [rel [_ [H _]]]. inversion H.
    - split; [intros [H|[]]; discriminate|]. intros [rel [_ [H _]]]. inversion H.
  Qed.

  Lemma selection : forall k roots files f, outcome k roots files ->
    (In (FOk f) files <-> exists start n, In (start, n) roots /\ sel start n f).
  Proof.
    intros k roots files f H. apply outcome_perm in H.
    assert (In (FOk f) files <-> In (FOk f) (walk_all roots)) as ->.
    { split; apply Permutation_in; [exact H|symmetry; exact H]. }
    unfold walk_all. rewrite in_flat_map. split.
    - intros [[start n] [H1 H2]]. cbn [fst snd] in H2. exists start, n. split; [exact H1|].
      apply walk_ok_iff in H2. destruct H2 as [rel [-> [G1 [G2 [G3 G4]]]]]. exists rel.
      split; [reflexivity|]. split; [exact G1|]. split; [|exact G4].
      intro Hf. split; [apply G2; exact Hf|apply G3; exact Hf].
    - intros [start [n [H1 [rel [-> [G1 [G2 G3]]]]]]]. exists (start, n). split; [exact H1|]. cbn [fst snd].
      apply walk_ok_iff. exists rel. split; [reflexivity|]. split; [exact G1|]. split; [intro Hf; apply G2; exact Hf|].
      split; [intro Hf; apply G2; exact Hf|exact G3].
  Qed.

  (* failures *)
  Lemma at_path_isdir : forall n r m, at_path n r m -> m = Unlistable \/ m = Unreadable ->
    (r <> [] \/ m = Unlistable -> is_dir_node n = true) /\ (m = Unreadable -> r = [] -> is_dir_node n = false).
  Proof.
    intros n r m H [-> | ->]; inversion H; subst; split; intros; try reflexivity; try discriminate.
    destruct H0 as [H0|H0]; [contradiction|discriminate].
  Qed.

  Lemma walk_err_iff : forall n start p b q,
    In (FErr q) (walk start p b n) <->
    exists rel m, q = p ++ rel /\ at_path n rel m /\ (m = Unlistable \/ m = Unreadable) /\
      (rel <> [] \/ m = Unlistable -> ok_here b p true) /\
      (forall r1 r2, rel = r1 ++ r2 -> r1 <> [] -> r2 <> [] \/ m = Unlistable -> pass start (p ++ r1) true) /\
      (m = Unreadable -> rel <> [] -> dropped start q false = false).
  Proof.
    induction n as [|es IH| |] using node_ind'; intros start p b q; cbn [walk].
    - split.
      + destruct (visit_file b p) as [o [-> [Hc _]]]. destruct Hc as [-> |[-> | ->]]; cbn; [intros [H|[]]; discriminate|intros []|intros []].
      + intros [rel [m [_ [H1 [H2 _]]]]]. inversion H1; subst. destruct H2; discriminate.
    - destruct (visit_dir b p) as [[-> Hk]|[-> Hk]].
      + cbn [app]. rewrite in_flat_map. split.
        * intros [[c n'] [He Hin]]. cbn [fst snd] in Hin.
          destruct (dropped start (p ++ [c]) (is_dir_node n')) eqn:Ed; [destruct Hin|].
          apply (IH c n' He) in Hin. destruct Hin as [rel [m [-> [H1 [H2 [H3 [H4 H5]]]]]]].
          destruct (at_path_isdir _ _ _ H1 H2) as [D1 D2].
          exists (c :: rel), m. rewrite <- app_assoc in *. cbn [app] in *. split; [reflexivity|].
          split; [econstructor; eassumption|]. split; [exact H2|]. split; [intros _; exact Hk|]. split.
          -- intros r1 r2 Hr Hn Hd. destruct r1 as [|x r1]; [contradiction|]. cbn in Hr. inversion Hr; subst.
             destruct r1 as [|y r1].
             ++ cbn [app] in *. split; [exact (H3 Hd)|]. rewrite (D1 Hd) in Ed. exact Ed.
             ++ specialize (H4 (y :: r1) r2 eq_refl). rewrite <- app_assoc in H4. apply H4; [discriminate|exact Hd].
          -- intros Hm _. destruct rel as [|y rel]; [rewrite (D2 Hm eq_refl) in Ed; exact Ed|]. apply H5; [exact Hm|discriminate].
        * intros [rel [m [-> [H1 [H2 [H3 [H4 H5]]]]]]]. destruct rel as [|c rel]; [inversion H1; subst; destruct H2; discriminate|].
          apply at_path_dir in H1. destruct H1 as [es' [n' [E [He Hn]]]]. injection E as <-.
          destruct (at_path_isdir _ _ _ Hn H2) as [D1 D2].
          exists (c, n'). split; [exact He|]. cbn [fst snd].
          assert (dropped start (p ++ [c]) (is_dir_node n') = false) as ->.
          { destruct rel as [|y rel].
            - destruct H2 as [-> | ->].
              + rewrite D1 by (right; reflexivity). apply (H4 [c] [] eq_refl); [discriminate|right; reflexivity].
              + rewrite D2 by reflexivity. apply H5; [reflexivity|discriminate].
            - rewrite D1 by (left; discriminate). apply (H4 [c] (y :: rel) eq_refl); [discriminate|left; discriminate]. }
          apply (IH c n' He). exists rel, m. rewrite <- app_assoc. cbn [app].
          split; [reflexivity|]. split; [exact Hn|]. split; [exact H2|]. split; [intro Hd; destruct (H4 [c] rel eq_refl) as [P _]; [discriminate|exact Hd|exact P]|]. split.
          -- intros r1 r2 -> Hr1 Hd. rewrite <- app_assoc. cbn [app]. apply (H4 (c :: r1) r2); [reflexivity|discriminate|exact Hd].
          -- intros Hm _. apply H5; [exact Hm|discriminate].
      + split; [intros []|]. intros [rel [m [-> [H1 [H2 [H3 _]]]]]]. inversion H1; subst; [destruct H2; discriminate|].
        exfalso. apply Hk. apply H3. left. discriminate.
    - destruct (visit_dir b p) as [[-> Hk]|[-> Hk]]; cbn.
      + split.
        * intros [H|[]]. injection H as <-. exists [], Unlistable. rewrite app_nil_r. split; [reflexivity|]. split; [constructor|]. split; [left; reflexivity|].
          split; [intros _; exact Hk|]. split; [intros [|x r1] r2 Hr Hn; [contradiction|discriminate]|discriminate].
        * intros [rel [m [-> [H1 _]]]]. inversion H1; subst. rewrite app_nil_r. left. reflexivity.
      + split; [intros []|]. intros [rel [m [-> [H1 [H2 [H3 _]]]]]]. inversion H1; subst. apply Hk. apply H3. right. reflexivity.
    - split.
      + intros [H|[]]. injection H as <-. exists [], Unreadable. rewrite app_nil_r. split; [reflexivity|]. split; [constructor|]. split; [right; reflexivity|].
        split; [intros [H|H]; [contradiction|discriminate]|]. split; [intros [|x r1] r2 Hr Hn; [contradiction|discriminate]|]. intros _ H. contradiction.
      + intros [rel [m [-> [H1 _]]]]. inversion H1; subst. rewrite app_nil_r. left. reflexivity.
  Qed.

  Lemma failures : forall k roots files q, outcome k roots files ->
    (In (FErr q) files <-> exists start n, In (start, n) roots /\
       fails S user_exclude default_exclude settings_for dropped force start n q).
  Proof.
    intros k roots files q H. apply outcome_perm in H.
    assert (In (FErr q) files <-> In (FErr q) (walk_all roots)) as ->.
    { split; apply Permutation_in; [exact H|symmetry; exact H]. }
    unfold walk_all. rewrite in_flat_map. split.
    - intros [[start n] [H1 H2]]. cbn [fst snd] in H2. exists start, n. split; [exact H1|].
      apply walk_err_iff in H2. destruct H2 as [rel [m [-> [G1 [G2 [G3 [G4 G5]]]]]]]. exists rel, m.
      split; [reflexivity|]. split; [exact G1|]. split; [exact G2|]. split; [intros Hf Hd; apply G3; assumption|]. split; [exact G4|exact G5].
    - intros [start [n [H1 [rel [m [-> [G1 [G2 [G3 [G4 G5]]]]]]]]]]. exists (start, n). split; [exact H1|]. cbn [fst snd].
      apply walk_err_iff. exists rel, m. split; [reflexivity|]. split; [exact G1|]. split; [exact G2|].
      split; [intros Hd Hf; apply G3; assumption|]. split; [exact G4|exact G5].
  Qed.

  (* stdin *)
  Notation stdin_ok := (is_stdin_formattable S user_exclude default_exclude default_include settings_for emode imode).
  Lemma stdin_like_file : forall k p files, outcome k [(p, File)] files ->
    exists b, stdin_ok p = Some b /\ files = if b then [FOk p] else [].
  Proof.
    intros k p files H. apply outcome_perm in H. unfold walk_all in H. cbn [flat_map fst snd app walk] in H.
    rewrite app_nil_r in H. revert H. unfold visit_format, is_stdin_formattable.
    destruct emode.
    - destruct (ex_par_iff p false) as [x [-> _]]. destruct x.
      + intro H. exists false. split; [reflexivity|]. apply Permutation_nil. symmetry. exact H.
      + destruct imode.
        * destruct (any_include_matched_path _ _ _ _); intro H; eexists; (split; [reflexivity|]); cbn.
          -- apply Permutation_length_1_inv. symmetry. exact H.
          -- apply Permutation_nil. symmetry. exact H.
        * intro H. exists true. split; [reflexivity|]. apply Permutation_length_1_inv. symmetry. exact H.
    - destruct imode.
      + destruct (any_include_matched_path _ _ _ _); intro H; eexists; (split; [reflexivity|]); cbn.
        * apply Permutation_length_1_inv. symmetry. exact H.
        * apply Permutation_nil. symmetry. exact H.
      + intro H. exists true. split; [reflexivity|]. apply Permutation_length_1_inv. symmetry. exact H.
  Qed.
End W.
