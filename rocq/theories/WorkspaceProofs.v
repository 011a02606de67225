From Coq Require Import List Bool NArith Arith Lia String.
From Verif Require Import Text TextFacts ResolverModel ResolverSpec ResolverProofs DiscoverModel DiscoverSpec DiscoverProofs
  SettingsModel WorkspaceModel WorkspaceSpec.
Import ListNotations.

Notation length := List.length.
Definition dflt := format_settings_default.
Definition path_dec : forall p q : path, {p = q} + {p <> q} := list_eq_dec (list_eq_dec N.eq_dec).

(* sorted association lists are determined by their lookups *)
Lemma psorted_lookup_eq : forall (V : Type) (l l' : list (path * V)), psorted V l -> psorted V l' ->
  (forall p, lookup V l p = lookup V l' p) -> l = l'.
Proof.
  intros V. induction l as [|[p v] l IH]; intros l' Hs Hs' H.
  - destruct l' as [|[p v] l']; [reflexivity|]. specialize (H p). cbn in H. rewrite path_eqb_refl in H. discriminate.
  - destruct l' as [|[q w] l'].
    { specialize (H p). cbn in H. rewrite path_eqb_refl in H. discriminate. }
    destruct Hs as [H1 H2], Hs' as [H1' H2'].
    assert (p = q) as <-.
    { assert (In (p, v) ((q, w) :: l')) as A.
      { apply (lookup_In V ((q, w) :: l') p v); [split; assumption|]. rewrite <- H. cbn. rewrite path_eqb_refl. reflexivity. }
      assert (In (q, w) ((p, v) :: l)) as B.
      { apply (lookup_In V ((p, v) :: l) q w); [split; assumption|]. rewrite H. cbn. rewrite path_eqb_refl. reflexivity. }
      destruct A as [A|A]; [injection A as <- _; reflexivity|]. destruct B as [B|B]; [injection B as <- _; reflexivity|].
      specialize (H1' _ A). specialize (H1 _ B). cbn in H1, H1'. pose proof (path_cmp_trans _ _ _ H1 H1') as Q. rewrite path_cmp_refl in Q. discriminate. }
    assert (v = w) as <-.
    { specialize (H p). cbn in H. rewrite path_eqb_refl in H. congruence. }
    f_equal. apply IH; [assumption|assumption|]. intro r. destruct (path_eqb r p) eqn:E.
    + apply path_eqb_eq in E. subst r. rewrite !lookup_None_notin; [reflexivity| |].
      * intros x Hx. specialize (H1' _ Hx). cbn in H1'. rewrite path_cmp_refl in H1'. discriminate.
      * intros x Hx. specialize (H1 _ Hx). cbn in H1. rewrite path_cmp_refl in H1. discriminate.
    + specialize (H r). cbn in H. rewrite E in H. exact H.
Qed.

(* discovery for one folder *)
Lemma discover_one_cases : forall fs w,
  match discover_one fs w with
  | None => exists d, nearest (config_of fs) w d /\ broken format_settings (config_of fs) (fs_parse fs) d
  | Some found =>
    (found = [] /\ ungoverned (config_of fs) w) \/
    exists d s, found = [(d, s)] /\ nearest (config_of fs) w d /\ settings_in format_settings (config_of fs) (fs_parse fs) d s
  end.
Proof.
  intros fs w. unfold discover_one. pose proof (discover_ok format_settings (fs_is_file fs) (fs_parse fs) AIR_TOML DOT_AIR_TOML [w]) as H.
  destruct (discover_settings _ _ _ _ _ [w]) as [found|].
  - destruct H as [seen [O1 [O2 [_ [_ [O5 O6]]]]]]. destruct found as [|[d s] found].
    + left. split; [reflexivity|]. destruct (near_dec (fs_is_file fs) AIR_TOML DOT_AIR_TOML w) as [[d Hd]|Hu]; [|exact Hu].
      destruct (O6 w d (or_introl eq_refl) Hd) as [s []].
    + right. exists d, s.
      assert (forall d' s', In (d', s') ((d, s) :: found) -> nearest (config_of fs) w d') as Hn.
      { intros d' s' Hin. destruct (O2 d' s' Hin) as [p [[<-|[]] Hp]]. exact Hp. }
      split; [|split; [apply (Hn d s); left; reflexivity|apply O1; left; reflexivity]].
      destruct found as [|[d2 s2] found]; [reflexivity|]. exfalso. cbn in O5. inversion O5 as [|? ? N _]; subst. apply N. left.
      eapply (near_unique (fs_is_file fs) AIR_TOML DOT_AIR_TOML w); [apply (Hn d2 s2); right; left; reflexivity|apply (Hn d s); left; reflexivity].
  - destruct H as [p [d [[<-|[]] H]]]. exists d. exact H.
Qed.

(* what an open folder holds *)
Definition loaded (fs : file_system) (w : path) : settings_resolver :=
  match discover_one fs w with
  | None => resolver_new dflt
  | Some found => add_discovered (resolver_new dflt) found
  end.

Definition holds (fs : file_system) (folders : list path) (w : workspaces) : Prop :=
  psorted _ (items w) /\ fallback w = resolver_new dflt /\
  forall p, lookup _ (items w) p = if in_dec path_dec p folders then Some (loaded fs p) else None.

Lemma readable_discovers : forall fs folders w, readable fs folders -> In w folders -> discover_one fs w <> None.
Proof.
  intros fs folders w Hr Hin E. pose proof (discover_one_cases fs w) as H. rewrite E in H. destruct H as [d [H1 H2]]. exact (Hr w d Hin H1 H2).
Qed.

Ltac dec := match goal with |- context [in_dec ?d ?p ?l] => destruct (in_dec d p l) end.

Lemma open_holds : forall fs folders w u, readable fs (paths_of [u]) -> holds fs folders w ->
  holds fs (folders ++ paths_of [u]) (open_workspace_folder fs w u).
Proof.
  intros fs folders w u Hr [H1 [H2 H3]]. unfold open_workspace_folder. destruct u as [p|? |?|?|?]; cbn [url_to_path paths_of flat_map app] in *;
    try (rewrite app_nil_r; split; [exact H1|split; [exact H2|exact H3]]).
  destruct (discover_one fs p) as [found|] eqn:E; [|exfalso; revert E; eapply readable_discovers; [exact Hr|left; reflexivity]].
  destruct (resolver_add w p (add_discovered (resolver_new format_settings_default) found)) as [w' out] eqn:Ea.
  destruct (add_correct _ _ _ _ _ _ H1 Ea) as [A1 [A2 [_ A4]]]. cbn [fst]. split; [exact A1|]. split; [congruence|].
  intro q. rewrite A4, H3. destruct (path_eqb q p) eqn:Eq.
  - apply path_eqb_eq in Eq. subst q. destruct (in_dec path_dec p (folders ++ [p])) as [_|N]; [|exfalso; apply N; apply in_or_app; right; left; reflexivity].
    unfold loaded. rewrite E. reflexivity.
  - assert (q <> p) as Hne by (intros ->; rewrite path_eqb_refl in Eq; discriminate).
    destruct (in_dec path_dec q folders) as [I1|I1]; destruct (in_dec path_dec q (folders ++ [p])) as [I2|I2]; try reflexivity; exfalso.
    + apply I2. apply in_or_app. left. exact I1.
    + apply in_app_or in I2. destruct I2 as [I2|[I2|[]]]; congruence.
Qed.

Lemma paths_of_cons : forall u us, paths_of (u :: us) = paths_of [u] ++ paths_of us.
Proof. intros. unfold paths_of. cbn [flat_map]. rewrite app_nil_r. reflexivity. Qed.

Lemma readable_app : forall fs a b, readable fs (a ++ b) <-> readable fs a /\ readable fs b.
Proof.
  intros. unfold readable. split.
  - intro H. split; intros w d Hw; apply H; apply in_or_app; auto.
  - intros [H1 H2] w d Hw. apply in_app_or in Hw. destruct Hw as [Hw|Hw]; [apply H1|apply H2]; exact Hw.
Qed.

Lemma open_all_holds : forall fs us folders w, readable fs (paths_of us) -> holds fs folders w ->
  holds fs (folders ++ paths_of us) (fold_left (open_workspace_folder fs) us w).
Proof.
  intros fs us. induction us as [|u us IH]; intros folders w Hr H; cbn [fold_left].
  - rewrite app_nil_r. exact H.
  - rewrite paths_of_cons in *. apply readable_app in Hr. rewrite app_assoc. apply IH; [apply Hr|]. apply open_holds; [apply Hr|exact H].
Qed.

Lemma close_holds : forall fs folders w u, holds fs folders w ->
  holds fs (filter (fun p => negb (existsb (path_eqb p) (paths_of [u]))) folders) (close_workspace_folder w u).
Proof.
  intros fs folders w u [H1 [H2 H3]]. unfold close_workspace_folder.
  assert (forall l : list path, filter (fun p => negb (existsb (path_eqb p) [])) l = l) as F by (induction l as [|x l IHl]; cbn; [reflexivity|f_equal; exact IHl]).
  destruct u as [p|? |?|?|?]; cbn [url_to_path paths_of flat_map app] in *; try (rewrite F; split; [exact H1|split; [exact H2|exact H3]]).
  destruct (resolver_remove w p) as [w' out] eqn:Er. destruct (remove_correct _ _ _ _ _ H1 Er) as [A1 [A2 [_ A4]]].
  cbn [fst]. split; [exact A1|]. split; [congruence|]. intro q. rewrite A4, H3. cbn [existsb].
  destruct (path_eqb q p) eqn:Eq.
  - destruct (in_dec path_dec q _) as [I|I]; [|reflexivity]. apply filter_In in I. destruct I as [_ I]. rewrite Eq in I. discriminate.
  - destruct (in_dec path_dec q folders) as [I1|I1]; destruct (in_dec path_dec q (filter _ folders)) as [I2|I2]; try reflexivity; exfalso.
    + apply I2. apply filter_In. split; [exact I1|]. rewrite Eq. reflexivity.
    + apply filter_In in I2. tauto.
Qed.

Lemma close_all_holds : forall fs us folders w, holds fs folders w ->
  holds fs (filter (fun p => negb (existsb (path_eqb p) (paths_of us))) folders) (fold_left close_workspace_folder us w).
Proof.
  intros fs us. induction us as [|u us IH]; intros folders w H; cbn [fold_left].
  - assert (forall l : list path, filter (fun p => negb (existsb (path_eqb p) (paths_of []))) l = l) as F by (induction l as [|x l IHl]; cbn; [reflexivity|f_equal; exact IHl]).
    rewrite F. 
    exact H.
  - pose proof (IH _ _ (close_holds fs folders w u H)) as Q.
    assert (filter (fun p => negb (existsb (path_eqb p) (paths_of us))) (filter (fun p => negb (existsb (path_eqb p) (paths_of [u]))) folders)
            = filter (fun p => negb (existsb (path_eqb p) (paths_of (u :: us)))) folders) as E.
    { rewrite (paths_of_cons u us). clear. induction folders as [|x l IHl]; [reflexivity|]. cbn [filter]. rewrite existsb_app.
      destruct (existsb (path_eqb x) (paths_of [u])); cbn [negb orb filter]; [exact IHl|].
      destruct (existsb (path_eqb x) (paths_of us)); cbn [negb]; [exact IHl|f_equal; exact IHl]. }
    rewrite E in Q. exact Q.
Qed.

(* reloading *)
Lemma lookup_map : forall (V : Type) (f : path * V -> path * V) l p, (forall x, fst (f x) = fst x) ->
  lookup V (map f l) p = match lookup V l p with Some v => Some (snd (f (p, v))) | None => None end.
Proof.
  intros V f l p Hf. induction l as [|[q v] l IH]; [reflexivity|]. cbn [map]. destruct (f (q, v)) as [q' v'] eqn:E. pose proof (Hf (q, v)) as Q. rewrite E in Q. cbn in Q. subst q'.
  cbn [lookup]. destruct (path_eqb p q) eqn:Ep; [|exact IH]. apply path_eqb_eq in Ep. subst q. rewrite E. reflexivity.
Qed.

Lemma psorted_map : forall (V : Type) (f : path * V -> path * V) l, (forall x, fst (f x) = fst x) -> psorted V l -> psorted V (map f l).
Proof.
  intros V f l Hf. induction l as [|x l IH]; [auto|]. intros [H1 H2]. cbn. split; [|apply IH; exact H2].
  intros y Hy. apply in_map_iff in Hy. destruct Hy as [z [<- Hz]]. rewrite !Hf. apply H1. exact Hz.
Qed.

Lemma loaded_clear : forall fs w, resolver_clear (loaded fs w) = resolver_new dflt.
Proof.
  intros fs w. unfold loaded. pose proof (discover_one_cases fs w) as H. destruct (discover_one fs w) as [found|]; [|reflexivity].
  destruct H as [[-> _]|[d [s [-> _]]]]; [reflexivity|]. unfold add_discovered. cbn [fold_left fst snd]. 
  destruct (resolver_add (resolver_new dflt) d s) as [r out] eqn:E.
  destruct (add_correct _ (resolver_new dflt) d s r out I E) as [_ [F _]]. cbn [fst]. unfold resolver_clear. rewrite F. reflexivity.
Qed.

(* after reloading with some urls, the folders they lie in are up to date, the others as before *)
Definition mixed (old fs : file_system) (done folders : list path) (w : workspaces) : Prop :=
  psorted _ (items w) /\ fallback w = resolver_new dflt /\
  forall p, exists v, lookup _ (items w) p = (if in_dec path_dec p folders then Some v else None) /\
    (v = loaded fs p \/ (v = loaded old p /\ ~ In p done)).

Lemma reload_one : forall old fs done folders w p, mixed old fs done folders w -> is_air_toml p = true ->
  mixed old fs (filter (fun q => starts_with p q) folders ++ done) folders (fst (reload_workspaces_matched_by_url fs w (UFile p))).
Proof.
  intros old fs done folders w p [H1 [H2 H3]] Ht. unfold reload_workspaces_matched_by_url. cbn [url_to_path]. rewrite Ht. cbn [negb fst].
  set (f := fun item : path * settings_resolver => if starts_with p (fst item) then fst (reload_workspace fs item) else item).
  assert (forall x, fst (f x) = fst x) as Hf.
  { intro x. unfold f. destruct (starts_with p (fst x)); [|reflexivity]. unfold reload_workspace. destruct (discover_one fs (fst x)); reflexivity. }
  unfold mixed. cbn [items fallback]. split; [apply psorted_map; assumption|]. split; [exact H2|]. intro q. rewrite lookup_map by exact Hf.
  destruct (H3 q) as [v [E Hv]]. rewrite E. destruct (in_dec path_dec q folders) as [Hin|Hin].
  - exists (snd (f (q, v))). split; [reflexivity|]. unfold f. cbn [fst]. destruct (starts_with p q) eqn:Es.
    + left. unfold reload_workspace. cbn [fst snd].
      assert (resolver_clear v = resolver_new dflt) as -> by (destruct Hv as [-> |[-> _]]; apply loaded_clear).
      unfold loaded. destruct (discover_one fs q) as [found|] eqn:Ed; reflexivity.
    + cbn [snd]. destruct Hv as [Hv|[Hv Hn]]; [left; exact Hv|right]. split; [exact Hv|]. intro Hx. apply in_app_or in Hx. destruct Hx as [Hx|Hx]; [|tauto].
      apply filter_In in Hx. destruct Hx as [_ Hx]. congruence.
  - exists (loaded fs q). split; [reflexivity|left; reflexivity].
Qed.

Lemma reload_all_mixed : forall old fs changes done folders w, mixed old fs done folders w ->
  exists done', mixed old fs done' folders (fst (reload_all fs w changes)) /\
    (forall q, In q done -> In q done') /\
    (forall p q, In (UFile p) changes -> is_air_toml p = true -> In q folders -> ancestor_or_self q p -> In q done').
Proof.
  intros old fs changes. induction changes as [|u changes IH]; intros done folders w H; cbn [reload_all].
  - exists done. split; [exact H|]. split; [auto|]. intros p q [].
  - destruct (reload_workspaces_matched_by_url fs w u) as [w1 b1] eqn:E1.
    assert (exists d1, mixed old fs d1 folders w1 /\ (forall q, In q done -> In q d1) /\
      (forall p q, u = UFile p -> is_air_toml p = true -> In q folders -> ancestor_or_self q p -> In q d1)) as [d1 [M1 [M2 M3]]].
    { destruct u as [p|? |?|?|?].
      1: { destruct (is_air_toml p) eqn:Et.
        - pose proof (reload_one old fs done folders w p H Et) as Q. rewrite E1 in Q. eexists. split; [exact Q|]. split.
          + intros q Hq. apply in_or_app. right. exact Hq.
          + intros p' q Ep _ Hq Ha. injection Ep as <-. apply in_or_app. left. apply filter_In. split; [exact Hq|]. apply starts_with_iff. exact Ha.
        - unfold reload_workspaces_matched_by_url in E1. cbn [url_to_path] in E1. rewrite Et in E1. injection E1 as <- <-.
          exists done. split; [exact H|]. split; [auto|]. intros p' q Ep Et2. injection Ep as <-. congruence. }
      all: injection E1 as <- <-; exists done; split; [exact H|]; split; [auto|]; intros; discriminate. }
    destruct (IH d1 folders w1 M1) as [d2 [N1 [N2 N3]]]. destruct (reload_all fs w1 changes) as [w2 b2]. exists d2. split; [exact N1|]. split; [auto|].
    intros p q [Hp|Hp] Ht Hq Ha; [apply N2; apply (M3 p q); assumption|apply (N3 p q); assumption].
Qed.

Lemma find_same : forall fs fs' d, same_config fs fs' d -> config_of fs d = config_of fs' d.
Proof.
  intros fs fs' d H. unfold config_of, find_air_toml_in_directory.
  destruct (H AIR_TOML (or_introl eq_refl)) as [E1 _]. destruct (H DOT_AIR_TOML (or_intror eq_refl)) as [E2 _]. rewrite E1, E2. reflexivity.
Qed.

Lemma discover_ancestors_same : forall fs fs' l seen found, (forall d, In d l -> same_config fs fs' d) ->
  discover_ancestors format_settings (fs_is_file fs) (fs_parse fs) AIR_TOML DOT_AIR_TOML seen found l
  = discover_ancestors format_settings (fs_is_file fs') (fs_parse fs') AIR_TOML DOT_AIR_TOML seen found l.
Proof.
  intros fs fs' l. induction l as [|d l IH]; intros seen found H; [reflexivity|]. cbn [discover_ancestors].
  destruct (mem_path d seen); [reflexivity|]. pose proof (find_same fs fs' d (H d (or_introl eq_refl))) as E.
  unfold config_of in E. rewrite E. destruct (find_air_toml_in_directory (fs_is_file fs') AIR_TOML DOT_AIR_TOML d) as [t|] eqn:Ef.
  - assert (fs_parse fs t d = fs_parse fs' t d) as ->; [|reflexivity].
    unfold find_air_toml_in_directory in Ef. destruct (fs_is_file fs' (d ++ [AIR_TOML])).
    + injection Ef as <-. apply (H d (or_introl eq_refl)). left. reflexivity.
    + destruct (fs_is_file fs' (d ++ [DOT_AIR_TOML])); [|discriminate]. injection Ef as <-. apply (H d (or_introl eq_refl)). right. reflexivity.
  - apply IH. intros d' Hd'. apply H. right. exact Hd'.
Qed.

Lemma loaded_same : forall fs fs' w, (forall d, ancestor_or_self d w -> same_config fs fs' d) -> loaded fs w = loaded fs' w.
Proof.
  intros fs fs' w H. unfold loaded, discover_one, discover_settings. cbn [discover_loop].
  rewrite (discover_ancestors_same fs fs'); [reflexivity|]. intros d Hd. apply H. apply ancestors_In. exact Hd.
Qed.

Lemma is_air_toml_name : forall d name, name = AIR_TOML \/ name = DOT_AIR_TOML -> is_air_toml (d ++ [name]) = true.
Proof. intros d name H. unfold is_air_toml. rewrite rev_app_distr. cbn [rev app]. destruct H as [-> | ->]; rewrite text_eqb_refl; [reflexivity|apply orb_true_r]. Qed.

Lemma same_refl_dec : forall fs fs' ev folders,
  (forall w d, In w folders -> ancestor_or_self d w -> same_config fs fs' d \/
       d = w /\ exists name, (name = AIR_TOML \/ name = DOT_AIR_TOML) /\ reports ev (w ++ [name])) ->
  forall w, In w folders -> loaded fs w = loaded fs' w \/ exists name, (name = AIR_TOML \/ name = DOT_AIR_TOML) /\ reports ev (w ++ [name]).
Proof.
  intros fs fs' ev folders H w Hw. destruct (H w w Hw (anc_refl w)) as [Hs|[_ Hs]]; [|right; exact Hs].
  assert (forall d, ancestor_or_self d w -> same_config fs fs' d \/ exists name, (name = AIR_TOML \/ name = DOT_AIR_TOML) /\ reports ev (w ++ [name])) as Q.
  { intros d Hd. destruct (H w d Hw Hd) as [Q|[_ Q]]; [left|right]; exact Q. }
  left. apply loaded_same. intros d Hd. destruct (H w d Hw Hd) as [Q2|[-> _]]; [exact Q2|exact Hs].
Qed.

Lemma step_holds : forall fs fs' ev folders w, holds fs folders w ->
  (forall w d, In w folders -> ancestor_or_self d w -> same_config fs fs' d \/
       d = w /\ exists name, (name = AIR_TOML \/ name = DOT_AIR_TOML) /\ reports ev (w ++ [name])) ->
  readable fs' (opened_by ev) ->
  holds fs' (open_after folders ev) (ws_step fs' w ev).
Proof.
  intros fs fs' ev folders w [H1 [H2 H3]] Hc Hr. pose proof (same_refl_dec _ _ _ _ Hc) as Hl. destruct ev as [added removed|changes]; cbn [opened_by open_after ws_step] in *.
  - unfold did_change_workspace_folders. apply close_all_holds. apply open_all_holds; [exact Hr|].
    split; [exact H1|]. split; [exact H2|]. intro p. rewrite H3. dec; [|reflexivity]. destruct (Hl p i) as [-> |[name [_ []]]]. reflexivity.
  - assert (mixed fs fs' [] folders w) as M.
    { split; [exact H1|]. split; [exact H2|]. intro p. exists (loaded fs p). split; [apply H3|]. right. split; [reflexivity|intros []]. }
    destruct (reload_all_mixed fs fs' changes [] folders w M) as [done [[M1 [M2 M3]] [_ M4]]].
    split; [exact M1|]. split; [exact M2|]. intro p. destruct (M3 p) as [v [E Hv]]. rewrite E. dec; [|reflexivity]. f_equal.
    destruct Hv as [Hv|[Hv Hn]]; [exact Hv|]. rewrite Hv. destruct (Hl p i) as [Q|[name [Hname Q]]]; [exact Q|]. exfalso. apply Hn.
    cbn [reports] in Q. apply (M4 (p ++ [name]) p Q); [apply is_air_toml_name; exact Hname|exact i|exists [name]; reflexivity].
Qed.

Lemma run_holds : forall h fs folders w, holds fs folders w -> watched fs folders h ->
  holds (last_fs fs h) (open_folders folders h) (ws_run w h).
Proof.
  induction h as [|[fs' ev] h IH]; intros fs folders w H Hw; [exact H|]. destruct Hw as [W1 [W2 W3]].
  unfold last_fs, open_folders, ws_run. cbn [fold_left fst snd]. apply IH; [|exact W3]. eapply step_holds; eassumption.
Qed.

Lemma holds_start : forall fs, holds fs [] (resolver_new (resolver_new dflt)).
Proof. intro fs. split; [exact I|]. split; [reflexivity|]. intro p. dec; [contradiction|reflexivity]. Qed.

Lemma holds_eq : forall fs f1 f2 w1 w2, (forall p, In p f1 <-> In p f2) -> holds fs f1 w1 -> holds fs f2 w2 -> w1 = w2.
Proof.
  intros fs f1 f2 w1 w2 Hf [H1 [H2 H3]] [G1 [G2 G3]]. destruct w1 as [fb1 i1], w2 as [fb2 i2]. cbn in *. subst. f_equal.
  apply psorted_lookup_eq; [assumption|assumption|]. intro p. rewrite H3, G3. specialize (Hf p).
  destruct (in_dec path_dec p f1); destruct (in_dec path_dec p f2); try reflexivity; tauto.
Qed.

Lemma fresh_holds : forall fs us, readable fs (paths_of us) -> holds fs (paths_of us) (from_workspace_folders fs us).
Proof. intros fs us Hr. unfold from_workspace_folders. apply (open_all_holds fs us []); [exact Hr|apply holds_start]. Qed.

Lemma paths_of_files : forall l, paths_of (map UFile l) = l.
Proof. induction l as [|p l IH]; [reflexivity|]. cbn. f_equal. exact IH. Qed.

Lemma history_is_fresh : forall fs us h, readable fs (paths_of us) -> watched fs (paths_of us) h ->
  readable (last_fs fs h) (open_folders (paths_of us) h) ->
  ws_run (from_workspace_folders fs us) h
  = from_workspace_folders (last_fs fs h) (map UFile (open_folders (paths_of us) h)).
Proof.
  intros fs us h Hr Hw Hl. apply (holds_eq (last_fs fs h) (open_folders (paths_of us) h) (paths_of (map UFile (open_folders (paths_of us) h)))).
  - intro p. rewrite paths_of_files. tauto.
  - apply run_holds; [apply fresh_holds; exact Hr|exact Hw].
  - apply fresh_holds. rewrite paths_of_files. exact Hl.
Qed.

(* what governs a file *)
Lemma loaded_resolve : forall fs w f, ancestor_or_self w f -> 
  match resolver_resolve (loaded fs w) f with
  | Some (d, s) => nearest (config_of fs) w d /\ settings_in format_settings (config_of fs) (fs_parse fs) d s
  | None => ungoverned (config_of fs) w \/ exists d, nearest (config_of fs) w d /\ broken format_settings (config_of fs) (fs_parse fs) d
  end.
Proof.
  intros fs w f Hf. unfold loaded. pose proof (discover_one_cases fs w) as H. destruct (discover_one fs w) as [found|].
  - destruct H as [[-> H]|[d [s [-> [H1 H2]]]]]; [cbn; left; exact H|].
    unfold add_discovered. cbn [fold_left fst snd]. unfold resolver_add. cbn. unfold resolver_resolve. cbn [rev items fst vec_insert firstn skipn app find].
    assert (starts_with f d = true) as ->; [|split; assumption]. apply starts_with_iff. destruct H1 as [H1 _].
    apply (anc_trans d w f H1 Hf).
  - right. exact H.
Qed.

Lemma settings_iff : forall fs folders w f s, holds fs folders w ->
  (settings_for_path w f = WToml s <-> governs fs folders f s) /\
  ((forall s, ~ governs fs folders f s) -> settings_for_path w f = WFallback dflt).
Proof.
  intros fs folders w f s [H1 [H2 H3]]. unfold settings_for_path. rewrite H2. cbn [fallback resolver_new].
  rewrite (resolve_refines _ w (lookup _ (items w)) f) by (split; auto).
  destruct (spec_resolve (lookup _ (items w)) f) as [[q r]|] eqn:E.
  - apply spec_resolve_deepest in E. destruct E as [E1 [E2 E3]]. rewrite H3 in E1. destruct (in_dec path_dec q folders) as [Hq|]; [|discriminate]. injection E1 as <-.
    assert (folder_of folders f q) as Hfq.
    { split; [exact Hq|]. split; [exact E2|]. intros w' Hw' Ha. destruct (Nat.le_gt_cases (length w') (length q)) as [L|L]; [exact L|].
      specialize (E3 w' Ha L). rewrite H3 in E3. destruct (in_dec path_dec w' folders); [discriminate|contradiction]. }
    assert (forall w', folder_of folders f w' -> w' = q) as Hu.
    { intros w' [F1 [F2 F3]]. destruct Hfq as [Q1 [Q2 Q3]]. apply (anc_same_len w' q f F2 Q2). apply Nat.le_antisymm; auto. }
    pose proof (loaded_resolve fs q f E2) as L. destruct (resolver_resolve (loaded fs q) f) as [[d s']|].
    + destruct L as [L1 L2]. split.
      * split.
        -- intro X. injection X as <-. exists q, d. auto.
        -- intros [w' [d' [F [N S]]]]. rewrite (Hu w' F) in N. rewrite (near_unique _ _ _ _ _ _ N L1) in S. destruct S as [t [T1 T2]], L2 as [t' [T1' T2']].
           assert (t = t') by congruence. subst t'. congruence.
      * intro X. exfalso. apply (X s'). exists q, d. auto.
    + split; [|reflexivity]. split; [discriminate|]. intros [w' [d' [F [N S]]]]. rewrite (Hu w' F) in N. destruct L as [L|[d2 [L1 L2]]].
      * destruct N as [N1 [N2 _]]. exfalso. apply N2. apply L. exact N1.
      * rewrite (near_unique _ _ _ _ _ _ N L1) in S. destruct S as [t [T1 T2]], L2 as [t' [T1' T2']]. exfalso. assert (t = t') by congruence. subst t'. congruence.
  - split; [|reflexivity]. split; [discriminate|]. intros [w' [d' [[F1 [F2 _]] _]]]. unfold spec_resolve in E.
    rewrite first_on_None in E. specialize (E w'). rewrite chain_In in E. specialize (E F2). rewrite H3 in E. destruct (in_dec path_dec w' folders); [discriminate|contradiction].
Qed.

Lemma items_single : forall fs folders w p r, holds fs folders w -> items w = [(p, r)] -> forall q, In q folders <-> q = p.
Proof.
  intros fs folders w p r [_ [_ H]] E q. specialize (H q). rewrite E in H. cbn in H. destruct (path_eqb q p) eqn:Eq.
  - apply path_eqb_eq in Eq. subst. destruct (in_dec path_dec p folders); [tauto|discriminate].
  - destruct (in_dec path_dec q folders); [discriminate|]. split; [contradiction|]. intros ->. rewrite path_eqb_refl in Eq. discriminate.
Qed.

Definition file_settings_of (u : url) (s : format_settings) : file_settings :=
  {| f_url := u; f_indent_style := s_indent_style s; f_indent_width := s_indent_width s; f_line_width := s_line_width s |}.

Lemma sync_iff : forall enabled w us,
  match sync_file_settings enabled w us with
  | None => enabled = false
  | Some l => enabled = true /\
      (forall x, In x l <-> exists u s, In u us /\ settings_for_url w u = WToml s /\ x = file_settings_of u s) /\
      (NoDup us -> NoDup (map f_url l))
  end.
Proof.
  intros enabled w us. unfold sync_file_settings. destruct enabled; cbn [negb]; [|reflexivity]. split; [reflexivity|]. split.
  - intro x. rewrite in_flat_map. split.
    + intros [u [Hu Hx]]. destruct (settings_for_url w u) as [s|s] eqn:E; [|contradiction]. destruct Hx as [<-|[]]. exists u, s. auto.
    + intros [u [s [Hu [E ->]]]]. exists u. split; [exact Hu|]. rewrite E. left. reflexivity.
  - intro N. induction us as [|u us IH]; [constructor|]. inversion N as [|? ? N1 N2]; subst. cbn [flat_map]. rewrite map_app.
    destruct (settings_for_url w u) as [s|s]; [|apply IH; exact N2]. cbn. constructor; [|apply IH; exact N2].
    intro Hin. apply N1. apply in_map_iff in Hin. destruct Hin as [x [Ex Hx]]. apply in_flat_map in Hx. destruct Hx as [u' [Hu' Hx]].
    destruct (settings_for_url w u'); [|contradiction]. destruct Hx as [<-|[]]. cbn in Ex. congruence.
Qed.

Lemma items_of_single : forall fs folders w p, holds fs folders w -> (forall q, In q folders <-> q = p) -> items w = [(p, loaded fs p)].
Proof.
  intros fs folders w p [H1 [_ H]] E. apply psorted_lookup_eq; [exact H1|split; [intros ? []|exact I]|]. intro q. rewrite H. cbn.
  destruct (path_eqb q p) eqn:Eq.
  - apply path_eqb_eq in Eq. subst. destruct (in_dec path_dec p folders) as [_|N]; [reflexivity|]. exfalso. apply N. apply E. reflexivity.
  - destruct (in_dec path_dec q folders) as [i|_]; [|reflexivity]. apply E in i. subst. rewrite path_eqb_refl in Eq. discriminate.
Qed.

Lemma untitled_settings : forall fs us h name s,
  readable fs (paths_of us) -> watched fs (paths_of us) h ->
  settings_for_url (ws_run (from_workspace_folders fs us) h) (UUntitled name) = WToml s <->
  exists p, (forall q, In q (open_folders (paths_of us) h) <-> q = p) /\ governs (last_fs fs h) (open_folders (paths_of us) h) (p ++ [$"untitled"]) s.
Proof.
  intros fs us h name s Hr Hw. pose proof (run_holds h _ _ _ (fresh_holds fs us Hr) Hw) as Hh.
  set (w := ws_run _ h) in *. unfold settings_for_url. cbn [url_to_path]. split.
  - destruct (items w) as [|[p r] [|]] eqn:E; try discriminate. intro H. exists p. split; [exact (items_single _ _ _ _ _ Hh E)|].
    apply (proj1 (settings_iff _ _ _ _ s Hh)). exact H.
  - intros [p [H1 H2]]. rewrite (items_of_single _ _ _ p Hh H1). apply (proj1 (settings_iff _ _ _ _ s Hh)). exact H2.
Qed.

Lemma others_settings : forall fs us h u,
  readable fs (paths_of us) -> watched fs (paths_of us) h ->
  (forall f, u <> UFile f) -> (forall name, u <> UUntitled name) ->
  settings_for_url (ws_run (from_workspace_folders fs us) h) u = WFallback format_settings_default.
Proof.
  intros fs us h u Hr Hw N1 N2. destruct (run_holds h _ _ _ (fresh_holds fs us Hr) Hw) as [_ [F _]].
  unfold settings_for_url. rewrite F. destruct u as [p|t|t|t|t]; try reflexivity; [destruct (N1 p eq_refl)|destruct (N2 t eq_refl)].
Qed.

Lemma sync_exact : forall enabled w us,
  match sync_file_settings enabled w us with
  | None => enabled = false
  | Some l => enabled = true /\
      (forall x, In x l <-> exists u s, In u us /\ settings_for_url w u = WToml s /\
         f_url x = u /\ f_indent_style x = s_indent_style s /\ f_indent_width x = s_indent_width s /\ f_line_width x = s_line_width s) /\
      (NoDup us -> NoDup (map f_url l))
  end.
Proof.
  intros enabled w us. pose proof (sync_iff enabled w us) as H. destruct (sync_file_settings enabled w us) as [l|]; [|exact H].
  destruct H as [H1 [H2 H3]]. split; [exact H1|]. split; [|exact H3]. intro x. rewrite H2. split.
  - intros [u [s [A [B ->]]]]. exists u, s. repeat split; assumption.
  - intros [u [s [A [B [C [D [E F]]]]]]]. exists u, s. split; [exact A|]. split; [exact B|]. destruct x. cbn in *. subst. reflexivity.
Qed.

Lemma is_air_toml_iff : forall p, is_air_toml p = true <-> exists d name, p = d ++ [name] /\ (name = AIR_TOML \/ name = DOT_AIR_TOML).
Proof.
  intro p. split.
  - unfold is_air_toml. destruct p as [|name d _] using rev_ind; [discriminate|]. rewrite rev_app_distr. cbn [rev app]. intro H.
    exists d, name. split; [reflexivity|]. apply orb_true_iff in H. destruct H as [H|H]; apply text_eqb_eq in H; auto.
  - intros [d [name [-> H]]]. apply is_air_toml_name. exact H.
Qed.

Lemma reload_keys : forall fs w u, map fst (items (fst (reload_workspaces_matched_by_url fs w u))) = map fst (items w).
Proof.
  intros fs w u. unfold reload_workspaces_matched_by_url. destruct (url_to_path u) as [p|]; [|reflexivity]. destruct (is_air_toml p); [|reflexivity]. cbn [negb fst items].
  rewrite map_map. apply map_ext. intros [q r]. cbn [fst]. destruct (starts_with p q); [|reflexivity]. unfold reload_workspace. cbn [fst snd]. destruct (discover_one fs q); reflexivity.
Qed.

Definition finds (fs : file_system) (q : path) : Prop := exists e found, discover_one fs q = Some (e :: found).

Lemma reload_flag : forall fs w u, snd (reload_workspaces_matched_by_url fs w u) = true <->
  exists p q, u = UFile p /\ is_air_toml p = true /\ In q (map fst (items w)) /\ ancestor_or_self q p /\ finds fs q.
Proof.
  intros fs w u. unfold reload_workspaces_matched_by_url. destruct u as [p|t|t|t|t]; cbn [url_to_path snd].
  2-5: split; [discriminate|intros [? [? [? _]]]; discriminate].
  destruct (is_air_toml p) eqn:Et; cbn [negb snd].
  - rewrite existsb_exists. split.
    + intros [[q r] [H1 H2]]. apply andb_true_iff in H2. cbn [fst] in H2. destruct H2 as [H2 H3]. exists p, q. split; [reflexivity|]. split; [exact Et|].
      split; [apply in_map_iff; exists (q, r); auto|]. split; [apply starts_with_iff; exact H2|]. unfold reload_workspace in H3. cbn [fst snd] in H3.
      unfold finds. destruct (discover_one fs q) as [[|e found]|]; try discriminate. eauto.
    + intros [p' [q [E [_ [H1 [H2 [e [found H3]]]]]]]]. injection E as <-. apply in_map_iff in H1. destruct H1 as [[q' r] [E H1]]. cbn in E. subst q'.
      exists (q, r). split; [exact H1|]. apply andb_true_iff. split; [apply starts_with_iff; exact H2|]. unfold reload_workspace. cbn [fst snd]. rewrite H3. reflexivity.
  - split; [discriminate|]. intros [p' [q [E [H _]]]]. injection E as <-. congruence.
Qed.

Lemma reload_all_flag : forall fs changes w, snd (reload_all fs w changes) = true <->
  exists p q, In (UFile p) changes /\ is_air_toml p = true /\ In q (map fst (items w)) /\ ancestor_or_self q p /\ finds fs q.
Proof.
  intros fs changes. induction changes as [|u changes IH]; intro w; cbn [reload_all].
  - split; [discriminate|intros [? [? [[] _]]]].
  - pose proof (reload_flag fs w u) as F. pose proof (reload_keys fs w u) as K. destruct (reload_workspaces_matched_by_url fs w u) as [w1 b1]. cbn [fst snd] in *.
    specialize (IH w1). rewrite K in IH. destruct (reload_all fs w1 changes) as [w2 b2]. cbn [snd] in *. rewrite orb_true_iff, F, IH. split.
    + intros [[p [q [-> H]]]|[p [q [Hp H]]]]; exists p, q; (split; [|exact H]); [left; reflexivity|right; exact Hp].
    + intros [p [q [[Hp|Hp] H]]]; [left|right]; exists p, q; auto.
Qed.

Lemma holds_keys : forall fs folders w q, holds fs folders w -> (In q (map fst (items w)) <-> In q folders).
Proof.
  intros fs folders w q [H1 [_ H]]. specialize (H q). split.
  - intro Hin. apply in_map_iff in Hin. destruct Hin as [[q' r] [E Hin]]. cbn in E. subst q'. apply (lookup_In _ _ _ _ H1) in Hin.
    rewrite Hin in H. destruct (in_dec path_dec q folders); [assumption|discriminate].
  - intro Hin. destruct (in_dec path_dec q folders) as [_|N]; [|contradiction]. apply (lookup_In _ _ _ _ H1) in H. apply in_map_iff. exists (q, loaded fs q). auto.
Qed.

Lemma finds_nearest : forall fs q, finds fs q <->
  exists d s, nearest (config_of fs) q d /\ settings_in format_settings (config_of fs) (fs_parse fs) d s.
Proof.
  intros fs q. unfold finds. pose proof (discover_one_cases fs q) as H. split.
  - intros [e [found E]]. rewrite E in H. destruct H as [[H _]|[d [s [_ H]]]]; [discriminate|exists d, s; exact H].
  - intros [d [s [Hd Hs]]]. destruct (discover_one fs q) as [found|] eqn:E.
    + destruct H as [[_ H]|[d' [s' [-> _]]]]; [|eauto]. destruct Hd as [D1 [D2 _]]. destruct D2. apply H. exact D1.
    + exfalso. destruct H as [d2 [L1 L2]]. rewrite (near_unique _ _ _ _ _ _ Hd L1) in Hs. destruct Hs as [t [T1 T2]], L2 as [t' [T1' T2']].
      assert (t = t') by congruence. subst t'. congruence.
Qed.

Lemma watched_app : forall h fs folders h2, watched fs folders (h ++ h2) -> watched fs folders h /\ watched (last_fs fs h) (open_folders folders h) h2.
Proof.
  induction h as [|[fs' ev] h IH]; intros fs folders h2 H; [split; [exact I|exact H]|]. cbn [app watched] in H. destruct H as [H1 [H2 H3]].
  apply IH in H3. split; [split; [exact H1|split; [exact H2|apply H3]]|apply H3].
Qed.

Lemma watched_sync : forall fs us h fs' changes enabled open_uris,
  readable fs (paths_of us) -> watched fs (paths_of us) (h ++ [(fs', FilesChanged changes)]) ->
  let folders := open_folders (paths_of us) h in
  let w := ws_run (from_workspace_folders fs us) h in
  let w' := ws_run (from_workspace_folders fs us) (h ++ [(fs', FilesChanged changes)]) in
  fst (did_change_watched_files fs' enabled w changes open_uris) = w' /\
  forall l, snd (did_change_watched_files fs' enabled w changes open_uris) = Some l <->
    sync_file_settings enabled w' open_uris = Some l /\
    exists p name q d s, In (UFile (p ++ [name])) changes /\ (name = AIR_TOML \/ name = DOT_AIR_TOML) /\
      In q folders /\ ancestor_or_self q (p ++ [name]) /\ nearest (config_of fs') q d /\ settings_in format_settings (config_of fs') (fs_parse fs') d s.
Proof.
  intros fs us h fs' changes enabled open_uris Hr Hw folders w w'. destruct (watched_app _ _ _ _ Hw) as [W1 _].
  pose proof (run_holds h _ _ _ (fresh_holds fs us Hr) W1) as Hh. fold folders w in Hh.
  assert (w' = fst (reload_all fs' w changes)) as Ew by (unfold w', w, ws_run; rewrite fold_left_app; reflexivity).
  pose proof (reload_all_flag fs' changes w) as F. unfold did_change_watched_files. destruct (reload_all fs' w changes) as [w2 changed]. cbn [fst snd] in *. subst w'. rewrite <- Ew in *. clear Ew.
  split; [reflexivity|]. intro l.
  assert (changed = true <-> exists p name q d s, In (UFile (p ++ [name])) changes /\ (name = AIR_TOML \/ name = DOT_AIR_TOML) /\
      In q folders /\ ancestor_or_self q (p ++ [name]) /\ nearest (config_of fs') q d /\ settings_in format_settings (config_of fs') (fs_parse fs') d s) as F2.
  { rewrite F. split.
    - intros [p [q [P1 [P2 [P3 [P4 P5]]]]]]. apply is_air_toml_iff in P2. destruct P2 as [d0 [name [-> P2]]]. apply (holds_keys _ _ _ _ Hh) in P3.
      apply finds_nearest in P5. destruct P5 as [d [s P5]]. exists d0, name, q, d, s. auto.
    - intros [p [name [q [d [s [P1 [P2 [P3 [P4 P5]]]]]]]]]. exists (p ++ [name]), q. split; [exact P1|]. split; [apply is_air_toml_name; exact P2|].
      split; [apply (holds_keys _ _ _ _ Hh); exact P3|]. split; [exact P4|]. apply finds_nearest. exists d, s. exact P5. }
  rewrite <- F2. destruct changed; split; [intro H; split; [exact H|reflexivity]|intros [H _]; exact H|discriminate|intros [_ H]; discriminate].
Qed.
