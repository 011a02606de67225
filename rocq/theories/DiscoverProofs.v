From Coq Require Import List Arith Bool NArith Lia.
From Verif Require Import Text TextFacts SettingsModel ResolverModel ResolverSpec ResolverProofs
  DiscoverModel DiscoverSpec.
Import ListNotations.

Lemma ancestors_snoc : forall p c, ancestors (p ++ [c]) = (p ++ [c]) :: ancestors p.
Proof.
  intros p c. unfold ancestors. rewrite rev_app_distr. cbn [rev app ancestors_rev map].
  rewrite rev_involutive. reflexivity.
Qed.
Lemma ancestors_nil : ancestors [] = [[]].
Proof. reflexivity. Qed.

Lemma ancestors_In : forall p a, In a (ancestors p) <-> ancestor_or_self a p.
Proof.
  intro p. induction p as [|c p IH] using rev_ind; intro a.
  - cbn. split.
    + intros [<-|[]]. exists []. reflexivity.
    + intros [r H]. symmetry in H. apply app_eq_nil in H. left. symmetry. apply H.
  - rewrite ancestors_snoc. cbn [In]. rewrite IH. split.
    + intros [<-|[r ->]]; [exists []; symmetry; apply app_nil_r|].
      exists (r ++ [c]). rewrite app_assoc. reflexivity.
    + intros [r H]. destruct r as [|x r] using rev_ind.
      * left. rewrite app_nil_r in H. exact H.
      * right. rewrite app_assoc in H. apply app_inj_tail in H. destruct H as [-> _].
        exists r. reflexivity.
Qed.

Lemma mem_path_In : forall p l, mem_path p l = true <-> In p l.
Proof.
  intros. unfold mem_path. rewrite existsb_exists. split.
  - intros [x [Hx E]]. apply path_eqb_eq in E. subst. exact Hx.
  - intro H. exists p. split; [exact H|apply path_eqb_refl].
Qed.

Section D.
  Variable S : Type.
  Variable is_file : path -> bool.
  Variable parse : path -> path -> option S.
  Variables A1 A2 : text.
  Notation toml_of := (find_air_toml_in_directory is_file A1 A2).
  Notation near := (nearest toml_of).
  Notation unruled := (ungoverned toml_of).

  Lemma anc_refl : forall p, ancestor_or_self p p.
  Proof. intro. exists []. symmetry. apply app_nil_r. Qed.
  Lemma anc_snoc : forall p c, ancestor_or_self p (p ++ [c]).
  Proof. intros. exists [c]. reflexivity. Qed.
  Lemma anc_trans : forall a b c, ancestor_or_self a b -> ancestor_or_self b c -> ancestor_or_self a c.
  Proof. intros a b c [r ->] [q ->]. exists (r ++ q). rewrite app_assoc. reflexivity. Qed.
  Lemma anc_len : forall a b, ancestor_or_self a b -> length a <= length b.
  Proof. intros a b [r ->]. rewrite app_length. lia. Qed.
  Lemma anc_snoc_inv : forall a p c, ancestor_or_self a (p ++ [c]) -> a = p ++ [c] \/ ancestor_or_self a p.
  Proof.
    intros a p c H. apply ancestors_In in H. rewrite ancestors_snoc in H. destruct H as [<-|H]; [left; reflexivity|].
    right. apply ancestors_In. exact H.
  Qed.
  Lemma anc_same_len : forall a b p, ancestor_or_self a p -> ancestor_or_self b p -> length a = length b -> a = b.
  Proof.
    intros a b p [r ->] [q H] L. revert b H L. induction a as [|x a IH]; intros [|y b] H L; cbn in *; try lia; [reflexivity|].
    inversion H; subst. f_equal. apply IH; [assumption|lia].
  Qed.

  Lemma near_snoc : forall p c d, toml_of (p ++ [c]) = None -> (near (p ++ [c]) d <-> near p d).
  Proof.
    intros p c d Hn. split; intros [H1 [H2 H3]].
    - apply anc_snoc_inv in H1. destruct H1 as [->|H1]; [contradiction|].
      split; [exact H1|]. split; [exact H2|]. intros d' Hd' L. apply H3; [|exact L].
      eapply anc_trans; [exact Hd'|apply anc_snoc].
    - split; [eapply anc_trans; [exact H1|apply anc_snoc]|]. split; [exact H2|].
      intros d' Hd' L. apply anc_snoc_inv in Hd'. destruct Hd' as [->|Hd']; [exact Hn|]. apply H3; assumption.
  Qed.
  Lemma near_self : forall p, toml_of p <> None -> near p p.
  Proof.
    intros p H. split; [apply anc_refl|]. split; [exact H|]. intros d' Hd' L.
    apply anc_len in Hd'. lia.
  Qed.
  Lemma near_unique : forall p d d', near p d -> near p d' -> d = d'.
  Proof.
    intros p d d' [H1 [H2 H3]] [G1 [G2 G3]].
    destruct (Nat.lt_trichotomy (length d) (length d')) as [L|[L|L]].
    - exfalso. apply G2. apply H3; assumption.
    - eapply anc_same_len; eassumption.
    - exfalso. apply H2. apply G3; assumption.
  Qed.
  Lemma near_dec : forall p, (exists d, near p d) \/ unruled p.
  Proof.
    intro p. induction p as [|c p IH] using rev_ind.
    - destruct (toml_of []) eqn:E.
      + left. exists []. apply near_self. intro H. rewrite E in H. discriminate.
      + right. intros d [r H]. symmetry in H. apply app_eq_nil in H. destruct H as [-> _]. exact E.
    - destruct (toml_of (p ++ [c])) eqn:E.
      + left. exists (p ++ [c]). apply near_self. intro H. rewrite E in H. discriminate.
      + destruct IH as [[d Hd]|Hu].
        * left. exists d. apply near_snoc; assumption.
        * right. intros d Hd. apply anc_snoc_inv in Hd. destruct Hd as [->|Hd]; [exact E|]. apply Hu; exact Hd.
  Qed.

  Lemma nodup_snoc : forall (l : list path) x, NoDup l -> ~ In x l -> NoDup (l ++ [x]).
  Proof.
    intros l x H Hx. rewrite <- (rev_involutive (l ++ [x])). apply NoDup_rev.
    rewrite rev_app_distr. cbn [rev app]. constructor; [|apply NoDup_rev; exact H].
    rewrite <- in_rev. exact Hx.
  Qed.

  Notation good := (settings_in S toml_of parse).

  Definition post (p : path) (seen : list path) (found : discovered S)
      (seen' : list path) (found' : discovered S) : Prop :=
      (forall d s, In (d, s) found' -> good d s) /\
      (forall d s, In (d, s) found' -> In (d, s) found \/ near p d) /\
      (forall x, In x found -> In x found') /\
      (forall d s, In (d, s) found' -> In d seen') /\
      NoDup (map fst found') /\
      (forall q, In q seen -> In q seen') /\
      (forall q, In q seen' -> In q seen \/ (ancestor_or_self q p /\ forall d, near q d <-> near p d)) /\
      (forall d, near p d -> exists s, In (d, s) found').

  Definition pre (p : path) (seen : list path) (found : discovered S) : Prop :=
    (forall d s, In (d, s) found -> good d s) /\
    (forall q d, In q seen -> ancestor_or_self q p -> near q d -> exists s, In (d, s) found) /\
    (forall d s, In (d, s) found -> In d seen) /\
    NoDup (map fst found).

  Lemma step_seen : forall p seen found, pre p seen found -> In p seen -> post p seen found seen found.
  Proof.
    intros p seen found [G1 [G2 [G3 G4]]] Hp. repeat split; auto.
    intros d Hd. apply (G2 p d); auto. apply anc_refl.
  Qed.

  Lemma step_found : forall p seen found t s, pre p seen found -> ~ In p seen ->
    toml_of p = Some t -> parse t p = Some s ->
    post p seen found (p :: seen) (found ++ [(p, s)]).
  Proof.
    intros p seen found t s [G1 [G2 [G3 G4]]] Hp Et Ep.
    assert (near p p) as Hn by (apply near_self; intro H; rewrite Et in H; discriminate).
    unfold post. split; [|split; [|split; [|split; [|split; [|split; [|split]]]]]].
    - intros d s' H. apply in_app_or in H. destruct H as [H|[H|[]]]; [apply G1; exact H|].
      inversion H; subst. exists t. auto.
    - intros d s' H. apply in_app_or in H. destruct H as [H|[H|[]]]; [left; exact H|].
      inversion H; subst. right. exact Hn.
    - intros x Hx. apply in_or_app. left. exact Hx.
    - intros d s' H. apply in_app_or in H. destruct H as [H|[H|[]]].
      + right. apply (G3 _ _ H).
      + inversion H; subst. left. reflexivity.
    - rewrite map_app. cbn [map fst]. apply nodup_snoc; [exact G4|].
      intro H. apply in_map_iff in H. destruct H as [[d s'] [H1 H2]]. cbn in H1. subst.
      apply Hp. apply (G3 _ _ H2).
    - intros q Hq. right. exact Hq.
    - intros q [<-|Hq]; [right|left; exact Hq]. split; [apply anc_refl|tauto].
    - intros d Hd. exists s. apply in_or_app. right. left.
      rewrite (near_unique _ _ _ Hd Hn). reflexivity.
  Qed.

  Lemma not_mem : forall p l, mem_path p l = false -> ~ In p l.
  Proof. intros p l H Hin. apply mem_path_In in Hin. congruence. Qed.

  Lemma discover_anc_ok : forall p seen found, pre p seen found ->
    match discover_ancestors S is_file parse A1 A2 seen found (ancestors p) with
    | None => exists d, near p d /\ broken S toml_of parse d
    | Some (seen', found') => post p seen found seen' found'
    end.
  Proof.
    intro p. induction p as [|c p IH] using rev_ind; intros seen found Hpre.
    - rewrite ancestors_nil. cbn [discover_ancestors]. destruct (mem_path [] seen) eqn:Em.
      + apply step_seen; [exact Hpre|apply mem_path_In; exact Em].
      + apply not_mem in Em. destruct (toml_of []) as [t|] eqn:Et.
        * destruct (parse t []) as [s|] eqn:Ep.
          -- eapply step_found; eassumption.
          -- exists []. split; [apply near_self; intro H; rewrite Et in H; discriminate|].
             exists t. auto.
        * destruct Hpre as [G1 [G2 [G3 G4]]]. repeat split; auto.
          -- intros d s H. right. apply (G3 _ _ H).
          -- intros q Hq. right. exact Hq.
          -- intros q [<-|Hq]; [right|left; exact Hq]. split; [apply anc_refl|tauto].
          -- intros d [[r H] [H2 _]]. symmetry in H. apply app_eq_nil in H. destruct H as [-> _]. contradiction.
    - rewrite ancestors_snoc. cbn [discover_ancestors]. destruct (mem_path (p ++ [c]) seen) eqn:Em.
      + apply step_seen; [exact Hpre|apply mem_path_In; exact Em].
      + apply not_mem in Em. destruct (toml_of (p ++ [c])) as [t|] eqn:Et.
        * destruct (parse t (p ++ [c])) as [s|] eqn:Ep.
          -- eapply step_found; eassumption.
          -- exists (p ++ [c]). split; [apply near_self; intro H; rewrite Et in H; discriminate|].
             exists t. auto.
        * destruct Hpre as [G1 [G2 [G3 G4]]].
          assert (pre p ((p ++ [c]) :: seen) found) as Hpre'.
          { split; [exact G1|]. split; [|split; [|exact G4]].
            - intros q d [<-|Hq] Ha Hn.
              + apply anc_len in Ha. rewrite app_length in Ha. cbn in Ha. lia.
              + apply (G2 q d Hq); [|exact Hn]. eapply anc_trans; [exact Ha|apply anc_snoc].
            - intros d s H. right. apply (G3 _ _ H). }
          specialize (IH _ _ Hpre').
          destruct (discover_ancestors _ _ _ _ _ _ _ (ancestors p)) as [[seen' found']|].
          -- destruct IH as [P1 [P2 [P3 [P4 [P5 [P6 [P7 P8]]]]]]].
             unfold post. split; [exact P1|]. split; [|split; [exact P3|]; split; [exact P4|]; split; [exact P5|]; split; [|split]].
             ++ intros d s H. destruct (P2 _ _ H) as [H'|H']; [left; exact H'|right]. apply near_snoc; assumption.
             ++ intros q Hq. apply P6. right. exact Hq.
             ++ intros q Hq. destruct (P7 _ Hq) as [[<-|H]|[H1 H2]].
                ** right. split; [apply anc_refl|tauto].
                ** left. exact H.
                ** right. split; [eapply anc_trans; [exact H1|apply anc_snoc]|].
                   intro d. rewrite H2. symmetry. apply near_snoc; assumption.
             ++ intros d Hd. apply P8. apply near_snoc in Hd; assumption.
          -- destruct IH as [d [H1 H2]]. exists d. split; [apply near_snoc; assumption|exact H2].
  Qed.

  Definition outer (done : list path) (seen : list path) (found : discovered S) : Prop :=
    (forall d s, In (d, s) found -> good d s) /\
    (forall d s, In (d, s) found -> exists p, In p done /\ near p d) /\
    (forall q d, In q seen -> near q d -> exists s, In (d, s) found) /\
    (forall d s, In (d, s) found -> In d seen) /\
    NoDup (map fst found) /\
    (forall p d, In p done -> near p d -> exists s, In (d, s) found).

  Lemma discover_loop_ok : forall paths done seen found, outer done seen found ->
    match discover_loop S is_file parse A1 A2 seen found paths with
    | None => exists p d, In p paths /\ near p d /\ broken S toml_of parse d
    | Some found' => exists seen', outer (done ++ paths) seen' found'
    end.
  Proof.
    induction paths as [|p paths IH]; intros done seen found [O1 [O2 [O3 [O4 [O5 O6]]]]]; cbn [discover_loop].
    - exists seen. rewrite app_nil_r. repeat split; auto.
    - assert (pre p seen found) as Hpre.
      { split; [exact O1|]. split; [intros q d Hq _ Hn; apply (O3 q d); assumption|]. split; [exact O4|exact O5]. }
      pose proof (discover_anc_ok p seen found Hpre) as Ha.
      destruct (discover_ancestors _ _ _ _ _ _ _ (ancestors p)) as [[seen' found']|].
      + destruct Ha as [P1 [P2 [P3 [P4 [P5 [P6 [P7 P8]]]]]]].
        assert (outer (done ++ [p]) seen' found') as Ho.
        { split; [exact P1|]. split; [|split; [|split; [exact P4|]; split; [exact P5|]]].
          - intros d s H. destruct (P2 _ _ H) as [H'|H'].
            + destruct (O2 _ _ H') as [p' [Hp' Hn]]. exists p'. split; [apply in_or_app; left; exact Hp'|exact Hn].
            + exists p. split; [apply in_or_app; right; left; reflexivity|exact H'].
          - intros q d Hq Hn. destruct (P7 _ Hq) as [H|[_ H]].
            + destruct (O3 q d H Hn) as [s Hs]. exists s. apply P3. exact Hs.
            + apply P8. apply H. exact Hn.
          - intros p' d Hp' Hn. apply in_app_or in Hp'. destruct Hp' as [Hp'|[<-|[]]].
            + destruct (O6 p' d Hp' Hn) as [s Hs]. exists s. apply P3. exact Hs.
            + apply P8. exact Hn. }
        specialize (IH _ _ _ Ho). rewrite <- app_assoc in IH. cbn [app] in IH.
        destruct (discover_loop _ _ _ _ _ seen' found' paths); [exact IH|].
        destruct IH as [p' [d [H1 H2]]]. exists p', d. split; [right; exact H1|exact H2].
      + destruct Ha as [d [H1 H2]]. exists p, d. split; [left; reflexivity|]. auto.
  Qed.

  Lemma discover_ok : forall paths,
    match discover_settings S is_file parse A1 A2 paths with
    | None => exists p d, In p paths /\ near p d /\ broken S toml_of parse d
    | Some found => exists seen', outer paths seen' found
    end.
  Proof.
    intro paths. apply (discover_loop_ok paths [] [] []).
    repeat split; try constructor; cbn; intros; contradiction.
  Qed.

  (* C09 *)
  Lemma discover_fails_iff : forall paths,
    discover_settings S is_file parse A1 A2 paths = None <->
    exists p d, In p paths /\ near p d /\ broken S toml_of parse d.
  Proof.
    intro paths. pose proof (discover_ok paths) as H.
    destruct (discover_settings _ _ _ _ _ paths) as [found|].
    - split; [discriminate|]. intros [p [d [Hp [Hn [t [Ht Hb]]]]]].
      destruct H as [seen [O1 [_ [_ [_ [_ O6]]]]]].
      destruct (O6 p d Hp Hn) as [s Hs]. destruct (O1 _ _ Hs) as [t' [Ht' Hg]]. congruence.
    - split; [intros _; exact H|reflexivity].
  Qed.

  (* the resolver loaded from found *)
  Lemma load_lookup : forall found (r : resolver S) , psorted S (items r) ->
    NoDup (map fst found) -> (forall d s, In (d, s) found -> lookup S (items r) d = None) ->
    let r' := fold_left (fun r ds => fst (resolver_add r (fst ds) (snd ds))) found r in
    psorted S (items r') /\ fallback r' = fallback r /\
    forall d s, lookup S (items r') d = Some s <-> (In (d, s) found \/ lookup S (items r) d = Some s).
  Proof.
    induction found as [|[d0 s0] found IH]; intros r Hs Hnd Hno; cbn [fold_left].
    - split; [exact Hs|]. split; [reflexivity|]. intros d s. cbn. tauto.
    - cbn [fst snd]. destruct (resolver_add r d0 s0) as [r1 out] eqn:E.
      destruct (add_correct _ _ _ _ _ _ Hs E) as [H1 [H2 [_ H4]]]. cbn [fst].
      cbn [map fst] in Hnd. inversion Hnd as [|x l Hx Hnd']; subst.
      assert (forall d s, In (d, s) found -> d <> d0) as Hne.
      { intros d s Hd ->. apply Hx. apply in_map_iff. exists (d0, s). auto. }
      destruct (IH r1 H1 Hnd') as [I1 [I2 I3]].
      { intros d s Hd. rewrite H4. destruct (path_eqb d d0) eqn:Ed.
        - apply path_eqb_eq in Ed. exfalso. apply (Hne _ _ Hd Ed).
        - apply (Hno d s). right. exact Hd. }
      split; [exact I1|]. split; [rewrite I2; exact H2|]. intros d s. rewrite I3, H4. cbn [In].
      destruct (path_eqb d d0) eqn:Ed.
      + apply path_eqb_eq in Ed. subst d.
        rewrite (Hno d0 s0 (or_introl eq_refl)).
        split.
        * intros [H|H]; [exfalso; apply (Hne _ _ H eq_refl)|]. inversion H; subst. left. left. reflexivity.
        * intros [[H|H]|H]; [inversion H; right; reflexivity|left; exact H|discriminate].
      + split.
        * intros [H|H]; [left; right; exact H|right; exact H].
        * intros [[H|H]|H]; [|left; exact H|right; exact H].
          inversion H; subst. rewrite path_eqb_refl in Ed. discriminate.
  Qed.

  (* C08 *)
  Definition settings_of (fb : S) (paths : list path) (f : path) : option S :=
    match discover_settings S is_file parse A1 A2 paths with
    | None => None
    | Some found => Some (resolve_or_fallback (load_resolver S fb found) f)
    end.

  Lemma nearest_governs : forall fb paths p f s,
    In p paths -> ancestor_or_self p f ->
    (forall d, ancestor_or_self d f -> length p < length d -> toml_of d = None) ->
    settings_of fb paths f = Some s ->
    (forall d, near f d -> good d s) /\ (unruled f -> s = fb).
  Proof.
    intros fb paths p f s Hp Hpf Hbetween H. unfold settings_of in H.
    pose proof (discover_ok paths) as Hd.
    destruct (discover_settings _ _ _ _ _ paths) as [found|]; [|discriminate].
    injection H as <-. destruct Hd as [seen [O1 [O2 [_ [_ [O5 O6]]]]]].
    destruct (load_lookup found (resolver_new fb) I O5) as [L1 [L2 L3]]; [reflexivity|].
    fold (load_resolver S fb found) in L1, L2, L3. cbn in L2.
    set (r := load_resolver S fb found) in *.
    assert (forall d s, lookup S (items r) d = Some s <-> In (d, s) found) as L.
    { intros d s. rewrite L3. cbn. split; [intros [H|H]; [exact H|discriminate]|tauto]. }
    unfold resolve_or_fallback. rewrite (resolve_refines S r (lookup S (items r)) f) by (split; auto).
    assert (forall d, near f d -> near p d) as Hnp.
    { intros d [N1 [N2 N3]].
      assert (length d <= length p) as Ll.
      { destruct (Nat.le_gt_cases (length d) (length p)) as [Hle|Hgt]; [exact Hle|].
        exfalso. apply N2. apply Hbetween; assumption. }
      split; [|split; [exact N2|]].
      - destruct N1 as [r1 E1]. destruct Hpf as [r2 E2].
        destruct (Nat.eq_dec (length d) (length p)) as [He|Hne].
        + rewrite (anc_same_len d p f); [apply anc_refl|exists r1; exact E1|exists r2; exact E2|exact He].
        + destruct (prefixes_comparable f d p r1 r2 E1 E2) as [c [q Hq]]; [lia|].
          exists (c :: q). exact Hq.
      - intros d' Hd' Hl. apply N3; [|exact Hl]. eapply anc_trans; eassumption. }
    split.
    - intros d Hn. destruct (O6 p d Hp (Hnp d Hn)) as [s Hs].
      assert (spec_resolve (lookup S (items r)) f = Some (d, s)) as ->.
      { apply spec_resolve_deepest. destruct Hn as [N1 [N2 N3]]. split; [apply L; exact Hs|]. split; [exact N1|].
        intros q' Hq' Hl. destruct (lookup S (items r) q') as [s'|] eqn:E; [|reflexivity].
        apply L in E. destruct (O1 _ _ E) as [t [Ht _]]. rewrite (N3 q' Hq' Hl) in Ht. discriminate. }
      cbn. apply O1. exact Hs.
    - intro Hu. destruct (spec_resolve _ f) as [[d s]|] eqn:E; [|exact L2].
      apply spec_resolve_deepest in E. destruct E as [E1 [E2 _]]. apply L in E1.
      destruct (O1 _ _ E1) as [t [Ht _]]. rewrite (Hu d E2) in Ht. discriminate.
  Qed.

  Lemma order_irrelevant : forall fb paths paths' f,
    (forall p, In p paths <-> In p paths') ->
    settings_of fb paths f = settings_of fb paths' f.
  Proof.
    intros fb paths paths' f Heq.
    assert (discover_settings S is_file parse A1 A2 paths = None <->
            discover_settings S is_file parse A1 A2 paths' = None) as Hnone.
    { rewrite !discover_fails_iff. split; intros [p [d [Hp H]]]; exists p, d; (split; [apply Heq; exact Hp|exact H]). }
    unfold settings_of.
    pose proof (discover_ok paths) as H1. pose proof (discover_ok paths') as H2.
    destruct (discover_settings _ _ _ _ _ paths) as [f1|]; destruct (discover_settings _ _ _ _ _ paths') as [f2|].
    2: { destruct Hnone as [_ Hn]. specialize (Hn eq_refl). discriminate. }
    2: { destruct Hnone as [Hn _]. specialize (Hn eq_refl). discriminate. }
    2: reflexivity.
    f_equal.
    destruct H1 as [sn1 [A1' [A2' [_ [_ [A5 A6]]]]]]. destruct H2 as [sn2 [B1 [B2 [_ [_ [B5 B6]]]]]].
    destruct (load_lookup f1 (resolver_new fb) I A5) as [L1 [L2 L3]]; [reflexivity|].
    destruct (load_lookup f2 (resolver_new fb) I B5) as [M1 [M2 M3]]; [reflexivity|].
    fold (load_resolver S fb f1) in L1, L2, L3. fold (load_resolver S fb f2) in M1, M2, M3.
    assert (forall d s, In (d, s) f1 <-> In (d, s) f2) as Hf.
    { intros d s. split; intro H.
      - destruct (A2' _ _ H) as [p [Hp Hn]]. apply Heq in Hp. destruct (B6 _ _ Hp Hn) as [s' Hs'].
        destruct (A1' _ _ H) as [t [T1 T2]]. destruct (B1 _ _ Hs') as [t' [T1' T2']].
        assert (t' = t) by congruence. subst t'. assert (s' = s) by congruence. subst s'. exact Hs'.
      - destruct (B2 _ _ H) as [p [Hp Hn]]. apply Heq in Hp. destruct (A6 _ _ Hp Hn) as [s' Hs'].
        destruct (B1 _ _ H) as [t [T1 T2]]. destruct (A1' _ _ Hs') as [t' [T1' T2']].
        assert (t' = t) by congruence. subst t'. assert (s' = s) by congruence. subst s'. exact Hs'. }
    set (m := lookup S (items (load_resolver S fb f1))).
    unfold resolve_or_fallback.
    rewrite (resolve_refines S (load_resolver S fb f1) m f) by (split; [exact L1|reflexivity]).
    rewrite (resolve_refines S (load_resolver S fb f2) m f).
    { rewrite L2, M2. reflexivity. }
    split; [exact M1|]. intro q. unfold m.
    destruct (lookup S (items (load_resolver S fb f1)) q) as [s|] eqn:E.
    - apply M3. apply L3 in E. rewrite Hf in E. exact E.
    - destruct (lookup S (items (load_resolver S fb f2)) q) as [s|] eqn:E'; [|reflexivity].
      apply M3 in E'. rewrite <- Hf in E'. apply L3 in E'. congruence.
  Qed.
End D.

Lemma config_file_iff : forall is_file A1 A2 d t,
  find_air_toml_in_directory is_file A1 A2 d = Some t <-> config_file is_file A1 A2 d t.
Proof.
  intros is_file A1 A2 d t. unfold find_air_toml_in_directory. split.
  - destruct (is_file (d ++ [A1])) eqn:E1; [|destruct (is_file (d ++ [A2])) eqn:E2; [|discriminate]];
      intro H; injection H as <-; constructor; assumption.
  - intro H. inversion H as [H1|H1 H2]; rewrite H1; [|rewrite H2]; reflexivity.
Qed.
