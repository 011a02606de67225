From Coq Require Import List Arith Bool NArith Lia Permutation Sorted.
From Verif Require Import Text TextFacts SettingsModel ResolverModel ResolverSpec ResolverProofs
  DiscoverModel DiscoverSpec DiscoverProofs WalkModel WalkSpec WalkProofs CliModel CliSpec.
Import ListNotations.

(* sorting *)
Lemma insert_perm : forall p l, Permutation (insert_path p l) (p :: l).
Proof.
  intros p l. induction l as [|q l IH]; cbn; [reflexivity|].
  destruct (path_cmp p q); try reflexivity. rewrite IH. apply perm_swap.
Qed.
Lemma sort_perm : forall l, Permutation (sort_paths l) l.
Proof. induction l as [|p l IH]; cbn; [reflexivity|]. rewrite insert_perm, IH. reflexivity. Qed.
Lemma insert_sorted : forall p l, Sorted path_le l -> Sorted path_le (insert_path p l).
Proof.
  intros p l H. induction H as [|q l Hl IH Hq]; cbn; [repeat constructor|].
  destruct (path_cmp p q) eqn:E.
  - constructor; [constructor; assumption|]. constructor. unfold path_le. congruence.
  - constructor; [constructor; assumption|]. constructor. unfold path_le. congruence.
  - constructor; [exact IH|].
    assert (path_le q p) as Hqp by (unfold path_le; rewrite path_cmp_antisym, E; discriminate).
    destruct l as [|r l]; cbn; [constructor; exact Hqp|].
    destruct (path_cmp p r); constructor; try exact Hqp. inversion Hq; assumption.
Qed.
Lemma sort_sorted : forall l, Sorted path_le (sort_paths l).
Proof. induction l as [|p l IH]; cbn; [constructor|]. apply insert_sorted. exact IH. Qed.

Lemma disk_set_same : forall d p t, disk_set d p t p = t.
Proof. intros. unfold disk_set. rewrite path_eqb_refl. reflexivity. Qed.
Lemma disk_set_other : forall d p t q, q <> p -> disk_set d p t q = d q.
Proof.
  intros. unfold disk_set. destruct (path_eqb q p) eqn:E; [|reflexivity].
  apply path_eqb_eq in E. contradiction.
Qed.

Section C.
  Variables S O : Type.
  Variable parse_ok : text -> bool.
  Variable print : O -> text -> option text.
  Variable options_of : S -> text -> O.
  Variable settings_for : path -> S.
  Variable write_outcome : path -> write_result.
  Notation fmt := (formatted S O parse_ok print options_of settings_for).
  Notation changes := (would_change S O parse_ok print options_of settings_for).
  Notation formats := (formats S O parse_ok print options_of settings_for).
  Notation source := (format_source parse_ok print).
  Notation fpath := (format_path parse_ok print options_of settings_for).
  Notation one := (write_one parse_ok print options_of settings_for write_outcome).
  Notation wrun := (format_paths_write parse_ok print options_of settings_for write_outcome).
  Notation chk := (check_one parse_ok print options_of settings_for).
  Notation chkrun := (format_paths_check parse_ok print options_of settings_for).
  Notation idem := (idempotent S O parse_ok print options_of settings_for).

  (* C48 *)
  Lemma eq_text_len : forall a b, Nat.eqb (blen a) (blen b) && text_eqb a b = true <-> a = b.
  Proof.
    intros a b. rewrite andb_true_iff, text_eqb_eq. split; [tauto|].
    intros ->. split; [apply Nat.eqb_refl|reflexivity].
  Qed.

  Lemma format_source_cases : forall src o,
    (source src o = FParseError <-> parse_ok src = false) /\
    (source src o = FFormatError <-> parse_ok src = true /\ print o src = None) /\
    (source src o = FUnchanged <-> parse_ok src = true /\ print o src = Some src) /\
    (forall t, source src o = FChanged t <-> parse_ok src = true /\ print o src = Some t /\ t <> src).
  Proof.
    intros src o. unfold format_source. destruct (parse_ok src); cbn [negb].
    2: { repeat split; try discriminate; intros [H _]; discriminate. }
    destruct (print o src) as [out|].
    2: { repeat split; try discriminate; try (intros [_ H]; discriminate); try (intros [_ [H _]]; discriminate). }
    destruct (Nat.eqb (blen src) (blen out) && text_eqb src out) eqn:E.
    - apply eq_text_len in E. subst out. repeat split; try discriminate; try (intros [_ H]; discriminate).
      intros [_ [H1 H2]]. injection H1 as ->. contradiction.
    - assert (src <> out) as Hne by (intro H; apply eq_text_len in H; congruence).
      split; [split; discriminate|]. split; [split; [discriminate|intros [_ H]; discriminate]|].
      split.
      + split; [discriminate|]. intros [_ H]. injection H as ->. contradiction.
      + intro t. split.
        * intro H. injection H as <-. split; [reflexivity|]. split; [reflexivity|]. intro H. subst. contradiction.
        * intros [_ [H _]]. injection H as ->. reflexivity.
  Qed.

  Lemma fpath_cases : forall d p,
    (exists t out, d p = Some t /\ fmt p t = Some out /\ out <> t /\ fpath d p = inl (FChanged out)) \/
    (exists t, d p = Some t /\ fmt p t = Some t /\ fpath d p = inl FUnchanged) \/
    (~ formats d p /\ exists e, fpath d p = inr e).
  Proof.
    intros d p. unfold format_path, CliSpec.formats, formatted. destruct (d p) as [t|] eqn:Ed.
    2: { right. right. split; [intros [t [out [H _]]]; discriminate|]. eauto. }
    destruct (format_source_cases t (options_of (settings_for p) t)) as [H1 [H2 [H3 H4]]].
    destruct (source t (options_of (settings_for p) t)) as [out| | |] eqn:E.
    - destruct (proj1 (H4 out) eq_refl) as [G1 [G2 G3]]. left. exists t, out. rewrite G1. auto.
    - destruct (proj1 H3 eq_refl) as [G1 G2]. right. left. exists t. rewrite G1. auto.
    - pose proof (proj1 H1 eq_refl) as G. right. right. split; [|eauto].
      intros [t' [out [A B]]]. injection A as <-. rewrite G in B. discriminate.
    - destruct (proj1 H2 eq_refl) as [G1 G2]. right. right. split; [|eauto].
      intros [t' [out [A B]]]. injection A as <-. rewrite G1, G2 in B. discriminate.
  Qed.

  Lemma apply_ops_app : forall a b d, apply_ops d (a ++ b) = apply_ops (apply_ops d a) b.
  Proof. intros. unfold apply_ops. apply fold_left_app. Qed.

  Lemma apply_ops_untouched : forall ops d p, ~ touches ops p -> apply_ops d ops p = d p.
  Proof.
    induction ops as [|o ops IH]; intros d p H; [reflexivity|]. cbn [apply_ops fold_left].
    fold (apply_ops (apply_op d o) ops). rewrite IH.
    - destruct o as [q|q t]; cbn [apply_op]; apply disk_set_other; intros ->; apply H;
        (eexists; split; [left; reflexivity|reflexivity]).
    - intros [x [H1 H2]]. apply H. exists x. split; [right; exact H1|exact H2].
  Qed.

  (* one file *)
  Lemma one_touches : forall d f q, touches (fst (one d f)) q -> f = FOk q /\ changes d q.
  Proof.
    intros d [p|p] q [o [Ho Hq]]; cbn in Ho; [|contradiction].
    destruct (fpath_cases d p) as [[t [out [H1 [H2 [H3 H4]]]]]|[[t [H1 [H2 H3]]]|[H1 [e H2]]]].
    - rewrite H4 in Ho. cbn in Ho.
      assert (q = p) as ->.
      { destruct (write_outcome p); cbn in Ho; intuition (subst; try reflexivity; try contradiction). }
      split; [reflexivity|]. exists t, out. auto.
    - rewrite H3 in Ho. cbn in Ho. contradiction.
    - rewrite H2 in Ho. cbn in Ho. contradiction.
  Qed.

  Lemma one_result : forall d p, write_outcome p = WOk ->
    apply_ops d (fst (one d (FOk p))) p =
      match d p with
      | Some t => match fmt p t with Some out => Some out | None => Some t end
      | None => None
      end.
  Proof.
    intros d p Hw. cbn [write_one].
    destruct (fpath_cases d p) as [[t [out [H1 [H2 [H3 H4]]]]]|[[t [H1 [H2 H3]]]|[H1 [e H2]]]].
    - rewrite H4, H1, H2. cbn [write_path]. unfold write_path. rewrite Hw. cbn. rewrite disk_set_same. reflexivity.
    - rewrite H3, H1, H2. cbn. exact H1.
    - rewrite H2. cbn. destruct (d p) as [t|] eqn:E; [|reflexivity].
      destruct (fmt p t) as [out|] eqn:E2; [|reflexivity]. exfalso. apply H1. exists t, out. auto.
  Qed.

  Lemma one_errors : forall d f,
    snd (one d f) = [] <->
    match f with
    | FErr _ => False
    | FOk p => formats d p /\ (changes d p -> write_outcome p = WOk)
    end.
  Proof.
    intros d [p|p]; cbn [write_one snd]; [|split; [discriminate|tauto]].
    destruct (fpath_cases d p) as [[t [out [H1 [H2 [H3 H4]]]]]|[[t [H1 [H2 H3]]]|[H1 [e H2]]]].
    - rewrite H4. unfold write_path. destruct (write_outcome p) eqn:Ew; cbn.
      + split; [intros _; split; [exists t, out; auto|reflexivity]|reflexivity].
      + split; [discriminate|]. intros [_ H]. assert (changes d p) as Hc by (exists t, out; auto).
        apply H in Hc. discriminate.
      + split; [discriminate|]. intros [_ H]. assert (changes d p) as Hc by (exists t, out; auto).
        apply H in Hc. discriminate.
    - rewrite H3. cbn. split; [intros _|reflexivity]. split; [exists t, t; auto|].
      intros [t' [out [A [B C]]]]. rewrite H1 in A. injection A as <-. rewrite H2 in B. injection B as <-. contradiction.
    - rewrite H2. cbn. split; [discriminate|]. intros [H _]. contradiction.
  Qed.

  (* only depends on the content of the file *)
  Lemma fpath_ext : forall d d' p, d p = d' p -> fpath d p = fpath d' p.
  Proof. intros d d' p H. unfold format_path. rewrite H. reflexivity. Qed.
  Lemma one_ext : forall d d' f, (forall p, f = FOk p -> d p = d' p) -> one d f = one d' f.
  Proof.
    intros d d' [p|p] H; [|reflexivity]. cbn [write_one].
    rewrite (fpath_ext d d' p) by (apply H; reflexivity). reflexivity.
  Qed.

  Lemma run_touches : forall l d q, touches (fst (wrun d l)) q -> In (FOk q) l.
  Proof.
    induction l as [|f l IH]; intros d q; cbn [format_paths_write].
    - intros [o [[] _]].
    - destruct (one d f) as [ops es] eqn:E1. destruct (wrun (apply_ops d ops) l) as [ops' es'] eqn:E2.
      cbn [fst]. intros [o [Ho Hq]]. apply in_app_or in Ho. destruct Ho as [Ho|Ho].
      + left. apply (one_touches d f q). rewrite E1. exists o. auto.
      + right. apply (IH (apply_ops d ops)). rewrite E2. exists o. auto.
  Qed.

  Lemma run_other : forall l d q, ~ In (FOk q) l -> apply_ops d (fst (wrun d l)) q = d q.
  Proof. intros l d q H. apply apply_ops_untouched. intro Ht. apply H. eapply run_touches. exact Ht. Qed.

  (* the effects on one path are those of processing it alone, for distinct paths *)
  Definition oks (l : list found) : list path :=
    flat_map (fun f => match f with FOk p => [p] | FErr _ => [] end) l.
  Lemma oks_In : forall l p, In p (oks l) <-> In (FOk p) l.
  Proof.
    intros l p. unfold oks. rewrite in_flat_map. split.
    - intros [[q|q] [H1 H2]]; cbn in H2; [|contradiction]. destruct H2 as [<-|[]]. exact H1.
    - intro H. exists (FOk p). split; [exact H|left; reflexivity].
  Qed.

  Lemma run_at : forall l d p, NoDup (oks l) -> In (FOk p) l ->
    apply_ops d (fst (wrun d l)) p = apply_ops d (fst (one d (FOk p))) p /\
    (touches (fst (wrun d l)) p <-> touches (fst (one d (FOk p))) p).
  Proof.
    induction l as [|f l IH]; intros d p Hnd Hin; [destruct Hin|].
    cbn [format_paths_write]. destruct (one d f) as [ops es] eqn:E1.
    destruct (wrun (apply_ops d ops) l) as [ops' es'] eqn:E2. cbn [fst].
    rewrite apply_ops_app.
    assert (ops' = fst (wrun (apply_ops d ops) l)) as Eo by (rewrite E2; reflexivity).
    assert (ops = fst (one d f)) as Eo1 by (rewrite E1; reflexivity).
    assert (forall q, touches (ops ++ ops') q <-> touches ops q \/ touches ops' q) as Htapp.
    { intro q. unfold touches. split.
      - intros [o [Ho Hq]]. apply in_app_or in Ho. destruct Ho; [left|right]; eauto.
      - intros [[o [Ho Hq]]|[o [Ho Hq]]]; exists o; (split; [apply in_or_app; tauto|exact Hq]). }
    destruct f as [q|q].
    - cbn [oks flat_map app] in Hnd. inversion Hnd as [|x xs Hx Hnd']; subst x xs.
      destruct Hin as [Hin|Hin].
      + injection Hin as ->.
        assert (~ In (FOk p) l) as Hnot by (rewrite <- oks_In; exact Hx).
        rewrite Eo at 1. rewrite (run_other l (apply_ops d ops) p Hnot). rewrite Eo1. split; [reflexivity|].
        rewrite <- Eo1, Htapp. split; [|tauto]. intros [H|H]; [exact H|]. rewrite Eo in H. apply run_touches in H. contradiction.
      + assert (p <> q) as Hpq by (intros ->; apply Hx; apply oks_In; exact Hin).
        destruct (IH (apply_ops d ops) p Hnd' Hin) as [I1 I2]. rewrite <- Eo in I1, I2.
        assert (~ touches ops p) as Hnt.
        { intro Ht. rewrite Eo1 in Ht. apply one_touches in Ht. destruct Ht as [Ht _]. injection Ht as ->. contradiction. }
        assert (apply_ops d ops p = d p) as Hsame by (apply apply_ops_untouched; exact Hnt).
        assert (one (apply_ops d ops) (FOk p) = one d (FOk p)) as Hone.
        { apply one_ext. intros p' Hp'. injection Hp' as <-. exact Hsame. }
        rewrite Hone in I1, I2. split.
        * rewrite I1. destruct (fst (one d (FOk p))) as [|o os] eqn:Eop; [cbn; exact Hsame|].
          (* nonempty effects overwrite p *)
          rewrite <- Eop. clear - Hsame.
          assert (forall os (a b : disk), a p = b p -> apply_ops a os p = apply_ops b os p) as Hext.
          { induction os as [|o os IHo]; intros a b Hab; [exact Hab|]. cbn [apply_ops fold_left].
            apply IHo. destruct o as [x|x t]; cbn; unfold disk_set; destruct (path_eqb p x); auto. }
          apply Hext. exact Hsame.
        * rewrite Htapp, I2. tauto.
    - destruct Hin as [Hin|Hin]; [discriminate|]. cbn [oks flat_map app] in Hnd.
      cbn in E1. injection E1 as <- <-. cbn [apply_ops fold_left] in *.
      destruct (IH d p Hnd Hin) as [I1 I2]. rewrite <- Eo in I1, I2. cbn [app]. split; assumption.
  Qed.

  Lemma ops_ext : forall os (a b : disk) p, a p = b p -> apply_ops a os p = apply_ops b os p.
  Proof.
    induction os as [|o os IHo]; intros a b p Hab; [exact Hab|]. cbn [apply_ops fold_left].
    apply IHo. destruct o as [x|x t]; cbn; unfold disk_set; destruct (path_eqb p x); auto.
  Qed.

  (* C14 *)
  Lemma write_final : forall l d p, NoDup (oks l) -> write_outcome p = WOk ->
    apply_ops d (fst (wrun d l)) p =
      if existsb (path_eqb p) (oks l) then
        match d p with
        | Some t => match fmt p t with Some out => Some out | None => Some t end
        | None => None
        end
      else d p.
  Proof.
    intros l d p Hnd Hw. destruct (existsb (path_eqb p) (oks l)) eqn:E.
    - apply existsb_exists in E. destruct E as [q [Hq E]]. apply path_eqb_eq in E. subst q.
      apply oks_In in Hq. destruct (run_at l d p Hnd Hq) as [-> _]. apply one_result. exact Hw.
    - apply run_other. intro H. apply oks_In in H.
      assert (existsb (path_eqb p) (oks l) = true) by (apply existsb_exists; exists p; split; [exact H|apply path_eqb_refl]).
      congruence.
  Qed.

  Lemma write_touches_iff : forall l d p, NoDup (oks l) ->
    write_outcome p <> WOpenErr ->
    (touches (fst (wrun d l)) p <-> In (FOk p) l /\ changes d p).
  Proof.
    intros l d p Hnd Hw. split.
    - intro H. pose proof (run_touches _ _ _ H) as Hin. split; [exact Hin|].
      apply (run_at l d p Hnd Hin) in H. apply one_touches in H. apply H.
    - intros [Hin Hc]. apply (run_at l d p Hnd Hin).
      destruct (fpath_cases d p) as [[t [out [H1 [H2 [H3 H4]]]]]|[[t [H1 [H2 H3]]]|[H1 [e H2]]]].
      + cbn [write_one]. rewrite H4. unfold write_path.
        destruct (write_outcome p); [| contradiction|]; (exists (Truncate p); split; [left; reflexivity|reflexivity]).
      + destruct Hc as [t' [out [A [B C]]]]. rewrite H1 in A. injection A as <-. rewrite H2 in B. injection B as <-. contradiction.
      + exfalso. apply H1. destruct Hc as [t' [out [A [B C]]]]. exists t', out. auto.
  Qed.

  Lemma changes_ext : forall d d' p, d p = d' p -> (changes d p <-> changes d' p).
  Proof. intros d d' p H. unfold would_change. rewrite H. reflexivity. Qed.
  Lemma formats_ext : forall d d' p, d p = d' p -> (formats d p <-> formats d' p).
  Proof. intros d d' p H. unfold CliSpec.formats. rewrite H. reflexivity. Qed.

  Lemma write_errors : forall l d, NoDup (oks l) ->
    (snd (wrun d l) = [] <->
     forall f, In f l -> match f with
       | FErr _ => False
       | FOk p => formats d p /\ (changes d p -> write_outcome p = WOk) end).
  Proof.
    induction l as [|f l IH]; intros d Hnd; cbn [format_paths_write].
    - cbn. split; [intros _ f []|reflexivity].
    - destruct (one d f) as [ops es] eqn:E1. destruct (wrun (apply_ops d ops) l) as [ops' es'] eqn:E2.
      cbn [snd].
      assert (es = snd (one d f)) as Ees by (rewrite E1; reflexivity).
      assert (es' = snd (wrun (apply_ops d ops) l)) as Ees' by (rewrite E2; reflexivity).
      assert (NoDup (oks l)) as Hnd'.
      { destruct f; cbn [oks flat_map app] in Hnd; [inversion Hnd; assumption|exact Hnd]. }
      assert (forall p, In (FOk p) l -> apply_ops d ops p = d p) as Hsame.
      { intros p Hp. apply apply_ops_untouched. intro Ht.
        assert (ops = fst (one d f)) as Eo by (rewrite E1; reflexivity).
        rewrite Eo in Ht. apply one_touches in Ht. destruct Ht as [-> _].
        cbn [oks flat_map app] in Hnd. inversion Hnd as [|x xs Hx _]; subst. apply Hx. apply oks_In. exact Hp. }
      split.
      + intros H g [<-|Hg].
        * apply app_eq_nil in H. destruct H as [H _]. rewrite Ees in H. apply one_errors in H. exact H.
        * apply app_eq_nil in H. destruct H as [_ H]. rewrite Ees' in H.
          pose proof (proj1 (IH _ Hnd') H g Hg) as Hx. destruct g as [p|p]; [|exact Hx].
          rewrite (formats_ext _ d p) in Hx by (apply Hsame; exact Hg).
          rewrite (changes_ext _ d p) in Hx by (apply Hsame; exact Hg). exact Hx.
      + intro H. assert (es = []) as ->.
        { rewrite Ees. apply one_errors. apply (H f). left. reflexivity. }
        cbn [app]. rewrite Ees'. apply IH; [exact Hnd'|]. intros g Hg.
        pose proof (H g (or_intror Hg)) as Hx. destruct g as [p|p]; [|exact Hx].
        rewrite (formats_ext _ d p) by (apply Hsame; exact Hg).
        rewrite (changes_ext _ d p) by (apply Hsame; exact Hg). exact Hx.
  Qed.

  (* C13 *)
  Lemma chk_reported : forall d f p, In p (fst (chk d f)) <-> f = FOk p /\ changes d p.
  Proof.
    intros d [q|q] p; cbn [check_one fst]; [|split; [intros []|intros [H _]; discriminate]].
    destruct (fpath_cases d q) as [[t [out [H1 [H2 [H3 H4]]]]]|[[t [H1 [H2 H3]]]|[H1 [e H2]]]].
    - rewrite H4. cbn. split.
      + intros [<-|[]]. split; [reflexivity|]. exists t, out. auto.
      + intros [H _]. injection H as ->. left. reflexivity.
    - rewrite H3. cbn. split; [intros []|]. intros [H [t' [out [A [B C]]]]]. injection H as ->.
      rewrite H1 in A. injection A as <-. rewrite H2 in B. injection B as <-. contradiction.
    - rewrite H2. cbn. split; [intros []|]. intros [H [t' [out [A [B C]]]]]. injection H as ->.
      apply H1. exists t', out. auto.
  Qed.
  Lemma chk_errors : forall d f, snd (chk d f) = [] <-> match f with FErr _ => False | FOk p => formats d p end.
  Proof.
    intros d [q|q]; cbn [check_one snd]; [|split; [discriminate|tauto]].
    destruct (fpath_cases d q) as [[t [out [H1 [H2 [H3 H4]]]]]|[[t [H1 [H2 H3]]]|[H1 [e H2]]]].
    - rewrite H4. cbn. split; [intros _; exists t, out; auto|reflexivity].
    - rewrite H3. cbn. split; [intros _; exists t, t; auto|reflexivity].
    - rewrite H2. cbn. split; [discriminate|contradiction].
  Qed.

  Notation files := (format_files parse_ok print options_of settings_for write_outcome).

  Lemma check_reported : forall d l p,
    In p (r_reported (files true d l)) <-> In (FOk p) l /\ changes d p.
  Proof.
    intros d l p. unfold format_files, format_paths_check. cbn [r_reported].
    assert (forall x, In p (sort_paths x) <-> In p x) as Hs.
    { intro x. split; apply Permutation_in; [apply sort_perm|symmetry; apply sort_perm]. }
    rewrite Hs, in_flat_map. split.
    - intros [f [H1 H2]]. apply chk_reported in H2. destruct H2 as [-> H2]. auto.
    - intros [H1 H2]. exists (FOk p). split; [exact H1|]. apply chk_reported. auto.
  Qed.

  Lemma check_reported_sorted : forall d l, Sorted path_le (r_reported (files true d l)).
  Proof. intros. apply sort_sorted. Qed.

  Lemma flat_map_nil : forall (A B : Type) (f : A -> list B) l, flat_map f l = [] <-> forall x, In x l -> f x = [].
  Proof.
    intros A B f l. induction l as [|x l IH]; cbn; [split; [intros _ y []|reflexivity]|].
    split.
    - intro H. apply app_eq_nil in H. destruct H as [H1 H2]. intros y [<-|Hy]; [exact H1|]. apply IH; assumption.
    - intro H. rewrite (H x (or_introl eq_refl)). cbn. apply IH. intros y Hy. apply H. right. exact Hy.
  Qed.

  Lemma check_status : forall d l,
    let failed := exists f, In f l /\ match f with FErr _ => True | FOk p => ~ formats d p end in
    let pending := exists p, In (FOk p) l /\ changes d p in
    (r_status (files true d l) = Error <-> failed) /\
    (r_status (files true d l) = Failure <-> ~ failed /\ pending) /\
    (r_status (files true d l) = Success <-> ~ failed /\ ~ pending).
  Proof.
    intros d l failed pending. unfold format_files, format_paths_check. cbn [r_status].
    assert (flat_map (fun f => snd (chk d f)) l = [] <-> ~ failed) as He.
    { rewrite flat_map_nil. split.
      - intros H [f [Hf Hx]]. specialize (H f Hf). apply chk_errors in H. destruct f; tauto.
      - intros H f Hf. apply chk_errors. destruct f as [p|p].
        + destruct (fpath_cases d p) as [[t [out [H1 [H2 [H3 H4]]]]]|[[t [H1 [H2 H3]]]|[H1 [e H2]]]].
          * exists t, out. auto.
          * exists t, t. auto.
          * exfalso. apply H. exists (FOk p). auto.
        + apply H. exists (FErr p). auto. }
    assert (flat_map (fun f => fst (chk d f)) l = [] <-> ~ pending) as Hp.
    { rewrite flat_map_nil. split.
      - intros H [p [Hf Hx]]. specialize (H _ Hf).
        assert (In p (fst (chk d (FOk p)))) as Hin by (apply chk_reported; auto). rewrite H in Hin. destruct Hin.
      - intros H f Hf. destruct (fst (chk d f)) as [|p r] eqn:E; [reflexivity|].
        exfalso. assert (In p (fst (chk d f))) as Hin by (rewrite E; left; reflexivity).
        apply chk_reported in Hin. destruct Hin as [-> Hc]. apply H. exists p. auto. }
    assert (flat_map (fun f => snd (chk d f)) l <> [] -> failed) as He'.
    { intro H. destruct (flat_map (fun f => snd (chk d f)) l) as [|e r] eqn:E; [contradiction|].
      assert (In e (flat_map (fun f => snd (chk d f)) l)) as Hin by (rewrite E; left; reflexivity).
      apply in_flat_map in Hin. destruct Hin as [f [Hf Hx]]. exists f. split; [exact Hf|].
      assert (snd (chk d f) <> []) as Hne by (intro Hn; rewrite Hn in Hx; destruct Hx).
      destruct f as [p|p]; [|exact I]. intro Hfm. apply Hne. apply chk_errors. exact Hfm. }
    assert (flat_map (fun f => fst (chk d f)) l <> [] -> pending) as Hp'.
    { intro H. destruct (flat_map (fun f => fst (chk d f)) l) as [|e r] eqn:E; [contradiction|].
      assert (In e (flat_map (fun f => fst (chk d f)) l)) as Hin by (rewrite E; left; reflexivity).
      apply in_flat_map in Hin. destruct Hin as [f [Hf Hx]]. apply chk_reported in Hx. destruct Hx as [-> Hx].
      exists e. auto. }
    destruct (flat_map (fun f => snd (chk d f)) l) as [|e r].
    - assert (~ failed) as Hnf by (apply He; reflexivity).
      destruct (flat_map (fun f => fst (chk d f)) l) as [|c r'].
      + assert (~ pending) as Hnp by (apply Hp; reflexivity).
        repeat split; try discriminate; try tauto.
      + assert pending as Hpp by (apply Hp'; discriminate). repeat split; try discriminate; try tauto.
    - assert failed as Hff by (apply He'; discriminate). repeat split; try discriminate; tauto.
  Qed.

  (* check reports what write would attempt to change, duplicates allowed *)
  Lemma check_is_write : forall d l p, NoDup (oks l) -> write_outcome p <> WOpenErr ->
    (In p (r_reported (files true d l)) <-> touches (r_ops (files false d l)) p).
  Proof.
    intros d l p Hnd Hw. rewrite check_reported. unfold format_files.
    pose proof (write_touches_iff l d p Hnd Hw) as H. destruct (wrun d l) as [ops es]. cbn [fst r_ops] in *.
    symmetry. exact H.
  Qed.

  (* C15 *)
  Definition after (d : disk) (l : list found) : disk := apply_ops d (fst (wrun d l)).

  Lemma oks_perm : forall l l', Permutation l l' -> Permutation (oks l) (oks l').
  Proof.
    intros l l' H. unfold oks. induction H; cbn.
    - constructor.
    - apply Permutation_app_head. exact IHPermutation.
    - rewrite !app_assoc. apply Permutation_app_tail. apply Permutation_app_comm.
    - etransitivity; eassumption.
  Qed.

  Lemma oks_app : forall a b, oks (a ++ b) = oks a ++ oks b.
  Proof. intros. unfold oks. apply flat_map_app. Qed.

  Lemma restartable : forall d l l' k p,
    (forall q, write_outcome q = WOk) -> idem -> NoDup (oks l) -> Permutation l' l ->
    after (after d (firstn k l)) l' p = after d l p.
  Proof.
    intros d l l' k p Hw Hid Hnd Hperm. unfold after.
    assert (NoDup (oks l')) as Hnd' by (eapply Permutation_NoDup; [symmetry; apply oks_perm; exact Hperm|exact Hnd]).
    assert (NoDup (oks (firstn k l))) as Hndk.
    { rewrite <- (firstn_skipn k l) in Hnd. rewrite oks_app in Hnd. revert Hnd. generalize (oks (skipn k l)) as y.
      generalize (oks (firstn k l)) as x. induction x as [|a x IH]; intros y H; [constructor|].
      cbn in H. inversion H; subst. constructor; [intro Hin; apply H2; apply in_or_app; left; exact Hin|]. eapply IH. eassumption. }
    rewrite (write_final l') by (auto). rewrite (write_final l) by auto.
    rewrite (write_final (firstn k l)) by auto.
    assert (existsb (path_eqb p) (oks l') = existsb (path_eqb p) (oks l)) as ->.
    { apply eq_true_iff_eq. rewrite !existsb_exists. split; intros [q [Hq E]]; exists q; (split; [|exact E]).
      - eapply Permutation_in; [apply oks_perm; exact Hperm|exact Hq].
      - eapply Permutation_in; [symmetry; apply oks_perm; exact Hperm|exact Hq]. }
    destruct (existsb (path_eqb p) (oks (firstn k l))) eqn:Ek.
    - assert (existsb (path_eqb p) (oks l) = true) as ->.
      { rewrite <- (firstn_skipn k l), oks_app, existsb_app, Ek. reflexivity. }
      destruct (d p) as [t|]; [|reflexivity]. destruct (fmt p t) as [out|] eqn:Ef.
      + rewrite (Hid _ _ _ Ef). reflexivity.
      + rewrite Ef. reflexivity.
    - reflexivity.
  Qed.
End C.

(* duplicates *)
Section NoDupWalk.
  Variable S : Type.
  Variable user_exclude : S -> option patterns.
  Variable default_exclude default_include : S -> bool.
  Variable settings_for : path -> S.
  Variable dropped : path -> path -> bool -> bool.
  Variable force : bool.
  Notation wlk := (walk S user_exclude default_exclude default_include settings_for dropped force).

  Fixpoint names_distinct (n : node) : Prop :=
    match n with
    | Dir es => NoDup (map fst es) /\ (fix all (l : list (text * node)) : Prop :=
        match l with [] => True | e :: r => names_distinct (snd e) /\ all r end) es
    | _ => True
    end.

  Lemma walk_below : forall n start p b q, In q (oks (wlk start p b n)) -> ancestor_or_self p q.
  Proof.
    induction n as [|es IH| |] using node_ind'; intros start p b q; cbn [walk]; intro H; apply oks_In in H.
    - unfold visit_format in H.
      match type of H with In _ (match ?x with _ => _ end) => destruct x eqn:E end; try contradiction.
      destruct (match (if force then ExNothing else ExMatched) with ExMatched => _ | ExNothing => _ end) as [[|]|]; try discriminate.
      destruct (if force then InEverything else InMatched); [destruct (any_include_matched_path _ _ _ _)|];
        injection E as <-; destruct H as [H|[]] || destruct H; injection H as <-; exists []; symmetry; apply app_nil_r.
    - match type of H with In _ (match ?x with _ => _ end) => destruct x eqn:E end; try contradiction.
      apply in_app_or in H. destruct H as [H|H].
      + unfold visit_format in E.
        destruct (match (if force then ExNothing else ExMatched) with ExMatched => _ | ExNothing => _ end) as [[|]|]; try discriminate.
        injection E as <-. destruct H.
      + apply in_flat_map in H. destruct H as [[c n'] [He H]]. cbn [fst snd] in H.
        destruct (dropped _ _ _); [destruct H|].
        apply oks_In in H. apply (IH c n' He) in H. destruct H as [r ->].
        exists ([c] ++ r). rewrite app_assoc. reflexivity.
    - match type of H with In _ (match ?x with _ => _ end) => destruct x eqn:E end; try contradiction.
      apply in_app_or in H. destruct H as [H|[H|[]]]; [|discriminate].
      unfold visit_format in E.
      destruct (match (if force then ExNothing else ExMatched) with ExMatched => _ | ExNothing => _ end) as [[|]|]; try discriminate.
      injection E as <-. destruct H.
    - destruct H as [H|[]]. discriminate.
  Qed.

  Lemma oks_flat_map : forall (A : Type) (f : A -> list found) l, oks (flat_map f l) = flat_map (fun x => oks (f x)) l.
  Proof. intros A f l. induction l as [|x l IH]; cbn [flat_map]; [reflexivity|]. rewrite oks_app, IH. reflexivity. Qed.

  Lemma nodup_app : forall (A : Type) (a b : list A), NoDup a -> NoDup b -> (forall x, In x a -> ~ In x b) -> NoDup (a ++ b).
  Proof.
    intros A a b Ha Hb Hd. induction Ha as [|x a Hx Ha IH]; cbn; [exact Hb|].
    constructor; [|apply IH; intros y Hy; apply Hd; right; exact Hy].
    intro H. apply in_app_or in H. destruct H as [H|H]; [contradiction|]. apply (Hd x (or_introl eq_refl) H).
  Qed.

  Lemma visit_out : forall b p d out, visit_format S user_exclude default_exclude default_include settings_for
      (if force then ExNothing else ExMatched) (if force then InEverything else InMatched) b p d = VContinue out ->
    out = [] \/ (d = false /\ out = [FOk p]).
  Proof.
    intros b p d out H. unfold visit_format in H.
    destruct (match (if force then ExNothing else ExMatched) with ExMatched => _ | ExNothing => _ end) as [[|]|]; try discriminate.
    destruct d; [injection H as <-; left; reflexivity|].
    destruct (if force then InEverything else InMatched); [destruct (any_include_matched_path _ _ _ _)|]; injection H as <-; auto.
  Qed.

  Lemma walk_nodup : forall n start p b, names_distinct n -> NoDup (oks (wlk start p b n)).
  Proof.
    induction n as [|es IH| |] using node_ind'; intros start p b Hd; cbn [walk].
    - destruct (visit_format _ _ _ _ _ _ _ b p false) eqn:E; try constructor.
      apply visit_out in E. destruct E as [->|[_ ->]]; repeat constructor. intros [].
    - destruct (visit_format _ _ _ _ _ _ _ b p true) eqn:E; try constructor.
      apply visit_out in E. destruct E as [->|[E _]]; [|discriminate]. cbn [app].
      rewrite oks_flat_map. destruct Hd as [Hn Hall].
      induction es as [|[c n] es IHes]; [constructor|]. cbn [flat_map]. cbn [map fst] in Hn. inversion Hn as [|x l Hx Hn']; subst.
      destruct Hall as [Hd1 Hall]. apply nodup_app.
      + cbn [fst snd] in *. destruct (dropped _ _ _); [constructor|]. apply (IH c n); [left; reflexivity|exact Hd1].
      + apply IHes; [|exact Hn'|exact Hall]. intros c' n' H. apply (IH c' n'). right. exact H.
      + intros q Hq Hq'. cbn [fst snd] in Hq. destruct (dropped start (p ++ [c]) (is_dir_node n)); [destruct Hq|].
        apply walk_below in Hq. apply in_flat_map in Hq'. destruct Hq' as [[c' n'] [He Hq']]. cbn [fst snd] in Hq'.
        destruct (dropped start (p ++ [c']) (is_dir_node n')); [destruct Hq'|]. apply walk_below in Hq'.
        apply Hx. apply in_map_iff. exists (c', n'). split; [|exact He]. cbn.
        assert (p ++ [c] = p ++ [c']) as Heq.
        { apply (anc_same_len _ _ _ Hq Hq'). rewrite !app_length. reflexivity. }
        apply app_inv_head in Heq. injection Heq as ->. reflexivity.
    - destruct (visit_format _ _ _ _ _ _ _ b p true) eqn:E; try constructor.
      apply visit_out in E. destruct E as [->|[E _]]; [|discriminate]. cbn. constructor.
    - cbn. constructor.
  Qed.

  (* No start path lies at or below another one given separately. *)
  Fixpoint disjoint_starts (roots : list (path * node)) : Prop :=
    match roots with
    | [] => True
    | r :: rest =>
      (forall r', In r' rest -> ~ ancestor_or_self (fst r) (fst r') /\ ~ ancestor_or_self (fst r') (fst r)) /\
      disjoint_starts rest
    end.

  Notation wall := (walk_all S user_exclude default_exclude default_include settings_for dropped force).

  Lemma anc_comparable : forall a b q, ancestor_or_self a q -> ancestor_or_self b q -> ancestor_or_self a b \/ ancestor_or_self b a.
  Proof.
    intros a b q [r1 E1] [r2 E2].
    destruct (Nat.lt_trichotomy (length a) (length b)) as [L|[L|L]].
    - destruct (prefixes_comparable q a b r1 r2 E1 E2 L) as [c [s ->]]. left. exists (c :: s). reflexivity.
    - left. rewrite (anc_same_len a b q); [exists []; symmetry; apply app_nil_r|exists r1; exact E1|exists r2; exact E2|exact L].
    - destruct (prefixes_comparable q b a r2 r1 E2 E1 L) as [c [s ->]]. right. exists (c :: s). reflexivity.
  Qed.

  Lemma walk_all_nodup : forall roots, disjoint_starts roots -> (forall r, In r roots -> names_distinct (snd r)) ->
    NoDup (oks (wall roots)).
  Proof.
    intros roots Hd Hn. unfold walk_all. rewrite oks_flat_map.
    induction roots as [|[a n] roots IH]; [constructor|]. destruct Hd as [Hd1 Hd2]. cbn [flat_map fst snd]. apply nodup_app.
    - apply walk_nodup. apply (Hn (a, n)). left. reflexivity.
    - apply IH; [exact Hd2|]. intros r Hr. apply Hn. right. exact Hr.
    - intros q Hq Hq'. apply walk_below in Hq. apply in_flat_map in Hq'. destruct Hq' as [[b m] [Hin Hq']].
      cbn [fst snd] in Hq'. apply walk_below in Hq'. destruct (Hd1 _ Hin) as [D1 D2]. cbn [fst] in *.
      destruct (anc_comparable _ _ _ Hq Hq'); contradiction.
  Qed.

  Lemma outcome_files_nodup : forall k roots files,
    disjoint_starts roots -> (forall r, In r roots -> names_distinct (snd r)) ->
    outcome S user_exclude default_exclude default_include settings_for dropped force k roots files ->
    NoDup (oks files).
  Proof.
    intros k roots files Hd Hn Ho. apply outcome_perm in Ho.
    eapply Permutation_NoDup; [symmetry; apply oks_perm; exact Ho|]. apply walk_all_nodup; assumption.
  Qed.
End NoDupWalk.

(* whole commands *)
Section Cmd.
  Variables S O : Type.
  Variable parse_ok : text -> bool.
  Variable print : O -> text -> option text.
  Variable options_of : S -> text -> O.
  Variable user_exclude : S -> option patterns.
  Variables default_exclude default_include : S -> bool.
  Variable fb : S.
  Variable is_file : path -> bool.
  Variable parse_settings : path -> path -> option S.
  Variables A1 A2 : text.
  Variable node_of : path -> node.
  Variable dropped : path -> path -> bool -> bool.
  Variable write_outcome : path -> write_result.
  (* Settings::default has no user patterns; into_settings roots them at its directory. *)
  Hypothesis fb_no_user : user_exclude fb = None.
  Hypothesis rooted_here : forall t d s ps, parse_settings t d = Some s -> user_exclude s = Some ps -> p_root ps = d.

  Notation resolver_for := (resolver_for S fb is_file parse_settings A1 A2).
  Notation command := (format_command S O parse_ok print options_of user_exclude default_exclude default_include fb
    is_file parse_settings A1 A2 node_of dropped write_outcome).
  Notation stdin := (format_stdin S O parse_ok print options_of user_exclude default_exclude default_include fb
    is_file parse_settings A1 A2).
  Notation toml_of := (find_air_toml_in_directory is_file A1 A2).

  Lemma resolver_rooted : forall paths r p ps, resolver_for paths = Some r ->
    user_exclude (resolve_or_fallback r p) = Some ps -> starts_with p (p_root ps) = true.
  Proof.
    intros paths r p ps Hr Hu. unfold CliModel.resolver_for in Hr.
    pose proof (discover_ok S is_file parse_settings A1 A2 paths) as Hd.
    destruct (discover_settings _ _ _ _ _ paths) as [fd|]; [|discriminate]. injection Hr as <-.
    destruct Hd as [seen [O1 [_ [_ [_ [O5 _]]]]]].
    destruct (load_lookup S is_file parse_settings fd (resolver_new fb) I O5) as [L1 [L2 L3]]; [reflexivity|].
    fold (load_resolver S fb fd) in L1, L2, L3. set (r := load_resolver S fb fd) in *.
    unfold resolve_or_fallback in Hu.
    rewrite (resolve_refines S r (lookup S (items r)) p) in Hu by (split; auto).
    destruct (spec_resolve (lookup S (items r)) p) as [[q s]|] eqn:E.
    - apply spec_resolve_deepest in E. destruct E as [E1 [E2 _]]. apply L3 in E1.
      destruct E1 as [E1|E1]; [|cbn in E1; discriminate].
      destruct (O1 _ _ E1) as [t [_ Ht]]. cbn in Hu. rewrite (rooted_here _ _ _ _ Ht Hu).
      apply starts_with_iff. exact E2.
    - rewrite L2 in Hu. cbn in Hu. rewrite fb_no_user in Hu. discriminate.
  Qed.

  Lemma command_inv : forall check force k d paths res, command check force k d paths res ->
    (resolver_for paths = None /\ res = hard_error) \/
    (exists r files, resolver_for paths = Some r /\
      outcome S user_exclude default_exclude default_include (resolve_or_fallback r) dropped force k
        (map (fun p => (p, node_of p)) paths) files /\
      res = format_files parse_ok print options_of (resolve_or_fallback r) write_outcome check d files).
  Proof.
    intros check force k d paths res H. destruct H as [H|r fin order H em im H1 H2 H3].
    - left. auto.
    - right. exists r, (deliver order). split; [exact H|]. split; [|reflexivity].
      exists fin, order. auto.
  Qed.

  Lemma command_exists : forall check force k d paths, 0 < k -> exists res, command check force k d paths res.
  Proof.
    intros check force k d paths Hk. destruct (resolver_for paths) as [r|] eqn:E.
    - destruct (outcome_exists S user_exclude default_exclude default_include (resolve_or_fallback r) dropped force
        (fun p ps => resolver_rooted paths r p ps E) k (map (fun p => (p, node_of p)) paths) Hk) as [files [fin [order [H1 [H2 [H3 ->]]]]]].
      eexists. eapply CmdRun; eassumption.
    - exists hard_error. apply CmdBroken. exact E.
  Qed.

  (* C09 *)
  Lemma broken_stops : forall check force k d paths res,
    (exists p dir, In p paths /\ nearest toml_of p dir /\ broken S toml_of parse_settings dir) ->
    command check force k d paths res ->
    r_status res = Error /\ r_ops res = [] /\ r_reported res = [] /\ forall q, apply_ops d (r_ops res) q = d q.
  Proof.
    intros check force k d paths res Hb H. apply command_inv in H. destruct H as [[_ ->]|[r [files [H _]]]].
    - repeat split.
    - exfalso. apply (discover_fails_iff S is_file parse_settings A1 A2) in Hb. unfold CliModel.resolver_for in H.
      rewrite Hb in H. discriminate.
  Qed.

  (* selection for a given resolver *)
  Definition selected (force : bool) (r : resolver S) (paths : list path) (p : path) : Prop :=
    exists start, In start paths /\
      selects S user_exclude default_exclude default_include (resolve_or_fallback r) dropped force start (node_of start) p.

  Lemma outcome_selected : forall force k r paths files p, resolver_for paths = Some r ->
    outcome S user_exclude default_exclude default_include (resolve_or_fallback r) dropped force k
        (map (fun p => (p, node_of p)) paths) files ->
    (In (FOk p) files <-> selected force r paths p).
  Proof.
    intros force k r paths files p Hr Ho.
    rewrite (selection S user_exclude default_exclude default_include (resolve_or_fallback r) dropped force
      (fun p ps => resolver_rooted paths r p ps Hr) k _ files p Ho).
    unfold selected. split.
    - intros [start [n [H1 H2]]]. apply in_map_iff in H1. destruct H1 as [q [H1 H3]]. inversion H1; subst.
      exists start. auto.
    - intros [start [H1 H2]]. exists start, (node_of start). split; [|exact H2].
      apply in_map_iff. exists start. auto.
  Qed.

  Fixpoint pairwise_disjoint (paths : list path) : Prop :=
    match paths with
    | [] => True
    | p :: rest => (forall q, In q rest -> ~ ancestor_or_self p q /\ ~ ancestor_or_self q p) /\ pairwise_disjoint rest
    end.
  Lemma disjoint_map : forall paths, pairwise_disjoint paths -> disjoint_starts (map (fun p => (p, node_of p)) paths).
  Proof.
    induction paths as [|p paths IH]; intro H; [exact I|]. destruct H as [H1 H2]. split; [|apply IH; exact H2].
    intros r' Hr. apply in_map_iff in Hr. destruct Hr as [q [<- Hq]]. cbn. apply H1. exact Hq.
  Qed.

  Lemma outcome_nodup : forall force k r paths files, resolver_for paths = Some r ->
    pairwise_disjoint paths -> (forall p, In p paths -> names_distinct (node_of p)) ->
    outcome S user_exclude default_exclude default_include (resolve_or_fallback r) dropped force k
        (map (fun p => (p, node_of p)) paths) files ->
    NoDup (oks files).
  Proof.
    intros force k r paths files Hr Hd Hn Ho.
    apply (outcome_perm S user_exclude default_exclude default_include (resolve_or_fallback r) dropped force) in Ho.
    eapply Permutation_NoDup; [symmetry; apply oks_perm; exact Ho|].
    apply walk_all_nodup; [apply disjoint_map; exact Hd|].
    intros x Hx. apply in_map_iff in Hx. destruct Hx as [p [<- Hp]]. cbn. apply Hn. exact Hp.
  Qed.

  Notation fmt_at r := (formatted S O parse_ok print options_of (resolve_or_fallback r)).
  Notation changes_at r := (would_change S O parse_ok print options_of (resolve_or_fallback r)).
  Notation formats_at r := (CliSpec.formats S O parse_ok print options_of (resolve_or_fallback r)).

  (* C14 *)
  Lemma write_command : forall force k d paths r res p,
    resolver_for paths = Some r -> pairwise_disjoint paths -> (forall q, In q paths -> names_distinct (node_of q)) ->
    command false force k d paths res ->
    (selected force r paths p -> write_outcome p = WOk ->
       forall t, d p = Some t -> apply_ops d (r_ops res) p = Some (match fmt_at r p t with Some out => out | None => t end)) /\
    (~ selected force r paths p -> apply_ops d (r_ops res) p = d p) /\
    (touches (r_ops res) p -> selected force r paths p /\ changes_at r d p).
  Proof.
    intros force k d paths r res p Hr Hd Hn Hc. apply command_inv in Hc.
    destruct Hc as [[Hx _]|[r' [files [Hr' [Ho ->]]]]]; [congruence|]. assert (r' = r) by congruence. subst r'. clear Hr'.
    pose proof (outcome_nodup force k r paths files Hr Hd Hn Ho) as Hnd.
    pose proof (outcome_selected force k r paths files p Hr Ho) as Hs.
    unfold format_files.
    destruct (format_paths_write parse_ok print options_of (resolve_or_fallback r) write_outcome d files) as [ops es] eqn:E.
    cbn [r_ops]. assert (ops = fst (format_paths_write parse_ok print options_of (resolve_or_fallback r) write_outcome d files)) as -> by (rewrite E; reflexivity).
    split; [|split].
    - intros Hsel Hw t Ht. rewrite write_final by assumption.
      apply Hs in Hsel. apply oks_In in Hsel.
      assert (existsb (path_eqb p) (oks files) = true) as ->.
      { apply existsb_exists. exists p. split; [exact Hsel|apply path_eqb_refl]. }
      rewrite Ht. destruct (fmt_at r p t); reflexivity.
    - intro Hsel. apply run_other. rewrite Hs. exact Hsel.
    - intro Ht. pose proof (run_touches _ _ _ _ _ _ _ _ _ _ Ht) as Hin. split; [apply Hs; exact Hin|].
      apply (run_at _ _ _ _ _ _ _ _ d p Hnd Hin) in Ht. apply one_touches in Ht. apply Ht.
  Qed.

  Lemma write_command_status : forall force k d paths r res,
    resolver_for paths = Some r -> pairwise_disjoint paths -> (forall q, In q paths -> names_distinct (node_of q)) ->
    (forall q, write_outcome q = WOk) ->
    command false force k d paths res ->
    (r_status res = Success -> forall p, selected force r paths p -> formats_at r d p) /\
    (r_status res = Success \/ r_status res = Error).
  Proof.
    intros force k d paths r res Hr Hd Hn Hw Hc. apply command_inv in Hc.
    destruct Hc as [[Hx _]|[r' [files [Hr' [Ho ->]]]]]; [congruence|]. assert (r' = r) by congruence. subst r'. clear Hr'.
    pose proof (outcome_nodup force k r paths files Hr Hd Hn Ho) as Hnd.
    pose proof (write_errors _ _ parse_ok print options_of (resolve_or_fallback r) write_outcome files d Hnd) as He.
    unfold format_files. destruct (format_paths_write _ _ _ _ _ d files) as [ops es]. cbn [r_status snd] in *.
    split.
    - intros Hst p Hsel. destruct es; [|discriminate].
      apply (outcome_selected force k r paths files p Hr Ho) in Hsel.
      pose proof (proj1 He eq_refl _ Hsel) as H. cbn in H. apply H.
    - destruct es; auto.
  Qed.

  (* C13 *)
  Lemma check_command : forall force k k' d paths res res' p,
    pairwise_disjoint paths -> (forall q, In q paths -> names_distinct (node_of q)) ->
    write_outcome p <> WOpenErr ->
    command true force k d paths res -> command false force k' d paths res' ->
    r_ops res = [] /\ Sorted path_le (r_reported res) /\
    (In p (r_reported res) <-> touches (r_ops res') p).
  Proof.
    intros force k k' d paths res res' p Hd Hn Hw Hc Hc'. apply command_inv in Hc. apply command_inv in Hc'.
    destruct Hc as [[Hx ->]|[r [files [Hr [Ho ->]]]]]; destruct Hc' as [[Hx' ->]|[r' [files' [Hr' [Ho' ->]]]]]; try congruence.
    - split; [reflexivity|]. split; [constructor|]. cbn. split; [intros []|]. intros [o [[] _]].
    - assert (r' = r) by congruence. subst r'.
      pose proof (outcome_nodup force k r paths files Hr Hd Hn Ho) as Hnd.
      pose proof (outcome_nodup force k' r paths files' Hr Hd Hn Ho') as Hnd'.
      split; [unfold format_files; destruct (format_paths_check _ _ _ _ d files); reflexivity|].
      split; [apply check_reported_sorted|].
      rewrite check_reported. rewrite (outcome_selected force k r paths files p Hr Ho).
      rewrite <- (outcome_selected force k' r paths files' p Hr Ho').
      rewrite <- (check_reported S O parse_ok print options_of (resolve_or_fallback r) write_outcome d files' p).
      apply check_is_write; assumption.
  Qed.

  Lemma check_command_status : forall force k d paths r res,
    resolver_for paths = Some r -> command true force k d paths res ->
    (r_status res = Failure -> exists p, selected force r paths p /\ changes_at r d p) /\
    (r_status res = Success -> forall p, selected force r paths p -> formats_at r d p /\ ~ changes_at r d p) /\
    ((exists p, selected force r paths p /\ ~ formats_at r d p) -> r_status res = Error) /\
    ((exists p, selected force r paths p /\ changes_at r d p) -> r_status res <> Success).
  Proof.
    intros force k d paths r res Hr Hc. apply command_inv in Hc.
    destruct Hc as [[Hx _]|[r' [files [Hr' [Ho ->]]]]]; [congruence|]. assert (r' = r) by congruence. subst r'. clear Hr'.
    pose proof (fun p => outcome_selected force k r paths files p Hr Ho) as Hs.
    destruct (check_status S O parse_ok print options_of (resolve_or_fallback r) write_outcome d files) as [C1 [C2 C3]].
    split; [|split; [|split]].
    - intro H. apply C2 in H. destruct H as [_ [p [H1 H2]]]. exists p. split; [apply Hs; exact H1|exact H2].
    - intros H p Hsel. apply C3 in H. destruct H as [H1 H2]. apply Hs in Hsel. split.
      + destruct (fpath_cases S O parse_ok print options_of (resolve_or_fallback r) d p) as [[t [out [G1 [G2 _]]]]|[[t [G1 [G2 _]]]|[G _]]].
        * exists t, out. auto.
        * exists t, t. auto.
        * exfalso. apply H1. exists (FOk p). auto.
      + intro Hc. apply H2. exists p. auto.
    - intros [p [H1 H2]]. apply C1. exists (FOk p). split; [apply Hs; exact H1|exact H2].
    - intros [p [H1 H2]] H. apply C3 in H. destruct H as [_ H]. apply H. exists p. split; [apply Hs; exact H1|exact H2].
  Qed.

  (* C12 *)
  Lemma stdin_is_file : forall check force k d p t res,
    node_of p = File -> d p = Some t -> write_outcome p = WOk ->
    command check force k d [p] res ->
    exists st out, stdin check force p (Some t) = Some (st, out) /\ st = r_status res /\
      (check = true -> out = None) /\
      (check = false -> st = Success -> out = apply_ops d (r_ops res) p).
  Proof.
    intros check force k d p t res Hf Ht Hw Hc. apply command_inv in Hc. unfold CliModel.format_stdin.
    destruct Hc as [[-> ->]|[r [files [Hr [Ho ->]]]]].
    - exists Error, None. split; [reflexivity|]. split; [reflexivity|]. split; [reflexivity|discriminate].
    - rewrite Hr. cbn [map] in Ho. rewrite Hf in Ho.
      destruct (stdin_like_file S user_exclude default_exclude default_include (resolve_or_fallback r) dropped force
        (fun q ps => resolver_rooted [p] r q ps Hr) k p files Ho) as [b [Hb ->]]. cbn zeta. rewrite Hb.
      destruct b.
      + unfold format_files. destruct check; cbn [negb].
        * unfold format_paths_check. cbn [flat_map check_one]. unfold format_path. rewrite Ht.
          destruct (format_source parse_ok print t _) as [new| | |]; cbn;
            (eexists; eexists; split; [reflexivity|]; split; [reflexivity|]; split; [reflexivity|discriminate]).
        * cbn [format_paths_write write_one]. unfold format_path. rewrite Ht.
          destruct (format_source parse_ok print t _) as [new| | |]; cbn [write_path];
            [unfold write_path; rewrite Hw| | |]; cbn;
            (eexists; eexists; split; [reflexivity|]; split; [reflexivity|]; split; [discriminate|]; intros _ Hst;
             try discriminate).
          -- rewrite disk_set_same. reflexivity.
          -- symmetry. exact Ht.
      + unfold format_files. destruct check; cbn;
          (eexists; eexists; split; [reflexivity|]; split; [reflexivity|]; split; [try reflexivity; discriminate|]; intros Hx _; try discriminate).
        symmetry. exact Ht.
  Qed.
End Cmd.
