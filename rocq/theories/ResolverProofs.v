From Coq Require Import List Arith Bool NArith Lia.
From Verif Require Import Text TextFacts BinSearchModel BinSearchProofs SettingsModel SettingsProofs
  ResolverModel ResolverSpec.
Import ListNotations.

Lemma path_cmp_eq : forall a b, path_cmp a b = Eq <-> a = b.
Proof.
  induction a as [|x a IH]; intros [|y b]; cbn; split; intro H; try congruence; try discriminate.
  - destruct (text_cmp x y) eqn:E; try discriminate. apply text_cmp_eq in E. subst.
    f_equal. apply IH. exact H.
  - inversion H; subst. rewrite text_cmp_refl. apply IH. reflexivity.
Qed.
Lemma path_cmp_refl : forall a, path_cmp a a = Eq.
Proof. intro. apply path_cmp_eq. reflexivity. Qed.
Lemma path_cmp_antisym : forall a b, path_cmp b a = CompOpp (path_cmp a b).
Proof.
  induction a as [|x a IH]; intros [|y b]; cbn; try reflexivity.
  rewrite (text_cmp_antisym x y). destruct (text_cmp x y); cbn; [apply IH|reflexivity|reflexivity].
Qed.
Lemma path_cmp_trans : forall a b c, path_cmp a b = Lt -> path_cmp b c = Lt -> path_cmp a c = Lt.
Proof.
  induction a as [|x a IH]; intros [|y b] [|z c]; cbn; intros H1 H2; try congruence; try discriminate.
  destruct (text_cmp x y) eqn:E1; try discriminate; destruct (text_cmp y z) eqn:E2; try discriminate.
  - apply text_cmp_eq in E1. apply text_cmp_eq in E2. subst. rewrite text_cmp_refl.
    eapply IH; eassumption.
  - apply text_cmp_eq in E1. subst. rewrite E2. reflexivity.
  - apply text_cmp_eq in E2. subst. rewrite E1. reflexivity.
  - rewrite (text_cmp_trans_lt x y z) by assumption. reflexivity.
Qed.

Lemma path_eqb_eq : forall a b, path_eqb a b = true <-> a = b.
Proof. intros. unfold path_eqb. destruct (list_eq_dec (list_eq_dec N.eq_dec) a b); split; congruence. Qed.
Lemma path_eqb_refl : forall a, path_eqb a a = true.
Proof. intro. apply path_eqb_eq. reflexivity. Qed.

Lemma starts_with_iff : forall p base, starts_with p base = true <-> exists r, p = base ++ r.
Proof.
  intros p base. revert p. induction base as [|y base IH]; intro p; cbn.
  - split; [intros _; exists p; reflexivity|reflexivity].
  - destruct p as [|x p].
    + split; [discriminate|intros [r H]; discriminate].
    + rewrite andb_true_iff, text_eqb_eq, IH. split.
      * intros [-> [r ->]]. exists r. reflexivity.
      * intros [r H]. inversion H; subst. split; [reflexivity|exists r; reflexivity].
Qed.

Section R.
  Variable V : Type.
  Notation item := (path * V)%type.

  (* strictly increasing paths *)
  Fixpoint psorted (l : list item) : Prop :=
    match l with
    | [] => True
    | x :: r => (forall y, In y r -> path_cmp (fst x) (fst y) = Lt) /\ psorted r
    end.

  Fixpoint lookup (l : list item) (p : path) : option V :=
    match l with
    | [] => None
    | (q, v) :: r => if path_eqb p q then Some v else lookup r p
    end.

  Lemma psorted_nth : forall l i j a b, psorted l -> i < j ->
    nth_error l i = Some a -> nth_error l j = Some b -> path_cmp (fst a) (fst b) = Lt.
  Proof.
    induction l as [|x l IH]; intros i j a b Hs Hij Ha Hb; [destruct i; discriminate|].
    destruct Hs as [H1 H2]. destruct j as [|j]; [lia|]. cbn in Hb. destruct i as [|i].
    - cbn in Ha. inversion Ha; subst. apply H1. eapply nth_error_In. exact Hb.
    - cbn in Ha. apply (IH i j); try assumption. lia.
  Qed.

  Lemma psorted_monotone : forall l p, psorted l ->
    monotone (fun item : item => path_cmp (fst item) p) l.
  Proof.
    intros l p Hs i j a b Hij Ha Hb.
    destruct (Nat.eq_dec i j) as [->|Hne].
    - rewrite Ha in Hb. inversion Hb; subst. lia.
    - assert (path_cmp (fst a) (fst b) = Lt) as Hab by (apply (psorted_nth l i j); auto; lia).
      destruct (path_cmp (fst b) p) eqn:Eb; cbn [rank]; [| |destruct (path_cmp (fst a) p); cbn; lia].
      + apply path_cmp_eq in Eb. subst. rewrite Hab. cbn. lia.
      + rewrite (path_cmp_trans _ _ _ Hab Eb). cbn. lia.
  Qed.

  Lemma lookup_In : forall l p v, psorted l -> (lookup l p = Some v <-> In (p, v) l).
  Proof.
    induction l as [|[q w] l IH]; intros p v Hs; cbn.
    - split; [discriminate|tauto].
    - destruct Hs as [H1 H2]. destruct (path_eqb p q) eqn:E.
      + apply path_eqb_eq in E. subst. split.
        * intro H. inversion H; subst. left. reflexivity.
        * intros [H|H]; [inversion H; reflexivity|].
          apply H1 in H. cbn in H. rewrite path_cmp_refl in H. discriminate.
      + rewrite IH by exact H2. split; [tauto|].
        intros [H|H]; [|exact H]. inversion H; subst. rewrite path_eqb_refl in E. discriminate.
  Qed.

  Lemma psorted_app : forall a b, psorted (a ++ b) <->
    psorted a /\ psorted b /\ (forall x y, In x a -> In y b -> path_cmp (fst x) (fst y) = Lt).
  Proof.
    induction a as [|x a IH]; intro b; cbn.
    - split; [intro H; repeat split; auto; tauto|tauto].
    - rewrite IH. split.
      + intros [H1 [H2 [H3 H4]]]. repeat split; auto.
        * intros y Hy. apply H1. apply in_or_app. tauto.
        * intros x' y [<-|Hx] Hy; [apply H1; apply in_or_app; tauto|apply H4; assumption].
      + intros [[H1 H2] [H3 H4]]. repeat split; auto.
        intros y Hy. apply in_app_or in Hy. destruct Hy as [Hy|Hy]; [apply H1; exact Hy|].
        apply H4; [left; reflexivity|exact Hy].
  Qed.

  Lemma lookup_app : forall a b p,
    lookup (a ++ b) p = match lookup a p with Some v => Some v | None => lookup b p end.
  Proof.
    induction a as [|[q w] a IH]; intros b p; cbn; [reflexivity|].
    destruct (path_eqb p q); [reflexivity|apply IH].
  Qed.

  Lemma lookup_None_notin : forall l p, (forall v, ~ In (p, v) l) -> lookup l p = None.
  Proof.
    induction l as [|[q w] l IH]; intros p H; cbn; [reflexivity|].
    destruct (path_eqb p q) eqn:E.
    - apply path_eqb_eq in E. subst. exfalso. apply (H w). left. reflexivity.
    - apply IH. intros v Hv. apply (H v). right. exact Hv.
  Qed.

  Lemma nth_error_split3 : forall (A : Type) (l : list A) i a, nth_error l i = Some a ->
    l = firstn i l ++ a :: skipn (S i) l.
  Proof.
    induction l as [|x l IH]; intros [|i] a H; try discriminate; cbn in *.
    - inversion H; reflexivity.
    - f_equal. apply IH. exact H.
  Qed.

  Lemma firstn_In_nth : forall (A : Type) (l : list A) i x, In x (firstn i l) ->
    exists j, j < i /\ nth_error l j = Some x.
  Proof.
    induction l as [|y l IH]; intros [|i] x H; cbn in H; try tauto.
    destruct H as [<-|H].
    - exists 0. split; [lia|reflexivity].
    - destruct (IH i x H) as [j [Hj Hx]]. exists (S j). split; [lia|exact Hx].
  Qed.
  Lemma skipn_In_nth : forall (A : Type) (l : list A) i x, In x (skipn i l) ->
    exists j, i <= j /\ nth_error l j = Some x.
  Proof.
    induction l as [|y l IH]; intros [|i] x H; cbn in H; try tauto.
    - apply (In_nth_error (y :: l)) in H. destruct H as [j Hj]. exists j. split; [lia|exact Hj].
    - destruct (IH i x H) as [j [Hj Hx]]. exists (S j). split; [lia|exact Hx].
  Qed.

  (* add *)
  Lemma add_correct : forall r p v r' out, psorted (items r) ->
    resolver_add r p v = (r', out) ->
    psorted (items r') /\ fallback r' = fallback r /\
    out = lookup (items r) p /\
    (forall q, lookup (items r') q = if path_eqb q p then Some v else lookup (items r) q).
  Proof.
    intros r p v r' out Hs H. unfold resolver_add in H.
    pose proof (binary_search_spec _ _ _ (psorted_monotone (items r) p Hs)) as Hb.
    destruct (binary_search_by _ (items r)) as [i|i].
    - destruct Hb as [[q old] [Hn E]]. apply path_cmp_eq in E. cbn in E. subst q.
      rewrite Hn in H. inversion H; subst; clear H. cbn [items fallback].
      pose proof (nth_error_split3 _ _ _ _ Hn) as Hl.
      set (a := firstn i (items r)) in *. set (b := skipn (S i) (items r)) in *.
      unfold vec_replace. fold a. fold b. rewrite Hl in Hs |- *.
      rewrite psorted_app in Hs. destruct Hs as [Ha [[Hb1 Hb2] Hab]].
      assert (lookup a p = None) as Hla.
      { apply lookup_None_notin. intros w Hw. specialize (Hab _ _ Hw (or_introl eq_refl)).
        cbn in Hab. rewrite path_cmp_refl in Hab. discriminate. }
      split; [|split; [reflexivity|split]].
      + rewrite psorted_app. repeat split; auto.
        intros x y Hx [<-|Hy]; [apply (Hab x (p, old)); [exact Hx|left; reflexivity]|].
        apply Hab; [exact Hx|right; exact Hy].
      + rewrite lookup_app, Hla. cbn. rewrite path_eqb_refl. reflexivity.
      + intro q. rewrite !lookup_app. cbn [lookup]. destruct (path_eqb q p) eqn:E.
        * apply path_eqb_eq in E. subst. rewrite Hla. reflexivity.
        * reflexivity.
    - destruct Hb as [Hi [Hlo Hhi]]. inversion H; subst; clear H. cbn [items fallback].
      unfold vec_insert.
      set (a := firstn i (items r)). set (b := skipn i (items r)).
      assert (items r = a ++ b) as Hl by (symmetry; apply firstn_skipn).
      assert (forall x, In x a -> path_cmp (fst x) p = Lt) as Halt.
      { intros x Hx. destruct (firstn_In_nth _ _ _ _ Hx) as [j [Hj Hn]]. apply (Hlo j); assumption. }
      assert (forall y, In y b -> path_cmp p (fst y) = Lt) as Hbgt.
      { intros y Hy. destruct (skipn_In_nth _ _ _ _ Hy) as [j [Hj Hn]].
        specialize (Hhi j y Hj Hn). cbn in Hhi. rewrite path_cmp_antisym, Hhi. reflexivity. }
      assert (lookup a p = None) as Hla.
      { apply lookup_None_notin. intros w Hw. specialize (Halt _ Hw). cbn in Halt.
        rewrite path_cmp_refl in Halt. discriminate. }
      assert (lookup b p = None) as Hlb.
      { apply lookup_None_notin. intros w Hw. specialize (Hbgt _ Hw). cbn in Hbgt.
        rewrite path_cmp_refl in Hbgt. discriminate. }
      rewrite Hl in Hs. rewrite psorted_app in Hs. destruct Hs as [Ha [Hb Hab]].
      split; [|split; [reflexivity|split]].
      + rewrite psorted_app. repeat split; auto.
        intros x y Hx [<-|Hy]; [apply Halt; exact Hx|apply Hab; assumption].
      + rewrite Hl, lookup_app, Hla, Hlb. reflexivity.
      + intro q. rewrite Hl at 1. rewrite !lookup_app. cbn [lookup].
        destruct (path_eqb q p) eqn:E.
        * apply path_eqb_eq in E. subst. rewrite Hla. reflexivity.
        * reflexivity.
  Qed.

  Lemma remove_correct : forall r p r' out, psorted (items r) ->
    resolver_remove r p = (r', out) ->
    psorted (items r') /\ fallback r' = fallback r /\
    out = lookup (items r) p /\
    (forall q, lookup (items r') q = if path_eqb q p then None else lookup (items r) q).
  Proof.
    intros r p r' out Hs H. unfold resolver_remove in H.
    pose proof (binary_search_spec _ _ _ (psorted_monotone (items r) p Hs)) as Hb.
    destruct (binary_search_by _ (items r)) as [i|i].
    - destruct Hb as [[q old] [Hn E]]. apply path_cmp_eq in E. cbn in E. subst q.
      rewrite Hn in H. inversion H; subst; clear H. cbn [items fallback].
      pose proof (nth_error_split3 _ _ _ _ Hn) as Hl.
      set (a := firstn i (items r)) in *. set (b := skipn (S i) (items r)) in *.
      unfold vec_remove. fold a. fold b. rewrite Hl in Hs |- *.
      rewrite psorted_app in Hs. destruct Hs as [Ha [[Hb1 Hb2] Hab]].
      assert (lookup a p = None) as Hla.
      { apply lookup_None_notin. intros w Hw. specialize (Hab _ _ Hw (or_introl eq_refl)).
        cbn in Hab. rewrite path_cmp_refl in Hab. discriminate. }
      assert (lookup b p = None) as Hlb.
      { apply lookup_None_notin. intros w Hw. specialize (Hb1 _ Hw). cbn in Hb1.
        rewrite path_cmp_refl in Hb1. discriminate. }
      split; [|split; [reflexivity|split]].
      + rewrite psorted_app. repeat split; auto.
        intros x y Hx Hy. apply Hab; [exact Hx|right; exact Hy].
      + rewrite lookup_app, Hla. cbn. rewrite path_eqb_refl. reflexivity.
      + intro q. rewrite !lookup_app. cbn [lookup]. destruct (path_eqb q p) eqn:E.
        * apply path_eqb_eq in E. subst. rewrite Hla. exact Hlb.
        * reflexivity.
    - destruct Hb as [Hi [Hlo Hhi]]. inversion H; subst; clear H.
      assert (lookup (items r') p = None) as Hl.
      { apply lookup_None_notin. intros w Hw. apply In_nth_error in Hw. destruct Hw as [j Hj].
        destruct (Nat.lt_ge_cases j i) as [L|L].
        - specialize (Hlo _ _ L Hj). cbn in Hlo. rewrite path_cmp_refl in Hlo. discriminate.
        - specialize (Hhi _ _ L Hj). cbn in Hhi. rewrite path_cmp_refl in Hhi. discriminate. }
      repeat split; auto.
      intro q. destruct (path_eqb q p) eqn:E; [|reflexivity].
      apply path_eqb_eq in E. subst. exact Hl.
  Qed.

  Definition refines (r : resolver V) (m : store V) : Prop :=
    psorted (items r) /\ forall q, lookup (items r) q = m q.

  Lemma run_refines_gen : forall h r outs m,
    refines r m ->
    let (r', outs1) := fold_left resolver_step h (r, outs) in
    let (m', outs2) := fold_left spec_step h (m, outs) in
    refines r' m' /\ outs1 = outs2 /\ fallback r' = fallback r.
  Proof.
    induction h as [|o h IH]; intros r outs m [Hs Hl]; cbn [fold_left].
    - split; [split; assumption|auto].
    - destruct o as [p v|p|]; cbn [resolver_step spec_step].
      + destruct (resolver_add r p v) as [r' out] eqn:E.
        destruct (add_correct _ _ _ _ _ Hs E) as [H1 [H2 [H3 H4]]]. subst out. rewrite Hl.
        specialize (IH r' (outs ++ [m p]) (update m p (Some v))).
        destruct (fold_left resolver_step h (r', outs ++ [m p])) as [r2 o2].
        destruct (fold_left spec_step h (update m p (Some v), outs ++ [m p])) as [m2 o3].
        rewrite <- H2. apply IH. split; [exact H1|]. intro q. rewrite H4. unfold update.
        destruct (path_eqb q p); [reflexivity|apply Hl].
      + destruct (resolver_remove r p) as [r' out] eqn:E.
        destruct (remove_correct _ _ _ _ Hs E) as [H1 [H2 [H3 H4]]]. subst out. rewrite Hl.
        specialize (IH r' (outs ++ [m p]) (update m p None)).
        destruct (fold_left resolver_step h (r', outs ++ [m p])) as [r2 o2].
        destruct (fold_left spec_step h (update m p None, outs ++ [m p])) as [m2 o3].
        rewrite <- H2. apply IH. split; [exact H1|]. intro q. rewrite H4. unfold update.
        destruct (path_eqb q p); [reflexivity|apply Hl].
      + specialize (IH (resolver_clear r) outs empty_store).
        destruct (fold_left resolver_step h (resolver_clear r, outs)) as [r2 o2].
        destruct (fold_left spec_step h (empty_store, outs)) as [m2 o3].
        change (fallback r) with (fallback (resolver_clear r)). apply IH.
        split; [exact I|reflexivity].
  Qed.

  Lemma run_refines : forall fb h,
    refines (fst (resolver_run fb h)) (fst (spec_run h)) /\
    snd (resolver_run fb h) = snd (spec_run h) /\
    fallback (fst (resolver_run fb h)) = fb.
  Proof.
    intros fb h. unfold resolver_run, spec_run.
    pose proof (run_refines_gen h (resolver_new fb) [] empty_store) as H.
    destruct (fold_left resolver_step h (resolver_new fb, [])) as [r outs].
    destruct (fold_left spec_step h (empty_store, [])) as [m outs'].
    apply H. split; [exact I|reflexivity].
  Qed.

  (* resolve *)
  Lemma prefix_cmp : forall a b r, path_cmp a (a ++ b :: r) = Lt.
  Proof.
    induction a as [|x a IH]; intros b r; cbn; [reflexivity|].
    rewrite text_cmp_refl. apply IH.
  Qed.

  Lemma find_rev_last : forall (f : item -> bool) l,
    match find f (rev l) with
    | Some x => exists a b, l = a ++ x :: b /\ f x = true /\ forall y, In y b -> f y = false
    | None => forall y, In y l -> f y = false
    end.
  Proof.
    intros f l. induction l as [|x l IH]; cbn [rev find].
    - cbn. tauto.
    - assert (forall l1 l2, find f (l1 ++ l2) = match find f l1 with Some y => Some y | None => find f l2 end) as Hfa.
      { induction l1 as [|z l1 IH1]; intro l2; cbn; [reflexivity|].
        destruct (f z); [reflexivity|apply IH1]. }
      rewrite Hfa. destruct (find f (rev l)) as [y|].
      + destruct IH as [a [b [-> [H1 H2]]]]. exists (x :: a), b. auto.
      + cbn. destruct (f x) eqn:E.
        * exists [], l. auto.
        * intros y [<-|Hy]; [exact E|apply IH; exact Hy].
  Qed.

  Lemma chain_In : forall p q, In q (chain p) <-> exists r, p = q ++ r.
  Proof.
    intros p q. unfold chain. rewrite in_map_iff. split.
    - intros [n [<- _]]. exists (skipn n p). symmetry. apply firstn_skipn.
    - intros [r ->]. exists (length q). split.
      + rewrite firstn_app, firstn_all, Nat.sub_diag. cbn. apply app_nil_r.
      + rewrite <- in_rev. apply in_seq. rewrite app_length. lia.
  Qed.

  Lemma firstn_len_lt : forall (p : path) i, S i <= length p ->
    exists c, firstn (S i) p = firstn i p ++ [c].
  Proof.
    induction p as [|x p IH]; intros i H; cbn in H; [lia|].
    destruct i as [|i]; cbn.
    - exists x. reflexivity.
    - destruct (IH i) as [c Hc]; [lia|]. exists c. f_equal. exact Hc.
  Qed.

  (* the chain is the list of prefixes by decreasing length *)
  Lemma first_on_chain : forall (m : store V) p q v,
    first_on m (chain p) = Some (q, v) <->
    m q = Some v /\ (exists r, p = q ++ r) /\
    (forall q', (exists r, p = q' ++ r) -> length q < length q' -> m q' = None).
  Proof.
    intros m p q v. unfold chain.
    assert (forall n, n <= length p ->
      (first_on m (map (fun k => firstn k p) (rev (seq 0 (S n)))) = Some (q, v) <->
       m q = Some v /\ (exists k, k <= n /\ q = firstn k p) /\
       (forall k, k <= n -> length q < k -> m (firstn k p) = None))) as Hgen.
    { induction n as [|n IH]; intro Hn.
      - cbn. destruct (m []) as [w|] eqn:E; split; intro H.
        + inversion H; subst. split; [exact E|]. split; [exists 0; auto|]. intros k H1 H2. cbn in H2. lia.
        + destruct H as [H1 [[k [Hk ->]] _]]. assert (k = 0) by lia. subst. cbn in *. congruence.
        + discriminate.
        + destruct H as [H1 [[k [Hk ->]] _]]. assert (k = 0) by lia. subst. cbn in *. congruence.
      - rewrite seq_S, rev_app_distr. cbn [rev app map first_on Nat.add].
        destruct (m (firstn (S n) p)) as [w|] eqn:E.
        + split; intro H.
          * remember (firstn (S n) p) as f eqn:Ef. injection H as -> ->.
            split; [exact E|]. split; [exists (S n); auto|].
            intros k Hk Hl. rewrite Ef, firstn_length in Hl. lia.
          * destruct H as [H1 [[k [Hk Hq]] H3]].
            destruct (Nat.eq_dec k (S n)) as [->|Hne]; [subst; congruence|].
            exfalso. assert (m (firstn (S n) p) = None) as Hno.
            { apply H3; [lia|]. subst q. rewrite firstn_length. lia. }
            congruence.
        + rewrite IH by lia. split; intros [H1 [[k [Hk Hq]] H3]].
          * split; [exact H1|]. split; [exists k; split; [lia|exact Hq]|].
            intros j Hj Hl. destruct (Nat.eq_dec j (S n)) as [->|Hne]; [exact E|].
            apply H3; [lia|exact Hl].
          * split; [exact H1|]. split.
            -- destruct (Nat.eq_dec k (S n)) as [->|Hne]; [subst; congruence|].
               exists k. split; [lia|exact Hq].
            -- intros j Hj Hl. apply H3; [lia|exact Hl]. }
    rewrite (Hgen (length p)) by lia.
    split; intros [H1 [[k H2] H3]].
    - destruct H2 as [Hk ->]. split; [exact H1|]. split.
      + exists (skipn k p). symmetry. apply firstn_skipn.
      + intros q' [r Hr] Hl.
        assert (q' = firstn (length q') p) as ->.
        { rewrite Hr, firstn_app, firstn_all, Nat.sub_diag. cbn. symmetry. apply app_nil_r. }
        apply H3; [|exact Hl]. rewrite Hr, app_length. lia.
    - subst p. split; [exact H1|]. split.
      + exists (length q). split; [rewrite app_length; lia|].
        rewrite firstn_app, firstn_all, Nat.sub_diag. cbn. symmetry. apply app_nil_r.
      + intros j Hj Hl. apply H3.
        * exists (skipn j (q ++ k)). symmetry. apply firstn_skipn.
        * rewrite firstn_length. lia.
  Qed.

  Lemma first_on_None : forall (m : store V) l,
    first_on m l = None <-> forall q, In q l -> m q = None.
  Proof.
    induction l as [|q l IH]; cbn; [tauto|].
    destruct (m q) as [v|] eqn:E; split; intro H.
    - discriminate.
    - specialize (H q (or_introl eq_refl)). congruence.
    - intros q' [<-|Hq']; [exact E|]. apply IH; assumption.
    - apply IH. intros q' Hq'. apply H. right. exact Hq'.
  Qed.

  Lemma prefixes_comparable : forall (p q q' : path) r r', p = q ++ r -> p = q' ++ r' ->
    length q < length q' -> exists c s, q' = q ++ c :: s.
  Proof.
    intros p q q' r r' -> H Hl. revert q' r r' H Hl.
    induction q as [|x q IH]; intros q' r r' H Hl; cbn in *.
    - destruct q' as [|c s]; cbn in Hl; [lia|]. exists c, s. reflexivity.
    - destruct q' as [|y q']; cbn in *; [lia|]. inversion H; subst.
      destruct (IH q' r r') as [c [s ->]]; [assumption|lia|]. exists c, s. reflexivity.
  Qed.

  Lemma resolve_refines : forall r m p, refines r m ->
    resolver_resolve r p = spec_resolve m p.
  Proof.
    intros r m p [Hs Hl]. unfold resolver_resolve, spec_resolve.
    pose proof (find_rev_last (fun item => starts_with p (fst item)) (items r)) as Hf.
    destruct (find _ (rev (items r))) as [[q v]|].
    - destruct Hf as [a [b [Hi [Hst Hno]]]]. cbn in Hst. apply starts_with_iff in Hst.
      symmetry. apply first_on_chain. split; [|split; [exact Hst|]].
      + rewrite <- Hl. apply lookup_In; [exact Hs|]. rewrite Hi. apply in_or_app. right. left. reflexivity.
      + intros q' Hq' Hlen. rewrite <- Hl.
        destruct (lookup (items r) q') as [w|] eqn:E; [|reflexivity].
        apply lookup_In in E; [|exact Hs].
        destruct Hst as [r1 Hr1]. destruct Hq' as [r2 Hr2].
        destruct (prefixes_comparable _ _ _ _ _ Hr1 Hr2 Hlen) as [c [s Hqs]].
        rewrite Hi in E, Hs. rewrite psorted_app in Hs. destruct Hs as [_ [[Hs1 _] Hs2]].
        apply in_app_or in E. destruct E as [E|[E|E]].
        * specialize (Hs2 _ _ E (or_introl eq_refl)). cbn in Hs2.
          rewrite path_cmp_antisym in Hs2. rewrite Hqs, prefix_cmp in Hs2. discriminate.
        * apply (f_equal fst) in E. cbn in E. rewrite E in Hlen. lia.
        * specialize (Hno _ E). cbn in Hno.
          assert (starts_with p q' = true) by (apply starts_with_iff; exists r2; exact Hr2). congruence.
    - symmetry. apply first_on_None. intros q Hq. apply chain_In in Hq.
      rewrite <- Hl. destruct (lookup (items r) q) as [v|] eqn:E; [|reflexivity].
      apply lookup_In in E; [|exact Hs]. specialize (Hf _ E). cbn in Hf.
      apply starts_with_iff in Hq. congruence.
  Qed.

  Lemma run_resolve : forall (fb : V) (h : list (op V)) p,
    resolver_resolve (fst (resolver_run fb h)) p = spec_resolve (fst (spec_run h)) p.
  Proof. intros. apply resolve_refines. apply run_refines. Qed.

  Lemma run_resolve_or_fallback : forall (fb : V) (h : list (op V)) p,
    resolve_or_fallback (fst (resolver_run fb h)) p =
    match spec_resolve (fst (spec_run h)) p with Some (_, v) => v | None => fb end.
  Proof.
    intros. unfold resolve_or_fallback. rewrite run_resolve.
    destruct (spec_resolve _ p) as [[q v]|]; [reflexivity|].
    apply run_refines.
  Qed.

  Lemma run_outputs : forall (fb : V) (h : list (op V)), snd (resolver_run fb h) = snd (spec_run h).
  Proof. intros. apply run_refines. Qed.

  Lemma run_matches : forall (fb : V) (h : list (op V)) p q v,
    In (q, v) (resolver_matches (fst (resolver_run fb h)) p) <->
    fst (spec_run h) q = Some v /\ exists r, p = q ++ r.
  Proof.
    intros fb h p q v. unfold resolver_matches. rewrite filter_In. cbn [fst].
    destruct (run_refines fb h) as [[Hs Hl] _].
    rewrite starts_with_iff, <- Hl, lookup_In by exact Hs. reflexivity.
  Qed.

  Lemma spec_resolve_deepest : forall (m : store V) p q v,
    spec_resolve m p = Some (q, v) <->
    m q = Some v /\ (exists r, p = q ++ r) /\
    (forall q', (exists r, p = q' ++ r) -> length q < length q' -> m q' = None).
  Proof. exact first_on_chain. Qed.
End R.
